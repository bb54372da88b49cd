(* Totality of ir_split.rs, continued: all the segments of a circuit, and what is known of their layers. *)
From Verif Require Import Prelude Field Sorting Expr Topo Ir IrFacts IrInst Sim Builder BuilderFacts LaySched Layering IrSplit SplitCut SplitSegs SplitTot.
From Coq Require Import Sorted.
Open Scope nat_scope.

Section LayB.
  Context {F : Fld}.
  Notation DI := (DestI F false).
  Notation Pool := (CPool (F := F)).
  Lemma nth_error_firstn_lt {A} (l : list A) : forall k j, j < k -> nth_error (firstn k l) j = nth_error l j.
  Proof. induction l as [|x l IH]; intros [|k] [|j] H; cbn; auto; try lia. apply IH. lia. Qed.
  Definition ocond (ml mx loc : list nat) (stop : nat) (G : SegSt) (j : nat) : bool :=
    (nth j (g_isout G) false || ((getn ml j <=? stop) && (stop <=? getn mx j))) && negb (getn loc j =? 0).
  Lemma outs_exact ml mx loc stop nv js : forall outs G outs' G', fold_left (seg_out1 ml mx loc stop) js (outs, G) = (outs', G') -> NoDup js -> (forall j, In j js -> j < nv) ->
    length (g_new G) = nv -> length (g_isout G) = nv -> length (g_fin G) = nv ->
    length (g_new G') = nv /\ length (g_isout G') = nv /\ length (g_fin G') = nv /\ g_count G <= g_count G' /\ length outs' = length outs + (g_count G' - g_count G) /\
    forall j, (In j js -> ocond ml mx loc stop G j = true -> exists k, g_count G <= k < g_count G' /\ nth j (g_new G') RUnknown = RInt k /\ nth j (g_isout G') false = false /\
                nth j (g_fin G') None = if nth j (g_isout G) false then Some (RInt k) else nth j (g_fin G) None) /\
              (~ (In j js /\ ocond ml mx loc stop G j = true) -> nth j (g_new G') RUnknown = nth j (g_new G) RUnknown /\ nth j (g_isout G') false = nth j (g_isout G) false /\ nth j (g_fin G') None = nth j (g_fin G) None).
  Proof.
    induction js as [|x js IH]; intros outs G outs' G' H Hn Hr L1 L2 L3; cbn [fold_left] in H.
    - inversion H; subst outs' G'. repeat split; auto; try lia. intros [].
    - apply NoDup_cons_iff in Hn; destruct Hn as [Hx Hn']. unfold seg_out1 at 2 in H. fold (ocond ml mx loc stop G x) in H. destruct (ocond ml mx loc stop G x) eqn:Ec.
      + set (G1 := {| g_new := _; g_isout := _; g_fin := _; g_count := _ |}) in H.
        assert (M1 : length (g_new G1) = nv) by (unfold G1; cbn; unfold upd_ref; rewrite upd_length; auto).
        assert (M2 : length (g_isout G1) = nv) by (unfold G1; cbn; destruct (nth x _ _); rewrite ?upd_length; auto).
        assert (M3 : length (g_fin G1) = nv) by (unfold G1; cbn; destruct (nth x _ _); rewrite ?upd_length; auto).
        assert (Hxv : x < nv) by (apply Hr; left; auto).
        assert (N1 : nth x (g_new G1) RUnknown = RInt (g_count G)). { unfold G1; cbn; unfold upd_ref. rewrite nth_upd, Nat.eqb_refl, (proj2 (Nat.ltb_lt _ _)) by lia. auto. }
        assert (N2 : nth x (g_isout G1) false = false). { unfold G1; cbn. destruct (nth x (g_isout G) false) eqn:Eo; auto. rewrite nth_upd, Nat.eqb_refl, (proj2 (Nat.ltb_lt _ _)) by lia. auto. }
        assert (N3 : nth x (g_fin G1) None = if nth x (g_isout G) false then Some (RInt (g_count G)) else nth x (g_fin G) None). { unfold G1; cbn. destruct (nth x (g_isout G) false) eqn:Eo; auto. rewrite nth_upd, Nat.eqb_refl, (proj2 (Nat.ltb_lt _ _)) by lia. auto. }
        assert (O : forall j, j <> x -> nth j (g_new G1) RUnknown = nth j (g_new G) RUnknown /\ nth j (g_isout G1) false = nth j (g_isout G) false /\ nth j (g_fin G1) None = nth j (g_fin G) None).
        { intros j Hj. unfold G1; cbn; unfold upd_ref. assert (Ex : (x =? j) = false) by (apply Nat.eqb_neq; auto). destruct (nth x (g_isout G) false); rewrite !nth_upd, ?Ex; cbn; auto. }
        assert (C1 : g_count G1 = S (g_count G)) by reflexivity. clearbody G1.
        destruct (IH _ _ _ _ H Hn') as [A1 [A2 [A3 [A4 [A5 A6]]]]]; auto; [intros; apply Hr; right; auto|]. rewrite app_length in A5. cbn [length] in A5. split; auto. split; auto. split; auto. split; [lia|]. split; [lia|].
        assert (Hoc : forall j, j <> x -> ocond ml mx loc stop G1 j = ocond ml mx loc stop G j). { intros j Hj. unfold ocond. destruct (O j Hj) as [_ [-> _]]. auto. }
        intros j. destruct (Nat.eq_dec j x) as [->|Hj].
        * destruct (A6 x) as [_ B]. destruct B as [B1 [B2 B3]]; [tauto|]. split; [|intros Hc; exfalso; apply Hc; split; [left; auto|auto]]. intros _ _. exists (g_count G). split; [lia|]. rewrite B1, B2, B3. auto.
        * destruct (A6 j) as [B B']. destruct (O j Hj) as [O1 [O2 O3]]. rewrite (Hoc j Hj), O1, O2, O3 in *. split; [intros [->|Hi] Hc; [contradiction|]; destruct (B Hi Hc) as [k [K1 K2]]; exists k; split; [lia|auto]|]. intros Hc. apply B'. intros [Hi Hc']. apply Hc. split; [right; auto|auto].
      + destruct (IH _ _ _ _ H Hn') as [A1 [A2 [A3 [A4 [A5 A6]]]]]; auto; [intros; apply Hr; right; auto|]. split; auto. split; auto. split; auto. split; [lia|]. split; [lia|]. intros j. destruct (A6 j) as [B B']. split; [intros [->|Hi] Hc; [congruence|auto]|]. intros Hc. apply B'. intros [Hi Hc']. apply Hc. split; [right; auto|auto].
  Qed.

  Definition ref_at (il ints : list nat) (r : SRef) (l : nat) : Prop := match r with RIn i => nth_error il i = Some l | RInt k => nth_error ints k = Some l | RUnknown => False end.
  Definition ref_le (il ints : list nat) (m : nat) (r : SRef) : Prop := exists l, ref_at il ints r l /\ l <= m.
  (* the segments, run one after the other, find what they need; [ints] holds the layers of the internal variables *)
  Fixpoint segs_lay (pool : Pool) (at_ il ints : list nat) (segs : list Seg) (ints' : list nat) : Prop :=
    match segs with
    | [] => ints' = ints
    | s :: segs => exists c, cpool_get pool (sg_id s) = Some c /\ Forall (ref_le il ints (sg_start s)) (sg_ins s) /\ sg_start s < sg_end s /\ (forall a, In a at_ -> a <= sg_start s \/ sg_end s <= a) /\
        segs_lay pool at_ il (ints ++ repeat (sg_end s) (length (outputs c))) segs ints'
    end.
  Lemma segs_lay_le p q at_ at_' il segs : pool_le p q -> incl at_' at_ -> forall ints ints', segs_lay p at_ il ints segs ints' -> segs_lay q at_' il ints segs ints'.
  Proof. intros Hl Hi. induction segs as [|s segs IH]; intros ints ints' H; auto. destruct H as [c [H1 [H2 [H3 [H4 H5]]]]]. exists c. split; [eapply pool_le_get; eauto|]. auto 10. Qed.

  Section Segs.
    Variables (nin nv : nat) (is : list (DInsn F)) (ml mx at0 il outs sc : list nat).
    Hypothesis Hnv : nv = S (nin + nouts DI is).
    Hypothesis Hil : forall i, i < nin -> nth_error il i = Some (getn ml (S i)).
    Hypothesis Hin : forall j, 0 < j <= nin -> In (getn ml j) at0.
    Hypothesis Hlay : lay (fun x l => l <= getn mx x) ml at0 is nin sc.
    Hypothesis Hout : forall o, In o outs -> 0 < o < nv /\ In (getn ml o) at0.
    Record GI (start : nat) (G : SegSt) (ints : list nat) : Prop := {
      gi_new : length (g_new G) = nv; gi_isout : length (g_isout G) = nv; gi_fin : length (g_fin G) = nv;
      gi_cnt : length ints = g_count G; gi_le : Forall (fun l => l <= start) ints;
      gi_d : forall j, 0 < j <= nv - 2 -> getn ml j <= start -> start <= getn mx j -> ~ (j <= nin /\ getn ml j = start) -> exists k, k < g_count G /\ nth j (g_new G) RUnknown = RInt k;
      gi_in : forall o, 0 < o <= nin -> nth o (g_isout G) false = false /\ nth o (g_fin G) None = Some (RIn (o - 1));
      gi_a : forall o, In o outs -> nin < o -> start < getn ml o -> nth o (g_isout G) false = true;
      gi_b : forall o, In o outs -> nin < o -> getn ml o <= start -> nth o (g_isout G) false = false /\ exists k, nth o (g_fin G) None = Some (RInt k) /\ nth_error ints k = Some (getn ml o) }.
    (* what is not an output is not taken for one *)
    Definition only (G : SegSt) : Prop := forall j, nth j (g_isout G) false = true -> In j outs.
    Lemma seg1_total start stop G ints pool : In start at0 -> In stop at0 -> start < stop -> (forall a, In a at0 -> a <= start \/ stop <= a) -> GI start G ints -> only G ->
      exists s G' pool' c, seg1 nin nv is ml mx start stop G pool = Some (s, G', pool') /\ pool_le pool pool' /\ only G' /\ sg_start s = start /\ sg_end s = stop /\ cpool_get pool' (sg_id s) = Some c /\
        Forall (ref_le il ints start) (sg_ins s) /\ GI stop G' (ints ++ repeat stop (length (outputs c))).
    Proof.
      intros Hs Ht Hlt Hcons HG HO. destruct HG as [I1 I2 I3 I4 I5 I6 I7 I8 I9].
      destruct (seg_total0 nin nv ml mx at0 Hin start stop Hs Ht Hlt Hcons is sc Hlay Hnv) as [is' [loc [A [B C]]]].
      unfold seg1. rewrite A. cbn [obind fst snd]. set (js := seg_inputs nin nv start ml mx) in *.
      destruct (fold_left (seg_out1 ml mx loc stop) (seq 1 (nv - 1)) ([], G)) as [os G'] eqn:Ef. destruct (cpool_add pool _) as [id pool'] eqn:Ep.
      destruct (cpool_add_spec _ _ _ _ Ep) as [Hext [Hget _]]. destruct (outs_exact ml mx loc stop nv _ _ _ _ _ Ef) as [D1 [D2 [D3 [D4 [D5 D6]]]]]; auto; [apply seq_NoDup|intros j Hj; apply in_seq in Hj; lia|]. cbn [length] in D5.
      eexists _, G', pool', _. split; [reflexivity|]. split; [exact Hext|].
      assert (Hsq : forall j, 0 < j < nv -> In j (seq 1 (nv - 1))) by (intros; apply in_seq; lia).
      assert (Hsq' : forall j, In j (seq 1 (nv - 1)) -> 0 < j < nv) by (intros j Hj; apply in_seq in Hj; lia).
      assert (Hoc : forall j, ocond ml mx loc stop G j = true <-> (nth j (g_isout G) false = true \/ (getn ml j <= stop <= getn mx j)) /\ getn loc j <> 0).
      { intros j. unfold ocond. rewrite andb_true_iff, orb_true_iff, andb_true_iff, !Nat.leb_le, negb_true_iff, Nat.eqb_neq. tauto. }
      cbn [sg_start sg_end sg_id sg_ins outputs].
      split. { intros j Hj. destruct (D6 j) as [K1 K2]. destruct (in_dec Nat.eq_dec j (seq 1 (nv - 1))) as [Hi|Hi]; [|apply HO; destruct K2 as [_ [<- _]]; [tauto|auto]]. destruct (ocond ml mx loc stop G j) eqn:Eo; [destruct (K1 Hi eq_refl) as [k [_ [_ [K _]]]]; congruence|]. apply HO. destruct K2 as [_ [<- _]]; [intros [_ ?]; congruence|auto]. }
      split; auto. split; auto. split; [exact Hget|].
      split.
      { apply Forall_forall. intros r Hr. apply in_map_iff in Hr. destruct Hr as [j [<- Hj]]. destruct (js_le nin nv ml mx start stop Hlt j Hj) as [J1 J2]. destruct ((getn ml j =? start) && (j <=? nin)) eqn:E.
        - apply andb_true_iff in E. rewrite Nat.eqb_eq, Nat.leb_le in E. destruct E as [E1 E2]. exists start. split; [|lia]. cbn [ref_at]. rewrite Hil by lia. replace (S (j - 1)) with j by lia. congruence.
        - apply andb_false_iff in E. rewrite Nat.eqb_neq, Nat.leb_gt in E. unfold js, seg_inputs in Hj. apply in_app_iff in Hj. rewrite !filter_In, !in_seq in Hj. destruct Hj as [[Hj Hj']|[Hj Hj']]; [apply Nat.eqb_eq in Hj'; lia|]. apply andb_true_iff in Hj'. destruct Hj' as [_ Hj']. apply Nat.leb_le in Hj'.
          destruct (I6 j) as [k [K1 K2]]; auto; try lia. rewrite K2. assert (Hk : k < length ints) by lia. apply nth_error_Some in Hk. destruct (nth_error ints k) as [l|] eqn:El; [|congruence]. exists l. split; [exact El|]. rewrite Forall_forall in I5. apply I5. eapply nth_error_In; eauto. }
      assert (Hcnt : length os = g_count G' - g_count G) by lia.
      assert (Hnew : forall k, g_count G <= k < g_count G' -> nth_error (ints ++ repeat stop (length os)) k = Some stop). { intros k Hk. rewrite nth_error_app2 by lia. apply nth_error_repeat. lia. }
      assert (Hold : forall k l, nth_error ints k = Some l -> nth_error (ints ++ repeat stop (length os)) k = Some l). { intros k l Hk. rewrite nth_error_app1; auto. apply nth_error_Some. congruence. }
      cbn [outputs]. constructor; auto.
      - rewrite app_length, repeat_length. lia.
      - apply Forall_app. split; [eapply Forall_impl; [|exact I5]; cbn; intros; lia|]. apply Forall_forall. intros l Hl. apply repeat_spec in Hl. lia.
      - intros j Hj H1 H2 H3. assert (Hl : getn loc j <> 0).
        { apply C; [lia|]. destruct (Nat.le_gt_cases (getn ml j) start) as [Hc|Hc]; [left; eapply js_need; eauto; lia|]. right. split; [|lia]. destruct (Nat.le_gt_cases j nin) as [Hn|Hn]; auto. destruct (Hcons _ (Hin j ltac:(lia))); lia. }
        destruct (D6 j) as [K _]. destruct K as [k [K1 [K2 _]]]; [apply Hsq; lia|apply Hoc; split; auto|]. exists k. split; [lia|auto].
      - intros o Ho. destruct (I7 o Ho) as [P1 P2]. destruct (D6 o) as [K1 K2]. destruct (ocond ml mx loc stop G o) eqn:Eo.
        + destruct K1 as [k [_ [_ [Q1 Q2]]]]; auto; [apply Hsq; lia|]. rewrite P1 in Q2. rewrite Q1, Q2. auto.
        + destruct K2 as [_ [-> ->]]; [intros [_ ?]; congruence|auto].
      - intros o Ho Hn Hm. destruct (D6 o) as [_ K2]. destruct K2 as [_ [-> _]]; [|apply I8; auto; lia]. intros [_ Hc]. apply Hoc in Hc. destruct Hc as [_ Hc]. destruct (Hout o Ho) as [Hr _]. apply C in Hc; auto. destruct Hc as [Hc|[_ Hc]]; [eapply js_le in Hc; [lia|exact Hlt]|lia].
      - intros o Ho Hn Hm. destruct (Hout o Ho) as [Hr Ha]. destruct (D6 o) as [K1 K2]. destruct (Nat.le_gt_cases (getn ml o) start) as [Hc|Hc].
        + destruct (I9 o Ho Hn Hc) as [P1 [k [P2 P3]]]. destruct (ocond ml mx loc stop G o) eqn:Eo.
          * destruct K1 as [k' [_ [_ [Q1 Q2]]]]; auto. rewrite P1 in Q2. rewrite Q1, Q2. split; auto. exists k. auto.
          * destruct K2 as [_ [-> ->]]; [intros [_ ?]; congruence|]. split; auto. exists k. auto.
        + assert (E : getn ml o = stop) by (destruct (Hcons _ Ha); lia). specialize (I8 o Ho Hn Hc). destruct K1 as [k [Q0 [_ [Q1 Q2]]]]; auto; [apply Hoc; split; [auto|]; apply C; auto; right; lia|]. rewrite I8 in Q2. split; auto. exists k. split; auto. rewrite E. apply Hnew. auto.
    Qed.
    Lemma segments_total rest : forall start G ints pool, StronglySorted lt (start :: rest) -> incl (start :: rest) at0 -> (forall a, In a at0 -> a <= start \/ In a rest) -> GI start G ints -> only G ->
      exists ss G' pool' ints' last, segments nin nv is ml mx (start :: rest) G pool = Some (ss, G', pool') /\ pool_le pool pool' /\ segs_lay pool' at0 il ints ss ints' /\ GI last G' ints' /\ (forall a, In a at0 -> a <= last).
    Proof.
      induction rest as [|stop rest IH]; intros start G ints pool Hs Hi Ha HG HO.
      - cbn [segments]. exists [], G, pool, ints, start. split; auto. split; [apply pool_le_refl|]. split; [reflexivity|]. split; auto. intros a Hx. destruct (Ha a Hx) as [H|[]]; auto.
      - inversion Hs as [|? ? Hs' Hf]; subst. assert (Hlt : start < stop) by (inversion Hf; auto). assert (Hcons : forall a, In a at0 -> a <= start \/ stop <= a).
        { intros a Hx. destruct (Ha a Hx) as [H|[->|H]]; auto. right. inversion Hs' as [|? ? _ Hf']; subst. rewrite Forall_forall in Hf'. specialize (Hf' _ H). lia. }
        destruct (seg1_total start stop G ints pool) as [s [G1 [p1 [c [A1 [A2 [A3 [A4 [A5 [A6 [A7 A8]]]]]]]]]]]; auto; [apply Hi; left; auto|apply Hi; right; left; auto|].
        destruct (IH stop G1 (ints ++ repeat stop (length (outputs c))) p1 Hs') as [ss [G2 [p2 [ints' [last [B1 [B2 [B3 [B4 B5]]]]]]]]]; [intros x Hx; apply Hi; right; auto| |exact A8|auto|].
        { intros a Hx. destruct (Ha a Hx) as [H|[->|H]]; auto. left. lia. }
        exists (s :: ss), G2, p2, ints', last. split; [|split; [eapply pool_le_trans; eauto|split; [|split; auto]]].
        + change (segments nin nv is ml mx (start :: stop :: rest) G pool) with (let* r := seg1 nin nv is ml mx start stop G pool in let '(s, G, pool) := r in let* r := segments nin nv is ml mx (stop :: rest) G pool in let '(ss, G, pool) := r in Some (s :: ss, G, pool)). rewrite A1. cbn [obind]. rewrite B1. reflexivity.
        + exists c. rewrite A4, A5. split; [eapply pool_le_get; eauto|]. split; auto.
    Qed.
  End Segs.
  Lemma nth_map_seq {A} (f : nat -> A) n j d : j < n -> nth j (map f (seq 0 n)) d = f j.
  Proof. intros H. rewrite (nth_indep _ d (f 0)) by (rewrite map_length, seq_length; auto). rewrite map_nth, seq_nth by auto. auto. Qed.
  Lemma cut_total nin (is : list (DInsn F)) outs ml sc at_ pool rest : lay anyU ml at_ is nin sc -> length ml = S (nin + nouts DI is) -> at_ = 0 :: rest -> StronglySorted lt at_ -> getn ml 0 = 0 ->
    (forall j, 0 < j <= nin -> In (getn ml j) at_) -> (forall o, In o outs -> 0 < o < length ml /\ In (getn ml o) at_) ->
    exists sp pool' ints, cut nin is outs ml sc at_ pool = Some (sp, pool') /\ pool_le pool pool' /\ segs_lay pool' at_ (firstn nin (tl ml)) [] (sp_segs sp) ints /\
      Forall2 (fun o r => ref_at (firstn nin (tl ml)) ints r (getn ml o) /\ (nin < o -> exists k, r = RInt k)) outs (sp_outs sp).
  Proof.
    intros Hl Hlen Hat Hs H0 Hin Hout. set (il := firstn nin (tl ml)). set (nv := S (nin + nouts DI is)).
    assert (Hil : forall i, i < nin -> nth_error il i = Some (getn ml (S i))).
    { intros i Hi. unfold il. rewrite nth_error_firstn_lt by auto. destruct ml as [|z ml']; [cbn in Hlen; lia|]. cbn [tl]. unfold getn. cbn [nth]. apply nth_error_nth'. cbn in Hlen. lia. }
    destruct (max_layers_total ml at_ is nin sc ml Hl ltac:(lia)) as [mx [M1 [M2 [M3 M4]]]].
    unfold cut. rewrite (proj2 (forallb_forall _ _)).
    2:{ intros l Hx. apply existsb_exists. exists l. split; [|apply Nat.eqb_refl]. apply In_nth_error in Hx. destruct Hx as [k Hk]. assert (Hkl : k < S nin). { assert (k < length (firstn (S nin) ml)) by (apply nth_error_Some; congruence). rewrite firstn_length in H. lia. }
        rewrite nth_error_firstn_lt in Hk by auto. apply nth_error_nth with (d := 0) in Hk. fold (getn ml k) in Hk. destruct k as [|k]; [rewrite <- Hk, H0, Hat; left; auto|]. rewrite <- Hk. apply Hin. lia. }
    cbn [guard obind]. rewrite (proj2 (forallb_forall _ _)).
    2:{ intros o Ho. apply existsb_exists. exists (getn ml o). split; [apply Hout; auto|apply Nat.eqb_refl]. }
    cbn [guard obind]. assert (Hh : hd_error at_ = Some 0) by (rewrite Hat; auto). rewrite Hh. cbn [obind Nat.eqb guard]. rewrite M1. cbn [obind]. fold nv. fold (G0 nin nv outs).
    assert (HO : only outs (G0 nin nv outs)).
    { intros j. unfold G0. cbn [g_isout]. destruct (Nat.lt_ge_cases j nv) as [Hj|Hj]; [|rewrite nth_overflow by (rewrite map_length, seq_length; auto); discriminate]. rewrite nth_map_seq by auto. intros H. apply andb_true_iff in H. destruct H as [H _]. apply existsb_exists in H. destruct H as [y [Hy E]]. apply Nat.eqb_eq in E. subst y. auto. }
    assert (HG : GI nin nv ml mx outs 0 (G0 nin nv outs) []).
    { constructor; unfold G0; cbn [g_new g_isout g_fin g_count length]; auto.
      - rewrite app_length, map_length, seq_length, repeat_length. lia.
      - rewrite map_length, seq_length. auto.
      - rewrite app_length, map_length, seq_length, repeat_length. lia.
      - intros j Hj H1 _ H3. exfalso. destruct (Nat.le_gt_cases j nin) as [Hc|Hc]; [lia|]. assert (0 < getn ml j) by (eapply lay_pos; [exact Hl|lia]). lia.
      - intros o Ho. rewrite nth_map_seq by lia. split; [rewrite (proj2 (Nat.leb_le 1 o)), (proj2 (Nat.leb_le o nin)) by lia; cbn; rewrite andb_false_r; auto|]. destruct o as [|o]; [lia|]. cbn [nth]. rewrite app_nth1 by (rewrite map_length, seq_length; lia). rewrite nth_map_seq by lia. do 2 f_equal. lia.
      - intros o Ho Hn _. destruct (Hout o Ho) as [Hr _]. rewrite nth_map_seq by lia. rewrite (proj2 (Nat.leb_gt o nin)) by auto. rewrite andb_false_r. cbn [negb]. rewrite andb_true_r. apply existsb_exists. exists o. split; auto. apply Nat.eqb_refl.
      - intros o Ho Hn Hm. exfalso. destruct (Hout o Ho) as [Hr _]. assert (0 < getn ml o) by (eapply lay_pos; [exact Hl|lia]). lia. }
    subst at_. destruct (segments_total nin nv is ml mx (0 :: rest) il outs sc eq_refl Hil Hin M4) with (rest := rest) (start := 0) (G := G0 nin nv outs) (ints := @nil nat) (pool := pool) as [ss [G' [pool' [ints [last [A1 [A2 [A3 [A4 A5]]]]]]]]]; auto.
    { intros o Ho. destruct (Hout o Ho). split; auto. unfold nv. lia. }
    { apply incl_refl. }
    { intros a [<-|Ha]; [left; lia|auto]. }
    rewrite A1. cbn [obind]. destruct A4 as [_ _ _ _ _ _ I7 _ I9].
    assert (Hf : forall os, incl os outs -> exists fo, omap (fun x => nth x (g_fin G') None) os = Some fo /\ Forall2 (fun o r => ref_at il ints r (getn ml o) /\ (nin < o -> exists k, r = RInt k)) os fo).
    { induction os as [|o os IH]; intros Hi; [exists []; split; constructor|]. destruct IH as [fo [F1 F2]]; [intros x Hx; apply Hi; right; auto|]. assert (Ho : In o outs) by (apply Hi; left; auto). destruct (Hout o Ho) as [Hr Ha]. cbn [omap]. destruct (Nat.le_gt_cases o nin) as [Hc|Hc].
      - destruct (I7 o ltac:(lia)) as [_ ->]. cbn [obind]. rewrite F1. cbn [obind]. eexists. split; [reflexivity|]. constructor; auto. split; [|lia]. cbn [ref_at]. rewrite Hil by lia. do 2 f_equal. lia.
      - destruct (I9 o Ho Hc (A5 _ Ha)) as [_ [k [-> K]]]. cbn [obind]. rewrite F1. cbn [obind]. eexists. split; [reflexivity|]. constructor; auto. split; [exact K|]. intros _. exists k. auto. }
    destruct (Hf outs (incl_refl _)) as [fo [F1 F2]]. rewrite F1. cbn [obind]. exists {| sp_segs := ss; sp_outs := fo |}, pool', ints. auto.
  Qed.
End LayB.
