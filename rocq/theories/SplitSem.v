(* Facts about ir_split.rs: running the segments of a cut circuit one after another is running the circuit. *)
From Verif Require Import Prelude Field Sorting Expr Topo Ir IrFacts IrInst Sim Builder BuilderFacts LaySched Layering IrSplit SplitComb SplitCut SplitSegs.
Open Scope nat_scope.

Section Sem.
  Context {F : Fld}.
  Notation DI := (DestI F false).
  Let L : IRC_laws DI := DestL F false.
  Notation Pool := (CPool (F := F)).

  Definition rval (ins ints : list F) (r : SRef) : option F := match r with RIn i => nth_error ins i | RInt i => nth_error ints i | RUnknown => None end.
  Definition known (r : SRef) : Prop := r <> RUnknown.
  Definition spl_known (sp : Spl) : Prop := (forall s, In s (sp_segs sp) -> Forall known (sg_ins s)) /\ Forall known (sp_outs sp).

  Variable E : Env F.
  Variable cs : list (nat * Circuit DI).
  Fixpoint segs_run (ins : list F) (segs : list Seg) (ints ints' : list F) : Prop :=
    match segs with
    | [] => ints' = ints
    | s :: segs => exists l outs, omap (rval ins ints) (sg_ins s) = Some l /\ run DI E cs (sg_id s) l outs true /\ segs_run ins segs (ints ++ outs) ints'
    end.
  Definition spl_run (ins : list F) (sp : Spl) (all : list F) : Prop := exists ints, segs_run ins (sp_segs sp) [] ints /\ omap (rval ins ints) (sp_outs sp) = Some all.

  Variable Pf : Pool.
  Hypothesis Hcs : forall id c, cpool_get Pf id = Some c -> lookup id cs = Some c.
  Hypothesis Hpf : pool_ok Pf.
  Hypothesis Hncon : forall id c, lookup id cs = Some c -> constraints c = [].

  Lemma pcall_wf i : pcall Pf i -> call_wf DI cs i.
  Proof.
    intros H id l n Ec. destruct i as [e|id0 l0 n0|k0]; cbn in Ec; try discriminate. inversion Ec; subst. destruct (H id l n eq_refl) as [c [H1 [H2 H3]]]. exists c. split; auto.
  Qed.
  Lemma pcall_wf_all is : Forall (pcall Pf) is -> Forall (call_wf DI cs) is.
  Proof. apply Forall_impl. exact pcall_wf. Qed.
  Lemma nth_error_getn {A} (l : list A) k d : k < length l -> nth_error l k = Some (nth k l d).
  Proof. intros H. apply nth_error_nth'. auto. Qed.

  (* one segment *)
  Section One.
    Variable nin : nat.
    Variable is : list (DInsn F).
    Variable ml mx : list nat.
    Variable ins : list F.
    Hypothesis Hins : length ins = nin.
    Hypothesis Hwf : wf_insns DI is nin.
    Notation nv := (S (nin + nouts DI is)).
    Definition past (start : nat) (i : DInsn F) (c : nat) : Prop := match i with DConst _ => 0 < start | _ => getn ml (S c) <= start end.
    Definition refv (v : nat -> F) (D : nat -> bool) (ints : list F) (j : nat) (r : SRef) : Prop :=
      match r with RIn i => j = S i /\ i < nin | RInt i => nth_error ints i = Some (v j) /\ D j = true | RUnknown => True end.
    Record SInv (start : nat) (v : nat -> F) (D : nat -> bool) (ints : list F) (G : SegSt) : Prop := {
      s_in : forall i, i < nin -> v (S i) = nth i ins f0;
      s_D : forall j, 1 <= j <= nin -> D j = true;
      s_cnt : g_count G = length ints;
      s_ref : forall j r, isref G j r -> refv v D ints j r;
      s_is : forall i c, In (i, c) (poss is nin) -> (past start i c /\ istep E cs v i c /\ (forall x, In x (d_inputs F i) -> D x = true) /\ (forall j, c < j <= c + d_nout F i -> D j = true)) \/ (forall j, c < j <= c + d_nout F i -> D j = false) }.
    Lemma rval_refv v D ints j r a : (forall i, i < nin -> v (S i) = nth i ins f0) -> (forall j, 1 <= j <= nin -> D j = true) -> refv v D ints j r -> rval ins ints r = Some a -> a = v j /\ D j = true.
    Proof.
      intros Hv HD Hr Ha. destruct r as [i|i|]; cbn in *; [|destruct Hr as [H1 H2]; split; [congruence|auto]|discriminate]. destruct Hr as [-> Hi]. split; [|apply HD; lia]. rewrite Hv by auto. symmetry. apply nth_error_nth. auto.
    Qed.
    Lemma refs_at start js G k j : nth_error js k = Some j -> nth_error (seg_refs nin start ml js G) k = Some (if (getn ml j =? start) && (j <=? nin) then RIn (j - 1) else nth j (g_new G) RUnknown).
    Proof. intros H. unfold seg_refs. rewrite nth_error_map, H. reflexivity. Qed.
    Lemma refs_refv start v D ints G j : (forall j, 1 <= j <= nin -> D j = true) -> (forall j r, isref G j r -> refv v D ints j r) -> 1 <= j -> refv v D ints j (if (getn ml j =? start) && (j <=? nin) then RIn (j - 1) else nth j (g_new G) RUnknown).
    Proof.
      intros HD HR Hj. destruct ((getn ml j =? start) && (j <=? nin)) eqn:Ej.
      - apply andb_true_iff in Ej. destruct Ej as [_ Ej]. apply Nat.leb_le in Ej. cbn. split; lia.
      - destruct (nth_error (g_new G) j) as [r|] eqn:Er; [rewrite (nth_error_nth _ _ _ Er); apply HR; left; auto|]. apply nth_error_None in Er. rewrite nth_overflow by auto. exact I.
    Qed.
    Lemma in_seg_spec a b l : in_seg a b l = true <-> a < l <= b.
    Proof. unfold in_seg. rewrite andb_true_iff, Nat.ltb_lt, Nat.leb_le. tauto. Qed.
    Lemma sel_past start stop i c : sel ml start stop i c = true -> ~ past start i c.
    Proof.
      destruct i as [e|id l n|k]; cbn; [|rewrite andb_true_iff|]; [rewrite in_seg_spec; lia|rewrite in_seg_spec; lia|rewrite Nat.eqb_eq; lia].
    Qed.
    Lemma sel_past_stop start stop i c : start < stop -> sel ml start stop i c = true -> past stop i c.
    Proof.
      destruct i as [e|id l n|k]; cbn; [|rewrite andb_true_iff|]; [rewrite in_seg_spec; lia|rewrite in_seg_spec; lia|rewrite Nat.eqb_eq; lia].
    Qed.
    Lemma past_le a b i c : a <= b -> past a i c -> past b i c.
    Proof. destruct i; cbn; lia. Qed.
    Lemma seg_A start stop G pool s G' pool' v D ints l outs : seg1 nin nv is ml mx start stop G pool = Some (s, G', pool') -> pool_le pool' Pf -> start < stop ->
      SInv start v D ints G -> omap (rval ins ints) (sg_ins s) = Some l -> run DI E cs (sg_id s) l outs true ->
      exists v' D', (forall j, D j = true -> D' j = true /\ v' j = v j) /\ SInv stop v' D' (ints ++ outs) G'.
    Proof.
      intros H Hle Hlt [S1 S2 S3 S4 S5] Hl Hr. apply seg1_inv in H. destruct H as [is' [loc' [c H]]]. cbv zeta in H. set (js := seg_inputs nin nv start ml mx) in *. destruct H as [Hs [Hi [Hn [His [Hc [Ha [added [Ho [Hcnt [Hadd Href]]]]]]]]]].
      assert (Hg : cpool_get Pf (sg_id s) = Some c) by (eapply pool_le_get; [exact Hle|]; apply cpool_add_spec in Ha; tauto).
      apply run_iff in Hr. destruct Hr as [c' [lvals' [b0 [Hc' [Hx [_ [Hio [-> _]]]]]]]]. rewrite (Hcs _ _ Hg) in Hc'. inversion Hc'; subst c'. destruct (Hpf _ _ Hg) as [_ [Wc [Wp _]]]. rewrite His in Hx, Wp.
      assert (Hll : length l = length js) by (apply omap_length in Hl; rewrite Hl, Hi; unfold seg_refs; rewrite map_length; auto).
      assert (Hlen : nin + nouts DI is < length (set_locals nv js)) by (rewrite set_locals_len; lia).
      destruct (seg_loc ml start stop is nin _ _ _ _ Hs Hlen) as [_ [Lpre [Lsrc [_ Lsel]]]].
      destruct (exec_prefix DI _ _ _ _ _ _ Hx) as [ext Eext].
      (* variables read by the segment *)
      assert (Hjs : forall j, getn (set_locals nv js) j <> 0 -> D j = true /\ getv lvals' (getn (set_locals nv js) j) = v j).
      { intros j Hj. destruct (set_locals_spec nv js j Hj) as [k [-> Hk]]. pose proof (seg_inputs_pos _ _ _ _ _ _ (nth_error_In _ _ Hk)) as Hpos. destruct (nth_error_Some_ex l k) as [a Hak]; [apply nth_error_Some_lt in Hk; lia|].
        destruct (omap_inv _ _ _ _ _ Hl Hak) as [r [Hrk Hra]]. rewrite Hi, (refs_at _ _ _ _ _ Hk) in Hrk. inversion Hrk; subst r.
        destruct (rval_refv v D ints j _ a S1 S2 (refs_refv start v D ints G j S2 S4 Hpos) Hra) as [-> HD]. split; auto. rewrite Eext. change (S k) with (1 + k). rewrite getv_app_l by (cbn [length]; apply nth_error_Some_lt in Hk; lia). cbn. apply nth_error_nth. auto. }
      set (D' := fun j => D j || negb (getn loc' j =? 0)). set (v' := fun j => if getn loc' j =? 0 then v j else getv lvals' (getn loc' j)).
      assert (Hold : forall j, D j = true -> getn loc' j <> 0 -> getv lvals' (getn loc' j) = v j).
      { intros j HD Hj. destruct (Lsrc j) as [Ej|[i [c0 [Hic [Hsel Hr]]]]]; [rewrite Ej in *; apply Hjs; auto|]. exfalso. destruct (S5 i c0 Hic) as [[Hp _]|Hno]; [apply (sel_past _ _ _ _ Hsel Hp)|rewrite Hno in HD by auto; discriminate]. }
      assert (Hvv : forall j, D j = true -> v' j = v j). { intros j HD. unfold v'. destruct (Nat.eqb_spec (getn loc' j) 0); auto. }
      assert (HDl : forall j, getn loc' j <> 0 -> D' j = true). { intros j Hj. unfold D'. rewrite (proj2 (Nat.eqb_neq _ _) Hj). apply orb_true_r. }
      assert (HDD : forall j, D j = true -> D' j = true). { intros j Hj. unfold D'. rewrite Hj. auto. }
      exists v', D'. split; [intros j Hj; split; auto|]. constructor.
      - intros i Hi0. rewrite Hvv by (apply S2; lia). auto.
      - intros j Hj. apply HDD, S2. auto.
      - rewrite Hcnt, S3, app_length, Ho, !map_length. auto.
      - intros j r Hjr. destruct (Href j r Hjr) as [Hj|[k [Hk ->]]].
        + specialize (S4 j r Hj). destruct r as [i|i|]; cbn in *; auto. destruct S4 as [H1 H2]. split; [|apply HDD; auto]. rewrite Hvv by auto. rewrite nth_error_app1 by (apply nth_error_Some_lt in H1; auto). auto.
        + cbn. pose proof (Hadd j (nth_error_In _ _ Hk)) as Hj. split; [|auto]. rewrite nth_error_app2 by lia. rewrite S3. replace (length ints + k - length ints) with k by lia. rewrite Ho, map_map, nth_error_map, Hk. cbn. unfold v'. rewrite (proj2 (Nat.eqb_neq _ _) Hj). auto.
      - intros i c0 Hic. destruct (sel ml start stop i c0) eqn:Hsel.
        + left. split; [eapply sel_past_stop; eauto|]. destruct (seg_bwd E cs Hncon ml start stop is nin (length js) (set_locals nv js) is' loc' (f0 :: l) lvals' b0 Hs Hlen Hx (pcall_wf_all _ Wp) Hwf) with (v := v') (i := i) (c := c0) as [B1 B2]; auto.
          * cbn [length]. lia.
          * apply set_locals_le.
          * intros j Hj. unfold v'. rewrite (proj2 (Nat.eqb_neq _ _) Hj). auto.
          * split; auto. split; [intros x Hxx; apply HDl, B2; auto|]. intros j Hj. apply HDl. eapply Lsel; eauto.
        + destruct (S5 i c0 Hic) as [[P1 [P2 [P3 P4]]]|Hno].
          * left. split; [eapply past_le; [|exact P1]; lia|]. split; [|split; intros; apply HDD; auto]. eapply istep_ext; [| |exact P2]; intros j Hj; symmetry; apply Hvv; auto.
          * right. intros j Hj. unfold D'. rewrite (Hno j Hj). cbn [orb]. apply negb_false_iff, Nat.eqb_eq. destruct (Nat.eq_dec (getn loc' j) 0) as [|Hne]; auto. exfalso. destruct (Lsrc j) as [Ej|[i2 [c2 [Hic2 [Hsel2 Hr2]]]]].
            -- rewrite Ej in Hne. apply Hjs in Hne. rewrite (Hno j Hj) in Hne. destruct Hne; discriminate.
            -- destruct (poss_disj is nin i c0 i2 c2 j Hic Hic2 Hj Hr2) as [-> ->]. congruence.
    Qed.
    Lemma segs_A at_ : forall G pool ss G' pool' v D ints ints', segments nin nv is ml mx at_ G pool = Some (ss, G', pool') -> pool_le pool' Pf -> Sorted lt at_ -> pool_ok pool -> Gst nin G -> Forall (pcall pool) is ->
      (forall start, hd_error at_ = Some start -> SInv start v D ints G) -> at_ <> [] -> segs_run ins ss ints ints' ->
      exists v' D' stop, SInv stop v' D' ints' G'.
    Proof.
      induction at_ as [|start at_ IH]; intros G pool ss G' pool' v D ints ints' H Hle Hsort Hpok HG Hpc HS Hne Hrun; [contradiction|]. cbn [segments] in H. destruct at_ as [|stop rest].
      - inversion H; subst. cbn in Hrun. subst. exists v, D, start. auto.
      - destruct (seg1 _ _ _ _ _ _ _ _ _) as [[[s G1] p1]|] eqn:E1; [|discriminate]. cbn [obind] in H. destruct (segments nin nv is ml mx (stop :: rest) G1 p1) as [[[ss2 G2] p2]|] eqn:E2; [|discriminate]. cbn [obind] in H. inversion H; subst ss G' pool'.
        destruct (seg1_wf _ _ _ _ _ _ _ _ _ _ _ _ E1 eq_refl Hpc Hpok HG) as [A1 [A2 [A3 _]]]. assert (Hpc1 : Forall (pcall p1) is) by (eapply Forall_impl; [|exact Hpc]; intros i; apply pcall_le; auto).
        destruct (segments_wf _ _ _ _ _ eq_refl _ _ _ _ _ _ E2 Hpc1 A1 A3) as [B1 [B2 _]]. destruct Hrun as [l [outs [R1 [R2 R3]]]]. inversion Hsort as [|? ? Hs2 Hh]; subst. inversion Hh; subst.
        destruct (seg_A _ _ _ _ _ _ _ _ _ _ _ _ E1 (pool_le_trans _ _ _ B2 Hle) H1 (HS start eq_refl) R1 R2) as [v' [D' [_ HS']]].
        eapply (IH _ _ _ _ _ v' D'); eauto; [|discriminate]. intros st Hst. inversion Hst; subst. auto.
    Qed.
    (* instructions in no segment compute something *)
    Hypothesis Htot : forall i (g : nat -> F), In i is -> match i with DCall id l n => exists outs, length outs = n /\ run DI E cs id (map g l) outs true | _ => exists o, d_sem F E i g [o] end.
    Lemma complete (D : nat -> bool) is0 : forall cur v, (forall i, In i is0 -> In i is) -> wf_insns DI is0 cur ->
      (forall i c, In (i, c) (poss is0 cur) -> (istep E cs v i c /\ (forall x, In x (d_inputs F i) -> D x = true) /\ (forall j, c < j <= c + d_nout F i -> D j = true)) \/ (forall j, c < j <= c + d_nout F i -> D j = false)) ->
      exists v', (forall j, j <= cur \/ D j = true -> v' j = v j) /\ forall i c, In (i, c) (poss is0 cur) -> istep E cs v' i c.
    Proof.
      induction is0 as [|i is0 IH]; intros cur v Hin W H; [exists v; split; [auto|intros i c []]|]. destruct W as [W1 W2]. change (@i_nout F DI i) with (d_nout F i) in W2. rewrite Forall_forall in W1. change (@i_inputs F DI i) with (d_inputs F i) in W1.
      assert (Hin' : forall j, In j is0 -> In j is) by (intros; apply Hin; right; auto). destruct (H i cur (or_introl eq_refl)) as [[H1 [H2 H3]]|Hno].
      - destruct (IH (cur + d_nout F i) v Hin' W2) as [v' [A1 A2]]; [intros j c Hj; apply H; right; auto|]. exists v'. split; [intros j Hj; apply A1; destruct Hj; auto; left; lia|]. cbn [poss]. intros j c [Hj|Hj]; [|auto]. inversion Hj; subst.
        eapply istep_ext; [| |exact H1]; intros x Hx; symmetry; apply A1; right; auto.
      - assert (Hex : exists v1, (forall j, ~ cur < j <= cur + d_nout F i -> v1 j = v j) /\ istep E cs v1 i cur).
        { pose proof (Htot i v (Hin i (or_introl eq_refl))) as HT. assert (HT' : exists outs, length outs = d_nout F i /\ match i with DCall id l n => run DI E cs id (map v l) outs true | _ => d_sem F E i v outs end).
          { destruct i; [destruct HT as [o Ho]; exists [o]; auto|destruct HT as [outs Ho]; exists outs; auto|destruct HT as [o Ho]; exists [o]; auto]. }
          destruct HT' as [outs [Hlo Ho]]. exists (fun j => if (cur <? j) && (j <=? cur + d_nout F i) then nth (j - S cur) outs f0 else v j). set (v1 := fun j => _).
          assert (Hv1 : forall j, ~ cur < j <= cur + d_nout F i -> v1 j = v j). { intros j Hj. unfold v1. destruct (Nat.ltb_spec cur j), (Nat.leb_spec j (cur + d_nout F i)); cbn [andb]; auto; lia. }
          split; auto. assert (Eo : outs = map v1 (seq (S cur) (d_nout F i))).
          { apply outs_eq; auto. intros k Hk. unfold v1. rewrite (proj2 (Nat.ltb_lt _ _)), (proj2 (Nat.leb_le _ _)) by lia. cbn [andb]. f_equal. lia. }
          assert (Hi1 : forall x, In x (d_inputs F i) -> v x = v1 x). { intros x Hx. symmetry. apply Hv1. specialize (W1 x Hx). lia. }
          rewrite Eo in Ho. destruct i as [e|id l n|k]; cbn [istep d_nout d_inputs seq map] in *; auto.
          - destruct Ho as [u [Hu He]]. exists u. split; auto. eapply expr_sem_ext; [|exact He]. auto.
          - replace (map v1 l) with (map v l); auto. apply map_ext_in. auto. }
        destruct Hex as [v1 [V1 V2]]. destruct (IH (cur + d_nout F i) v1 Hin' W2) as [v' [A1 A2]].
        + intros j c Hj. destruct (H j c (or_intror Hj)) as [[P1 [P2 P3]]|Hn]; [|right; auto]. left. split; auto. pose proof (poss_range _ _ _ _ Hj) as Hrg. eapply istep_ext; [| |exact P1]; intros x Hx; symmetry; apply V1; [|lia]. intros Hr. specialize (P2 x Hx). rewrite Hno in P2 by auto. discriminate.
        + exists v'. split.
          * intros j Hj. destruct Hj as [Hj|Hj]; [rewrite A1 by lia; apply V1; lia|]. rewrite A1 by auto. apply V1. intros Hr. rewrite Hno in Hj by auto. discriminate.
          * cbn [poss]. intros j c [Hj|Hj]; [|auto]. inversion Hj; subst. eapply istep_ext; [| |exact V2]; intros x Hx; symmetry; apply A1; left; [specialize (W1 x Hx)|]; lia.
    Qed.
    (* the other way: every segment can be run *)
    Lemma seg_B start stop G pool s G' pool' v ints : seg1 nin nv is ml mx start stop G pool = Some (s, G', pool') -> pool_le pool' Pf -> Forall known (sg_ins s) ->
      (forall i, i < nin -> v (S i) = nth i ins f0) -> g_count G = length ints -> (forall j r, isref G j r -> refv v (fun _ => true) ints j r) -> (forall i c, In (i, c) (poss is nin) -> istep E cs v i c) ->
      exists l outs, omap (rval ins ints) (sg_ins s) = Some l /\ run DI E cs (sg_id s) l outs true /\ g_count G' = length (ints ++ outs) /\ forall j r, isref G' j r -> refv v (fun _ => true) (ints ++ outs) j r.
    Proof.
      intros H Hle Hkn S1 S3 S4 S5. apply seg1_inv in H. destruct H as [is' [loc' [c H]]]. cbv zeta in H. set (js := seg_inputs nin nv start ml mx) in *. destruct H as [Hs [Hi [Hn [His [Hc [Ha [added [Ho [Hcnt [Hadd Href]]]]]]]]]].
      assert (Hg : cpool_get Pf (sg_id s) = Some c) by (eapply pool_le_get; [exact Hle|]; apply cpool_add_spec in Ha; tauto).
      assert (Hlen : nin + nouts DI is < length (set_locals nv js)) by (rewrite set_locals_len; lia).
      assert (Hl : omap (rval ins ints) (sg_ins s) = Some (map v js)).
      { apply omap_some. rewrite Hi in *. unfold seg_refs in *. clear Hs. assert (Hpos : forall j, In j js -> 1 <= j) by (intros j; apply seg_inputs_pos). clearbody js. clear - S1 S4 Hins Hkn Hpos.
        induction js as [|j js IH]; cbn [map] in *; [constructor|]. inversion Hkn; subst. constructor; [|apply IH; auto; intros; apply Hpos; right; auto].
        pose proof (refs_refv start v (fun _ => true) ints G j (fun _ _ => eq_refl) S4 (Hpos j (or_introl eq_refl))) as Hr. destruct (if _ && _ then _ else _) as [i|i|]; cbn in *; [|tauto|exfalso; apply H1; auto]. destruct Hr as [-> Hr]. rewrite S1 by auto. apply nth_error_nth'. lia. }
      destruct (seg_fwd E cs ml start stop is nin (length js) (set_locals nv js) is' loc' (f0 :: map v js) v Hs Hlen) as [lvals' [X1 X2]]; auto.
      { cbn [length]. rewrite map_length. auto. }
      { intros j Hj. split; [apply set_locals_le|]. destruct (set_locals_spec nv js j Hj) as [k [-> Hk]]. cbn. apply nth_error_nth. rewrite nth_error_map, Hk. auto. }
      exists (map v js), (map v added). split; auto. split.
      { apply run_iff. exists c, lvals', true. split; auto. rewrite His, Hc. split; auto. split; [constructor|]. rewrite Ho. split; [apply Forall_forall; intros x Hx; apply in_map_iff in Hx; destruct Hx as [j [<- Hj]]; apply X2; auto|]. split; [|reflexivity]. rewrite map_map. apply map_ext_in. intros j Hj. symmetry. apply X2. auto. }
      split; [rewrite app_length, map_length; lia|]. intros j r Hjr. destruct (Href j r Hjr) as [Hj|[k [Hk ->]]].
      - specialize (S4 j r Hj). destruct r as [i|i|]; cbn in *; auto. destruct S4 as [H1 _]. split; auto. rewrite nth_error_app1 by (apply nth_error_Some_lt in H1; auto). auto.
      - cbn. split; auto. rewrite nth_error_app2 by lia. rewrite S3. replace (length ints + k - length ints) with k by lia. rewrite nth_error_map, Hk. auto.
    Qed.
    Lemma segs_B at_ : forall G pool ss G' pool' v ints, segments nin nv is ml mx at_ G pool = Some (ss, G', pool') -> pool_le pool' Pf -> pool_ok pool -> Gst nin G -> Forall (pcall pool) is -> (forall s, In s ss -> Forall known (sg_ins s)) ->
      (forall i, i < nin -> v (S i) = nth i ins f0) -> g_count G = length ints -> (forall j r, isref G j r -> refv v (fun _ => true) ints j r) -> (forall i c, In (i, c) (poss is nin) -> istep E cs v i c) ->
      exists ints', segs_run ins ss ints ints' /\ forall j r, isref G' j r -> refv v (fun _ => true) ints' j r.
    Proof.
      induction at_ as [|start at_ IH]; intros G pool ss G' pool' v ints H Hle Hpok HG Hpc Hkn S1 S3 S4 S5; cbn [segments] in H; [inversion H; subst; exists ints; split; [reflexivity|auto]|]. destruct at_ as [|stop rest].
      - inversion H; subst. exists ints. split; [reflexivity|auto].
      - destruct (seg1 _ _ _ _ _ _ _ _ _) as [[[s G1] p1]|] eqn:E1; [|discriminate]. cbn [obind] in H. destruct (segments nin nv is ml mx (stop :: rest) G1 p1) as [[[ss2 G2] p2]|] eqn:E2; [|discriminate]. cbn [obind] in H. inversion H; subst ss G' pool'.
        destruct (seg1_wf _ _ _ _ _ _ _ _ _ _ _ _ E1 eq_refl Hpc Hpok HG) as [A1 [A2 [A3 _]]]. assert (Hpc1 : Forall (pcall p1) is) by (eapply Forall_impl; [|exact Hpc]; intros i; apply pcall_le; auto).
        destruct (segments_wf _ _ _ _ _ eq_refl _ _ _ _ _ _ E2 Hpc1 A1 A3) as [B1 [B2 _]].
        destruct (seg_B _ _ _ _ _ _ _ v ints E1 (pool_le_trans _ _ _ B2 Hle)) as [l [outs [R1 [R2 [R3 R4]]]]]; auto; [apply Hkn; left; auto|].
        destruct (IH _ _ _ _ _ v (ints ++ outs) E2) as [ints' [X1 X2]]; auto; [intros s' Hs'; apply Hkn; right; auto|]. exists ints'. split; auto. exists l, outs. auto.
    Qed.
  End One.

  Definition one_total (i : DInsn F) : Prop := forall g : nat -> F, match i with DCall id l n => exists outs, length outs = n /\ run DI E cs id (map g l) outs true | _ => exists o, d_sem F E i g [o] end.
  Lemma getv_full (ins : list F) v n x : v 0 = f0 -> (forall i, i < length ins -> v (S i) = nth i ins f0) -> x <= length ins + n -> getv ((f0 :: ins) ++ map v (seq (S (length ins)) n)) x = v x.
  Proof.
    intros H0 H1 H2. destruct (Nat.le_gt_cases x (length ins)).
    - rewrite getv_app_l by (cbn [length]; lia). destruct x as [|x]; cbn; auto. rewrite H1; auto.
    - rewrite getv_app_r by (cbn [length]; lia). unfold getv. cbn [length]. rewrite nth_seq_map by lia. f_equal. lia.
  Qed.
  Lemma G0_gst nin nv outs : Gst nin (G0 nin nv outs).
  Proof. intros j r Hr. apply G0_refs in Hr. destruct Hr as [->|[i [H1 [_ ->]]]]; [constructor|auto]. Qed.
  (* a run of the segments is a run of the circuit *)
  Lemma cut_A nin is ml outs sc at_ pool sp pool' ins all : cut nin is outs ml sc at_ pool = Some (sp, pool') -> pool_le pool' Pf -> pool_ok pool -> Forall (pcall pool) is -> Sorted lt at_ ->
    wf_insns DI is nin -> Forall (fun x => 0 < x <= nin + nouts DI is) outs -> Forall one_total is -> length ins = nin ->
    spl_run ins sp all -> exists vals, exec DI E cs is (f0 :: ins) vals true /\ all = map (getv vals) outs.
  Proof.
    intros H Hle Hpok Hpc Hsort Hwf Hro Htot Hins [ints [Hrun Hall]]. assert (Hhd : hd_error at_ = Some 0).
    { unfold cut in H. apply obind_some in H. destruct H as [? [_ H]]. apply obind_some in H. destruct H as [? [_ H]]. apply obind_some in H. destruct H as [h [Hh H]]. apply obind_some in H. destruct H as [? [Hg _]]. unfold guard in Hg. destruct (Nat.eqb_spec h 0); [subst; auto|discriminate]. }
    apply cut_inv in H. destruct H as [mx [G' [Hs Ho]]].
    destruct (segs_A nin is ml mx ins Hins Hwf at_ _ _ _ _ _ (getv (f0 :: ins)) (fun j => (1 <=? j) && (j <=? nin)) [] ints Hs Hle Hsort Hpok (G0_gst _ _ _) Hpc) as [v [D [stop HS]]]; auto.
    { intros start Hst. rewrite Hhd in Hst. inversion Hst; subst start. constructor; auto.
      - intros j Hj. rewrite andb_true_iff, !Nat.leb_le. auto.
      - intros j r Hr. apply G0_refs in Hr. destruct Hr as [->|[i [H1 [-> ->]]]]; cbn; auto.
      - intros i c Hic. right. intros j Hj. apply poss_range in Hic. apply andb_false_iff. right. apply Nat.leb_gt. lia. }
    { intros ->. discriminate. }
    destruct HS as [S1 S2 S3 S4 S5]. rewrite Forall_forall in Htot.
    destruct (complete nin is ins Hins Hwf (fun i g Hi => Htot i Hi g) D is nin v (fun i Hi => Hi) Hwf) as [v' [V1 V2]]; [intros i c Hic; destruct (S5 i c Hic) as [[_ P]|P]; auto|].
    set (w := fun j => match j with 0 => f0 | _ => v' j end). assert (Hw : forall j, 0 < j -> w j = v' j) by (intros [|j] Hj; [lia|auto]).
    assert (Hwin : forall i, i < length ins -> w (S i) = nth i ins f0) by (intros i Hi; cbn; rewrite V1 by (left; lia); apply S1; lia).
    exists ((f0 :: ins) ++ map w (seq (S nin) (nouts DI is))). split.
    - apply istep_exec; auto.
      + cbn [length]. lia.
      + intros [|j] Hj; cbn [getv nth]; auto. unfold getv. cbn [nth]. rewrite Hwin by lia. auto.
      + intros i c Hic. pose proof (poss_wf is nin i c Hwf Hic) as Hp. rewrite Forall_forall in Hp. eapply istep_ext; [| |exact (V2 i c Hic)]; intros j Hj; symmetry; apply Hw; [apply (Hp j Hj)|lia].
    - rewrite Forall_forall in Hro. apply list_eq_nth_error. intros k. rewrite nth_error_map. destruct (nth_error outs k) as [x|] eqn:Ex.
      + cbn [option_map]. rewrite <- Hins. destruct (Hro x (nth_error_In _ _ Ex)) as [Hx0 Hxn]. rewrite getv_full by (auto; lia).
        destruct (omap_at _ _ _ _ _ Ho Ex) as [r [Hr Hf]]. destruct (omap_at _ _ _ _ _ Hall Hr) as [a [Hk Ha]]. rewrite Hk. f_equal.
        assert (Hisr : isref G' x r). { right. destruct (nth_error (g_fin G') x) as [o|] eqn:Eo; [rewrite (nth_error_nth _ _ _ Eo) in Hf; congruence|]. rewrite nth_overflow in Hf; [discriminate|]. apply nth_error_None. auto. }
        destruct (rval_refv nin ins Hins v D ints x r a S1 S2 (S4 x r Hisr) Ha) as [-> HD]. rewrite Hw by lia. symmetry. apply V1. auto.
      + apply nth_error_None in Ex. apply nth_error_None. apply omap_length in Ho, Hall. lia.
  Qed.
  Lemma cut_B nin is ml outs sc at_ pool sp pool' ins vals : cut nin is outs ml sc at_ pool = Some (sp, pool') -> pool_le pool' Pf -> pool_ok pool -> Forall (pcall pool) is -> spl_known sp -> length ins = nin ->
    exec DI E cs is (f0 :: ins) vals true -> spl_run ins sp (map (getv vals) outs).
  Proof.
    intros H Hle Hpok Hpc [K1 K2] Hins Hx. destruct (cut_wf _ _ _ _ _ _ _ _ _ H Hpc Hpok) as [_ [Hle2 _]]. apply cut_inv in H. destruct H as [mx [G' [Hs Ho]]].
    assert (Hpc' : Forall (pcall Pf) is) by (eapply Forall_impl; [|exact Hpc]; intros i; apply pcall_le; eapply pool_le_trans; eauto).
    assert (Hv : forall i, i < nin -> getv vals (S i) = nth i ins f0). { intros i Hi. destruct (exec_prefix DI _ _ _ _ _ _ Hx) as [ext ->]. rewrite getv_app_l by (cbn [length]; lia). reflexivity. }
    destruct (segs_B nin is ml mx ins Hins at_ _ _ _ _ _ (getv vals) [] Hs Hle Hpok (G0_gst _ _ _) Hpc K1 Hv) as [ints [X1 X2]]; auto.
    { intros j r Hr. apply G0_refs in Hr. destruct Hr as [->|[i [H1 [-> ->]]]]; cbn; auto. }
    { intros i c Hic. eapply (exec_istep E cs Hncon is nin (f0 :: ins)); eauto; [apply pcall_wf_all; auto|cbn [length]; lia]. }
    exists ints. split; auto. apply omap_some. apply omap_some in Ho. clear - Ho X2 K2 Hv Hins. induction Ho as [|x r outs rs Hf Ho IH]; [constructor|]. inversion K2; subst. cbn [map]. constructor; [|apply IH; auto].
    assert (Hisr : isref G' x r). { right. destruct (nth_error (g_fin G') x) as [o|] eqn:Eo; [rewrite (nth_error_nth _ _ _ Eo) in Hf; congruence|]. rewrite nth_overflow in Hf; [discriminate|]. apply nth_error_None. auto. }
    pose proof (X2 x r Hisr) as Hr. destruct r as [i|i|]; cbn in *; [|tauto|exfalso; apply H1; auto]. destruct Hr as [-> Hi]. rewrite Hv by auto. apply nth_error_nth'. auto.
  Qed.
End Sem.
