(* Finding the layouts never fails, and each layout holds every variable of its layer and a part for every call running in it. *)
From Verif Require Import Prelude Field Zp Sorting Expr Topo Ir IrInst InputMapping Layered SolveDuplicates LayeredFacts LayeredOpt LayeredOptFacts LayeredExpand LayeredCommon IrFacts Sim Layering LaySem LaySched LayInst LayLayout LayOwn LayTotA LayTotB LayMerge LayGroups.
Open Scope nat_scope.

Lemma index_of_nodup (l : list nat) z x : NoDup l -> nth_error l z = Some x -> index_of x l = Some z.
Proof.
  intros Hn Hz. destruct (index_of_in x l (nth_error_In _ _ Hz)) as [v Hv]. rewrite Hv. f_equal. apply index_of_some in Hv. rewrite NoDup_nth_error in Hn. apply Hn; [eapply nth_error_Some_lt; eauto|congruence].
Qed.
Lemma nth_error_rev {A} (l : list A) i : i < length l -> nth_error (rev l) i = nth_error l (length l - 1 - i).
Proof.
  intros H. destruct l as [|d l0] eqn:El; [cbn in H; lia|]. rewrite <- El in *. clear El l0. rewrite (nth_error_nth' (rev l) d) by (rewrite rev_length; auto). rewrite rev_nth by auto. rewrite (nth_error_nth' l d) by lia. f_equal. f_equal. lia.
Qed.
Lemma dense_snd c ly p : map snd (layout_slots (LDense c ly p)) = pc p.
Proof.
  cbn [layout_slots]. generalize 0. induction p as [|[v|] p IH]; intros b; auto; cbn [length seq combine flat_map map snd fst app]; rewrite ?IH; auto.
Qed.

Section LaySolve.
  Context {F : Fld}.
  Notation DI := (DestI F true).
  Notation Ctx := (Ctx (F := F)).
  Variable cross : bool.
  Variable cs : list (nat * Circuit DI).
  Variable ctxs : list (nat * Ctx).
  Hypothesis Hwf : wf_circuits DI cs.
  Variable rank : nat -> nat.
  Hypothesis Hrank : ranked DI cs rank.
  Hypothesis Hnd : forall id c, lookup id cs = Some c -> NoDup (outputs c).
  Hypothesis Hok : forall id X, lookup id ctxs = Some X -> ctx_ok cross cs ctxs id X.
  Hypothesis Htot : forall id X, lookup id ctxs = Some X -> ctx_tot cross ctxs id X.

  Lemma out_order_some (c : Circuit DI) v j : output_order c v = Some j -> nth_error (outputs c) j = Some v.
  Proof.
    unfold output_order. destruct (index_of v (rev (outputs c))) as [i|] eqn:E; [|discriminate]. cbn [option_map]. intros H. apply Some_inj in H. subst j. apply index_of_some in E. pose proof (nth_error_Some_lt _ _ _ E) as Hl. rewrite rev_length in Hl. rewrite nth_error_rev in E by auto. auto.
  Qed.
  Lemma out_order_in (c : Circuit DI) v j : NoDup (outputs c) -> nth_error (outputs c) j = Some v -> output_order c v = Some j.
  Proof.
    intros Hn Hj. destruct (index_of_in v (rev (outputs c))) as [i Hi]; [rewrite <- in_rev; eapply nth_error_In; eauto|].
    assert (H : output_order c v = Some (length (outputs c) - 1 - i)) by (unfold output_order; rewrite Hi; auto). rewrite H. f_equal. apply out_order_some in H. rewrite NoDup_nth_error in Hn. apply Hn; [eapply nth_error_Some_lt; eauto|congruence].
  Qed.
  Lemma vars_nodup id X i C : lookup id ctxs = Some X -> nth_error (x_lcs X) i = Some C -> NoDup (lc_vars C).
  Proof.
    intros HX HC. destruct (ok_lc _ _ _ _ _ (Hok _ _ HX) _ _ HC) as [Hv _]. unfold vars_at in Hv. destruct (nth_error (x_cc X) i); [|discriminate]. cbn [obind] in Hv. apply Some_inj in Hv. rewrite <- Hv. apply undup_nodup. constructor.
  Qed.
  Lemma call_facts id X k l : lookup id ctxs = Some X -> nth_error (x_calls X) k = Some l -> exists Y, lookup (cl_sub l) ctxs = Some Y /\ cl_sub l <> 0 /\ end_of X k = start_of X k + x_out Y /\ end_of X k <= x_out X /\ 1 <= x_out Y /\
    length (cl_outs l) = length (outputs (x_c Y)) /\ length (cl_ins l) = num_inputs (x_c Y) /\ NoDup (cl_outs l) /\ NoDup (outputs (x_c Y)) /\ rank (cl_sub l) < rank id.
  Proof.
    intros HX Hl. pose proof (Hok _ _ HX) as K. destruct (ok_sub _ _ _ _ _ K _ _ Hl) as [N [Y [HY Hd]]]. exists Y. split; auto. split; auto. split; [unfold end_of, start_of; rewrite Hd; auto|]. split; [eapply ok_end; eauto|]. split; [apply (ok_out _ _ _ _ _ (Hok _ _ HY))|].
    assert (Hin : In l (calls_of (x_c X))) by (rewrite <- (ok_calls _ _ _ _ _ K); eapply nth_error_In; eauto).
    destruct (call_in cs Hwf rank Hrank (x_c X) id l (ok_c _ _ _ _ _ K) Hin) as [c' [A [B [D E]]]]. assert (c' = x_c Y) by (pose proof (ok_c _ _ _ _ _ (Hok _ _ HY)); congruence). subst c'. split; auto. split; auto. split; [eapply outs_nodup; eauto|]. split; eauto.
  Qed.
  Lemma outs_disjoint id X k k' l l' x : lookup id ctxs = Some X -> nth_error (x_calls X) k = Some l -> nth_error (x_calls X) k' = Some l' -> In x (cl_outs l) -> In x (cl_outs l') -> k = k'.
  Proof.
    intros HX Hl Hl' Hx Hx'. apply In_nth_error in Hx, Hx'. destruct Hx as [t Ht], Hx' as [t' Ht']. destruct (call_outs _ _ _ _ _ _ _ _ _ (Hok _ _ HX) Hl Ht) as [A _]. destruct (call_outs _ _ _ _ _ _ _ _ _ (Hok _ _ HX) Hl' Ht') as [B _]. congruence.
  Qed.
  Lemma mid_nil id X i C : lookup id ctxs = Some X -> nth_error (x_lcs X) i = Some C -> i = 0 \/ i = x_out X -> lc_mid C = [].
  Proof.
    intros HX HC Hi. destruct (ok_lc _ _ _ _ _ (Hok _ _ HX) _ _ HC) as [_ Hm]. rewrite Hm. assert (H : forall ks, (forall k, In k ks -> k < length (x_calls X)) -> filter (fun k => (start_of X k <? i) && (i <? end_of X k)) ks = []).
    { induction ks as [|k ks IH]; intros Hk; auto. cbn [filter]. destruct (nth_error_Some_ex (x_calls X) k (Hk k (or_introl eq_refl))) as [l Hl]. pose proof (ok_end _ _ _ _ _ (Hok _ _ HX) _ _ Hl). destruct (Nat.ltb_spec (start_of X k) i), (Nat.ltb_spec i (end_of X k)); cbn [andb]; try lia; apply IH; intros; apply Hk; right; auto. }
    apply H. intros k Hk. apply in_seq in Hk. lia.
  Qed.

  (* what connecting needs to know of a layout *)
  Inductive okl : Layout -> Prop :=
  | okl_i L X C : lookup (ly_circ L) ctxs = Some X -> nth_error (x_lcs X) (ly_layer L) = Some C ->
     NoDup (map snd (layout_slots L)) -> (forall v, In v (map snd (layout_slots L)) -> v < length (lc_vars C)) ->
     (ly_layer L < x_out X \/ ly_circ L = 0 -> forall v, v < length (lc_vars C) -> In v (map snd (layout_slots L))) ->
     (forall k, In k (lc_mid C) -> exists s off, In (s, off, k) (mids L)) ->
     (forall s off k, In (s, off, k) (mids L) -> exists l, nth_error (x_calls X) k = Some l /\ ly_circ s = cl_sub l /\ ly_layer s = ly_layer L - start_of X k) ->
     (forall s off k, In (s, off, k) (mids L) -> okl s) -> okl L.

  Definition full (X : Ctx) (id layer : nat) (L : Layout) : Prop := exists C p, nth_error (x_lcs X) layer = Some C /\ L = LDense id layer p /\ pow2b (length p) = true /\ Permutation (pc p) (seq 0 (length (lc_vars C))).
  Lemma prev_total rec id X layer C k l Y : lookup id ctxs = Some X -> nth_error (x_lcs X) layer = Some C -> end_of X k = layer -> nth_error (x_calls X) k = Some l -> lookup (cl_sub l) ctxs = Some Y ->
    (exists L, rec (cl_sub l) (x_out Y) = Some L /\ full Y (cl_sub l) (x_out Y) L) ->
    exists q, prev_layout ctxs rec X C k = Some q /\ pow2b (length q) = true /\ NoDup (pc q) /\ (forall i, In i (pc q) <-> exists x, nth_error (lc_vars C) i = Some x /\ In x (cl_outs l)) /\ (forall x, In x (cl_outs l) -> In x (lc_vars C)).
  Proof.
    intros HX HC He Hl HY [L [HL [Cs [p [HCs [-> [Hp2 Hp]]]]]]]. destruct (call_facts _ _ _ _ HX Hl) as [Y' [HY' [_ [_ [_ [_ [Hlo [_ [No [Ny _]]]]]]]]]]. rewrite HY in HY'. apply Some_inj in HY'. subst Y'.
    pose proof (vars_nodup _ _ _ _ HX HC) as Nv. pose proof (vars_nodup _ _ _ _ HY HCs) as Ns.
    assert (Hov : forall x, In x (cl_outs l) -> In x (lc_vars C)).
    { intros x Hx. apply (in_vars cross cs ctxs Hwf id X layer C x (Hok _ _ HX) HC). left. rewrite <- He. apply (t_outs _ _ _ _ (Htot _ _ HX) k l x); auto. }
    assert (Hsv : forall v, In v (outputs (x_c Y)) -> In v (lc_vars Cs)).
    { intros v Hv. apply (in_vars cross cs ctxs Hwf (cl_sub l) Y (x_out Y) Cs v (Hok _ _ HY) HCs). left. split; [|apply (ok_outs _ _ _ _ _ (Hok _ _ HY)); auto].
      pose proof (wf_out _ _ (wf_each _ _ Hwf _ _ (ok_c _ _ _ _ _ (Hok _ _ HY)))) as W. rewrite Forall_forall in W. apply W in Hv. rewrite (nv_eq _ _ _ _ _ (Hok _ _ HY)). lia. }
    set (h := fun i => match nth_error (lc_vars Cs) i with None => None | Some v => match output_order (x_c Y) v with None => None | Some j => match nth_error (cl_outs l) j with None => None | Some y => index_of y (lc_vars C) end end end).
    assert (Hh : forall i z, h i = Some z <-> exists v j y, nth_error (lc_vars Cs) i = Some v /\ nth_error (outputs (x_c Y)) j = Some v /\ nth_error (cl_outs l) j = Some y /\ nth_error (lc_vars C) z = Some y).
    { intros i z. unfold h. split.
      - destruct (nth_error (lc_vars Cs) i) as [v|]; [|discriminate]. destruct (output_order (x_c Y) v) as [j|] eqn:Ej; [|discriminate]. destruct (nth_error (cl_outs l) j) as [y|] eqn:Ey; [|discriminate]. intros H. apply index_of_some in H. apply out_order_some in Ej. exists v, j, y. auto.
      - intros [v [j [y [A [B [D E]]]]]]. rewrite A, (out_order_in _ _ _ Ny B), D. apply index_of_nodup; auto. }
    exists (map (fun o => match o with None => None | Some i => h i end) p).
    assert (Epc : pc (map (fun o => match o with None => None | Some i => h i end) p) = flat_map (fun i => match h i with Some z => [z] | None => [] end) (pc p)).
    { clear. induction p as [|[i|] p IH]; auto; cbn [map]; unfold pc in *; cbn [flat_map app]; rewrite IH; auto. }
    split; [|split; [|split; [|split; auto]]].
    - unfold prev_layout. rewrite Hl. cbn [obind]. rewrite HY. cbn [obind]. rewrite HCs. cbn [obind]. rewrite HL. cbn [obind]. apply omap_map. intros [i|] Hi; auto. apply pc_in in Hi. eapply Permutation_in in Hi; [|exact Hp]. apply in_seq in Hi.
      unfold h. destruct (nth_error_Some_ex (lc_vars Cs) i ltac:(lia)) as [v Hv]. rewrite Hv. cbn [obind]. destruct (output_order (x_c Y) v) as [j|] eqn:Ej; auto. apply out_order_some in Ej. apply nth_error_Some_lt in Ej. destruct (nth_error_Some_ex (cl_outs l) j ltac:(lia)) as [y Hy]. rewrite Hy. auto.
    - rewrite map_length. auto.
    - rewrite Epc. apply NoDup_flat_map.
      + eapply Permutation_NoDup; [symmetry; exact Hp|apply seq_NoDup].
      + intros i _. destruct (h i); constructor; [intros []|constructor].
      + intros i i' z _ _ H1 H2. destruct (h i) as [a|] eqn:E1; [|destruct H1]. destruct H1 as [H1|[]]. subst a. destruct (h i') as [a|] eqn:E2; [|destruct H2]. destruct H2 as [H2|[]]. subst a. apply Hh in E1, E2.
        destruct E1 as [v [j [y [A1 [A2 [A3 A4]]]]]], E2 as [v' [j' [y' [B1 [B2 [B3 B4]]]]]]. assert (y' = y) by congruence. subst y'. assert (j = j'). { rewrite NoDup_nth_error in No. apply No; [eapply nth_error_Some_lt; eauto|congruence]. } subst j'. assert (v' = v) by congruence. subst v'.
        rewrite NoDup_nth_error in Ns. apply Ns; [eapply nth_error_Some_lt; eauto|congruence].
    - intros i. rewrite Epc, in_flat_map. split.
      + intros [i0 [_ H]]. destruct (h i0) as [a|] eqn:E1; [|destruct H]. destruct H as [H|[]]. subst a. apply Hh in E1. destruct E1 as [v [j [y [A1 [A2 [A3 A4]]]]]]. exists y. split; auto. eapply nth_error_In; eauto.
      + intros [x [H1 H2]]. apply In_nth_error in H2. destruct H2 as [j Hj]. destruct (nth_error_Some_ex (outputs (x_c Y)) j) as [v Hv]; [rewrite <- Hlo; eapply nth_error_Some_lt; eauto|]. destruct (In_nth_error _ _ (Hsv v (nth_error_In _ _ Hv))) as [i0 Hi0].
        exists i0. split.
        * eapply Permutation_in; [symmetry; exact Hp|]. apply in_seq. apply nth_error_Some_lt in Hi0. lia.
        * rewrite (proj2 (Hh i0 i)); [left; auto|]. exists v, j, x. auto.
  Qed.
  Lemma pieces_total (X : Ctx) dense (md : list (nat * Layout)) : forall order cur pl subs, (forall i sz, In (S i, sz) order -> i < length md) ->
    exists pl' subs' cur', pieces X dense md order cur pl subs = Some (pl', subs', cur') /\ map snd pl' = map snd pl ++ flat_map (fun p => if fst p =? 0 then pc dense else []) order /\ incl subs subs' /\
      (forall i sz m, In (S i, sz) order -> nth_error md i = Some m -> exists off, In (snd m, off, fst m) subs') /\ (forall s off k, In (s, off, k) subs' -> In (s, off, k) subs \/ In (k, s) md).
  Proof.
    induction order as [|[i sz] order IH]; intros cur pl subs Ho; cbn [pieces].
    - exists pl, subs, cur. split; auto. split; [cbn; rewrite app_nil_r; auto|]. split; [apply incl_refl|]. split; [intros ? ? ? []|auto].
    - assert (Ho' : forall i sz, In (S i, sz) order -> i < length md) by (intros j s Hj; apply (Ho j s); right; auto). destruct i as [|i].
      + set (new := flat_map _ _). assert (Hnew : map snd new = pc dense).
        { unfold new. clear. generalize 0. induction dense as [|[v|] p IHp]; intros b; auto; cbn [length seq combine flat_map map snd fst app]; rewrite ?IHp; auto. }
        assert (Hm : (new = [] -> pc dense = []) /\ match new with [] => pieces X dense md order cur pl subs | _ => pieces X dense md order (cur + sz) (pl ++ new) subs end = if match new with [] => true | _ => false end then pieces X dense md order cur pl subs else pieces X dense md order (cur + sz) (pl ++ new) subs).
        { split; [intros E; rewrite E in Hnew; auto|]. destruct new; auto. }
        destruct Hm as [Hm1 Hm2]. rewrite Hm2. clear Hm2. destruct (match new with [] => true | _ => false end) eqn:En.
        * assert (pc dense = []) by (apply Hm1; destruct new; [auto|discriminate]). destruct (IH cur pl subs Ho') as [pl' [subs' [cur' [A [B [D [E G]]]]]]]. exists pl', subs', cur'. split; auto. split; [|split; auto; split; auto].
          -- rewrite B. cbn [flat_map fst Nat.eqb]. rewrite H. auto.
          -- intros j s m [Hj|Hj]; [discriminate|eauto].
        * destruct (IH (cur + sz) (pl ++ new) subs Ho') as [pl' [subs' [cur' [A [B [D [E G]]]]]]]. exists pl', subs', cur'. split; auto. split; [|split; auto; split; auto].
          -- rewrite B, map_app, Hnew, <- app_assoc. auto.
          -- intros j s m [Hj|Hj]; [discriminate|eauto].
      + destruct (nth_error_Some_ex md i (Ho i sz (or_introl eq_refl))) as [m Hm]. rewrite Hm. cbn [obind]. destruct (IH (cur + sz) pl (subs ++ [(snd m, cur, fst m)]) Ho') as [pl' [subs' [cur' [A [B [D [E G]]]]]]]. exists pl', subs', cur'. split; auto. split; [auto|]. split; [intros s Hs; apply D; apply in_app_iff; auto|]. split.
        * intros j s m' [Hj|Hj] Hm'; [|eauto]. injection Hj as <- <-. assert (m' = m) by congruence. subst m'. exists cur. apply D. apply in_app_iff. right. left; auto.
        * intros s o k Hs. destruct (G _ _ _ Hs) as [H|H]; auto. apply in_app_iff in H. destruct H as [H|[H|[]]]; auto. injection H as <- <- <-. right. apply nth_error_In in Hm. destruct m; auto.
  Qed.
  Theorem solve_total reorder : forall fuel id layer X, rank id < fuel -> lookup id ctxs = Some X -> layer <= x_out X ->
    exists L, solve fuel reorder ctxs id layer = Some L /\ okl L /\ ly_circ L = id /\ ly_layer L = layer /\ (layer = 0 \/ layer = x_out X -> full X id layer L).
  Proof.
    induction fuel as [|fuel IH]; intros id layer X Hr HX Hlay; [lia|]. cbn [solve]. rewrite HX. cbn [obind]. pose proof (Hok _ _ HX) as K.
    destruct (nth_error_Some_ex (x_lcs X) layer) as [C HC]; [rewrite (ok_lcs _ _ _ _ _ K); lia|].
    assert (Hdense : forall p, lc_mid C = [] -> pow2b (length p) = true -> Permutation (pc p) (seq 0 (length (lc_vars C))) -> okl (LDense id layer p) /\ full X id layer (LDense id layer p)).
    { intros p Hm H2 Hp. split; [|exists C, p; auto]. econstructor; [exact HX|exact HC| | | | | |]; cbn [ly_layer ly_circ mids]; rewrite ?dense_snd.
      - eapply Permutation_NoDup; [symmetry; exact Hp|apply seq_NoDup].
      - intros v Hv. eapply Permutation_in in Hv; [|exact Hp]. apply in_seq in Hv. lia.
      - intros _ v Hv. eapply Permutation_in; [symmetry; exact Hp|]. apply in_seq. lia.
      - rewrite Hm. intros k [].
      - intros s o k [].
      - intros s o k []. }
    destruct (_ && _) eqn:Eb.
    - assert (Hm : lc_mid C = []).
      { eapply mid_nil; eauto. apply andb_true_iff in Eb. destruct Eb as [_ Eb]. apply orb_true_iff in Eb. destruct Eb as [Eb|Eb]; [apply andb_true_iff in Eb; destruct Eb as [Eb _]; apply Nat.eqb_eq in Eb; auto|apply Nat.eqb_eq in Eb; auto]. }
      unfold solve_fixed. rewrite HX. cbn [obind]. rewrite HC. cbn [obind]. destruct (merge_total [] (seq 0 (length (lc_vars C)))) as [r [R1 [R2 R3]]]; [intros ? []|]. rewrite R1. cbn [obind]. eexists. split; [reflexivity|]. destruct (Hdense r Hm R2 R3) as [A B]. auto.
    - unfold solve_normal. rewrite HX. cbn [obind]. rewrite HC. cbn [obind]. destruct (t_lc _ _ _ _ (Htot _ _ HX) _ _ HC) as [Hpl Hprev].
      assert (Hpk : forall k, In k (lc_prev C) -> end_of X k = layer /\ exists l, nth_error (x_calls X) k = Some l).
      { intros k Hk. rewrite Hprev in Hk. apply filter_In in Hk. destruct Hk as [Hk He]. apply Nat.eqb_eq in He. apply in_seq in Hk. split; auto. apply nth_error_Some_ex. lia. }
      assert (Hpt : forall k l, In k (lc_prev C) -> nth_error (x_calls X) k = Some l -> exists q, prev_layout ctxs (solve fuel reorder ctxs) X C k = Some q /\ pow2b (length q) = true /\ NoDup (pc q) /\ (forall i, In i (pc q) <-> exists x, nth_error (lc_vars C) i = Some x /\ In x (cl_outs l)) /\ (forall x, In x (cl_outs l) -> In x (lc_vars C))).
      { intros k l Hk Hl. destruct (Hpk k Hk) as [He _]. destruct (call_facts _ _ _ _ HX Hl) as [Y [HY [_ [_ [_ [_ [_ [_ [_ [_ Hrk]]]]]]]]]]. apply (prev_total _ id X layer C k l Y); auto. destruct (IH (cl_sub l) (x_out Y) Y ltac:(lia) HY (le_n _)) as [L [L1 [_ [_ [_ L2]]]]]. exists L. split; auto. }
      destruct (omap_total (fun k => let* p := prev_layout ctxs (solve fuel reorder ctxs) X C k in Some (k, p)) (lc_prev C)) as [lays Hlays].
      { intros k Hk. destruct (Hpk k Hk) as [_ [l Hl]]. destruct (Hpt k l Hk Hl) as [q [E _]]. rewrite E. cbn [obind]. eauto. }
      rewrite Hlays. cbn [obind].
      assert (Hlf : map fst lays = lc_prev C).
      { clear -Hlays. revert lays Hlays. induction (lc_prev C) as [|k ks IHk]; intros r H; cbn [omap] in H; [apply Some_inj in H; subst; auto|]. destruct (prev_layout _ _ _ _ k); [|discriminate]. cbn [obind] in H. destruct (omap _ ks) as [r'|]; [|discriminate]. cbn [obind] in H. apply Some_inj in H. subst. cbn. f_equal. auto. }
      destruct (dense_total X C lays Hpl Hlf) as [groups [dense [G1 [G2 [G3 G4]]]]].
      { rewrite Hprev. apply NoDup_filter, seq_NoDup. }
      { intros k p Hin. assert (Hk : In k (lc_prev C)) by (rewrite <- Hlf; apply (in_map fst) in Hin; auto). destruct (Hpk k Hk) as [_ [l Hl]]. exists l. split; auto. destruct (Hpt k l Hk Hl) as [q [E Hq]]. apply (omap_in _ _ _ (k, p) Hlays) in Hin. destruct Hin as [k' [_ Hin]]. destruct (prev_layout ctxs (solve fuel reorder ctxs) X C k') as [q'|] eqn:E'; [|discriminate]. cbn [obind] in Hin. apply Some_inj in Hin. injection Hin as -> ->. assert (q = p) by congruence. subst q. auto. }
      { intros k k' l l' x. apply (outs_disjoint id X); auto. }
      rewrite G1. cbn [obind]. rewrite G2. cbn [obind]. destruct (ok_lc _ _ _ _ _ K _ _ HC) as [_ Hmid].
      destruct (lc_mid C) as [|m0 ms] eqn:Em; [eexists; split; [reflexivity|]; destruct (Hdense dense eq_refl G3 G4) as [A B]; auto|]. rewrite <- Em in *. assert (Hmn : lc_mid C <> []) by (rewrite Em; discriminate). clear m0 ms Em.
      assert (Hmk : forall k, In k (lc_mid C) -> exists l L, nth_error (x_calls X) k = Some l /\ solve fuel reorder ctxs (cl_sub l) (layer - start_of X k) = Some L /\ okl L /\ ly_circ L = cl_sub l /\ ly_layer L = layer - start_of X k).
      { intros k Hk. rewrite Hmid in Hk. apply filter_In in Hk. destruct Hk as [Hk Hse]. apply in_seq in Hk. apply andb_true_iff in Hse. rewrite !Nat.ltb_lt in Hse. destruct (nth_error_Some_ex (x_calls X) k ltac:(lia)) as [l Hl]. exists l.
        destruct (call_facts _ _ _ _ HX Hl) as [Y [HY [_ [He [_ [_ [_ [_ [_ [_ Hrk]]]]]]]]]]. destruct (IH (cl_sub l) (layer - start_of X k) Y ltac:(lia) HY ltac:(lia)) as [L [L1 [L2 [L3 [L4 _]]]]]. exists L. auto. }
      destruct (omap_total (fun k => let* l := nth_error (x_calls X) k in let* L := solve fuel reorder ctxs (cl_sub l) (layer - start_of X k) in Some (k, L)) (lc_mid C)) as [md Hmd].
      { intros k Hk. destruct (Hmk k Hk) as [l [L [A [B _]]]]. rewrite A. cbn [obind]. rewrite B. cbn [obind]. eauto. }
      rewrite Hmd. cbn [obind]. set (sizes := length dense :: _). set (order := isort _ _).
      assert (Hperm : Permutation order (combine (seq 0 (length sizes)) sizes)) by apply isort_perm.
      destruct (pieces_total X dense md order 0 [] []) as [pl [subs [cur [P1 [P2 [_ [P3 P4]]]]]]].
      { intros i sz Hi. eapply Permutation_in in Hi; [|exact Hperm]. apply in_combine_l, in_seq in Hi. unfold sizes in Hi. cbn [length] in Hi. rewrite map_length in Hi. lia. }
      rewrite P1. cbn [obind]. eexists. split; [reflexivity|]. cbn [ly_circ ly_layer]. split; [|split; auto; split; auto; intros Hl0; exfalso; apply Hmn; eapply mid_nil; eauto].
      assert (Hpc : Permutation (map snd pl) (pc dense)).
      { rewrite P2. cbn [map app]. rewrite (Permutation_flat_map _ Hperm). unfold sizes. cbn [length seq combine flat_map fst Nat.eqb].
        assert (E0 : forall (l : list nat) b, flat_map (fun p : nat * nat => if fst p =? 0 then pc dense else []) (combine (seq (S b) (length l)) l) = []). { clear. induction l as [|x l IHl]; intros b; auto. cbn [length seq combine flat_map fst]. rewrite IHl. auto. }
        rewrite E0, app_nil_r. auto. }
      assert (Hmi : forall k s, In (k, s) md -> In k (lc_mid C) /\ exists l, nth_error (x_calls X) k = Some l /\ okl s /\ ly_circ s = cl_sub l /\ ly_layer s = layer - start_of X k).
      { intros k s Hin. apply (omap_in _ _ _ (k, s) Hmd) in Hin. destruct Hin as [k' [Hk' Hin]]. destruct (Hmk k' Hk') as [l [L [A [B [D E]]]]]. rewrite A in Hin. cbn [obind] in Hin. rewrite B in Hin. cbn [obind] in Hin. apply Some_inj in Hin. injection Hin as <- <-. split; auto. exists l. auto. }
      econstructor; [exact HX|exact HC| | | | | |]; cbn [ly_layer ly_circ mids layout_slots].
      + eapply Permutation_NoDup; [symmetry; exact Hpc|]. eapply Permutation_NoDup; [symmetry; exact G4|apply seq_NoDup].
      + intros v Hv. eapply Permutation_in in Hv; [|exact Hpc]. eapply Permutation_in in Hv; [|exact G4]. apply in_seq in Hv. lia.
      + intros _ v Hv. eapply Permutation_in; [symmetry; exact Hpc|]. eapply Permutation_in; [symmetry; exact G4|]. apply in_seq. lia.
      + intros k Hk. destruct (In_nth_error _ _ Hk) as [i Hi]. destruct (omap_at _ _ _ i k Hmd Hi) as [[k' s] [M1 M2]]. assert (k' = k). { destruct (nth_error (x_calls X) k); [|discriminate]. cbn [obind] in M2. destruct (solve _ _ _ _ _); [|discriminate]. cbn [obind] in M2. apply Some_inj in M2. congruence. } subst k'.
        destruct (P3 i (ly_size s) (k, s)) as [o Ho]; auto; [|exists s, o; auto]. eapply Permutation_in; [symmetry; exact Hperm|]. apply in_combine_seq. split; [lia|]. rewrite Nat.sub_0_r. unfold sizes. cbn [nth_error]. rewrite nth_error_map, M1. auto.
      + intros s o k Hs. destruct (P4 _ _ _ Hs) as [[]|Hin]. destruct (Hmi k s Hin) as [_ [l [A [B [D E]]]]]. exists l. auto.
      + intros s o k Hs. destruct (P4 _ _ _ Hs) as [[]|Hin]. destruct (Hmi k s Hin) as [_ [l [A [B [D E]]]]]. auto.
  Qed.
End LaySolve.
