(* C36, C37: the whole compiler (compile/mod.rs: compile_with_options; model in Compile.v).
   Specification used below: [root_run] (what a run of a source circuit is, Ir.v), [lrun] (what a run of a layered circuit is, Layered.v),
   [eval_safe] (what the witness solver computes from the exported circuit, Solver.v), and for soundness [adv E]: the environment [E] in
   which every hint may answer anything. *)
From Verif Require Import Prelude Field InputMapping Zp Expr Topo Ir IrFacts IrInst Hints Sim Builder BuilderFacts BuilderSim HnTrans HnSim HnCirc HintExport AddBack FixedPoint Kinds Solver Layered LayeredOpt Layering Compile E2E E2ERun
  PropIr PropPasses PropHn PropFb PropSplit PropLayering PropLayeredOpt E2ESteps E2ELow E2EFinal E2EKinds.
Open Scope nat_scope.

(* ------------------------------------------------------------ when the theorems apply *)
(* no size reaches usize::MAX, which input mappings use for "not used" *)
Definition sizes_fit {F : Fld} (K : Config) (rc : RootCircuit (SrcI F)) (t : Trace (F := F)) : Prop :=
  (forall c, lookup 0 (circuits rc) = Some c -> num_inputs c <= EMPTY K) /\
  (forall c, lookup 0 (circuits (t_hl t)) = Some c -> num_inputs c <= EMPTY K) /\ next_size (t_lc_im t) <= EMPTY K.
(* where constraints are combined at random before layering (types without relays across layers): every circuit has fewer constraints than
   the field has elements in its prime field, and the root reaches one (C18) *)
Definition few_constraints {F : Fld} (K : Config) (t : Trace (F := F)) : Prop :=
  cross_layer K = false -> (forall id c, lookup id (circuits (t_p2 t)) = Some c -> (Z.of_nat (length (constraints c)) < fmod F)%Z) /\
                           (random_combination K = true -> constrained (circuits (t_p2 t)) 0).
Record usable {F : Fld} (K : Config) (rc : RootCircuit (SrcI F)) (t : Trace (F := F)) : Prop := {
  us_keys : NoDup (keys (circuits rc)); us_sizes : sizes_fit K rc t; us_few : few_constraints K t }.
(* the solver has neither coins nor custom gates *)
Definition solvable_circuit {F : Fld} (ex : RootCircuit (HnI F)) : Prop :=
  forall id c i, lookup id (circuits ex) = Some c -> In i (instructions c : list (HInsn F)) -> i <> HConst CRandom /\ forall g l, i <> HGate g l.
(* [place_of K t i] (E2EFinal.v): where input i of the source circuit goes in the input of the layered circuit, the two input mappings of
   the compilation followed one after the other; None: it was found not to matter *)

Section Use.
  Context {F : Fld} (K : Config) (o : Options) (rc : RootCircuit (SrcI F)) (t : Trace (F := F)) (ex : RootCircuit (HnI F)) (lc : LCircuit F).
  Hypothesis H : compiles K o rc t ex lc.
  Hypothesis U : usable K rc t.
  Lemma root_of : exists c0, lookup 0 (circuits rc) = Some c0.
  Proof. pose proof (c_src _ _ _ _ _ _ H) as S. unfold step_1_source in S. apply obind_some in S. destruct S as [u [_ S]]. apply obind_some in S. destruct S as [c0 [Hc _]]. eauto. Qed.
  Lemma h_validate_insns : forall id c, lookup id (circuits ex) = Some c -> Forall (fun i : HInsn F => h_validate F (num_public_inputs ex) i = true) (instructions c : list (HInsn F)).
  Proof.
    pose proof (c_valid _ _ _ _ _ _ H) as V. unfold validate in V. destruct (lookup 0 (circuits ex)); [|discriminate]. rewrite !andb_true_iff in V. destruct V as [[H1 _] _]. rewrite forallb_forall in H1.
    intros id c1 Hc. apply lookup_In in Hc. specialize (H1 _ Hc). cbn [snd] in H1. unfold validate_variable_references in H1. destruct (validate_insns _ _ _ _) as [m|] eqn:E; [|discriminate].
    apply validate_insns_spec in E. apply E.
  Qed.
  Lemma solvable_all (pub : list F) : length pub = num_public_inputs ex -> solvable_circuit ex -> forall id c i, lookup id (circuits ex) = Some c -> In i (instructions c) -> solvable (F := F) (length pub) i.
  Proof.
    intros Hp Hs id c i Hc Hi. destruct (Hs id c i Hc Hi) as [N1 N2]. pose proof (h_validate_insns id c Hc) as Hv. rewrite Forall_forall in Hv. specialize (Hv i Hi).
    rewrite <- Hp in Hv. destruct i as [l|l|h l n|k|sb l n|gt l]; cbn [solvable h_validate] in *; auto.
    - destruct l; [discriminate|auto].
    - destruct k; auto. cbn in Hv. apply Nat.ltb_lt in Hv. auto.
    - eapply N2; eauto.
  Qed.
  Variable nr : Prop.
  Hypothesis Hnr : nr -> holds (HlI F) (fun i => i <> LConst CRandom) (t_hl t).
  Variable c0 : Circuit (SrcI F).
  Hypothesis Hc0 : lookup 0 (circuits rc) = Some c0.
  Lemma u_sz : num_inputs c0 <= EMPTY K. Proof. destruct U as [_ [A _] _]. auto. Qed.
  Lemma u_szl : small (EMPTY K) (t_hl t). Proof. destruct U as [_ [_ [A _]] _]. exact A. Qed.
  Lemma u_szc : next_size (t_lc_im t) <= EMPTY K. Proof. destruct U as [_ [_ [_ A]] _]. auto. Qed.
  Definition u_lay := lay_ok K o rc t ex lc H (us_keys _ _ _ U) c0 Hc0 u_sz u_szl u_szc (us_few _ _ _ U) nr Hnr.
  Definition u_solver := solver_ok K o rc t ex lc H (us_keys _ _ _ U) c0 Hc0 u_sz u_szl u_szc (us_few _ _ _ U) nr Hnr.
  Definition u_forward := forward K o rc t ex lc H (us_keys _ _ _ U) c0 Hc0 u_sz u_szl u_szc (us_few _ _ _ U) nr Hnr.
  Definition u_backward := backward K o rc t ex lc H (us_keys _ _ _ U) c0 Hc0 u_sz u_szl u_szc (us_few _ _ _ U) nr Hnr.
  Definition u_split := split_facts K o rc t ex lc H (us_keys _ _ _ U) c0 Hc0 u_sz.
  Definition u_hn := hn_ok K o rc t ex lc H (us_keys _ _ _ U) c0 Hc0 u_sz.
  Lemma u_pub : num_public_inputs ex = num_public_inputs rc.
  Proof.
    destruct u_solver as [_ [_ [-> _]]]. destruct u_hn as [hn [E1 [_ [_ [_ [S _]]]]]]. destruct S as [_ [d2 [T2 _]]]. rewrite (td_pub _ _ _ _ _ T2).
    destruct (src_any K o rc t ex lc H (us_keys _ _ _ U) c0 Hc0 u_sz) as [W [d1 [T1 _]]]. rewrite <- (td_pub _ _ _ _ _ T1).
    pose proof (src_valid K o rc t ex lc H (us_keys _ _ _ U) c0 Hc0 u_sz) as V. destruct (hn_process_spec (t_src t) W (validate_insns_valid _ V)) as [X|[hn' [X R]]]; [congruence|]. rewrite E1 in X. injection X as <-. apply R.
  Qed.
End Use.

(* what the solver can compute: everything but coins and custom gates *)
Definition computable {F : Fld} (i : SInsn F) : bool := match i with SConst CRandom | SCommit _ | SGate _ _ => false | _ => true end.
Lemma computable_holds {F : Fld} (rc : RootCircuit (SrcI F)) : all_insns computable rc = true -> holds (SrcI F) (KS True True) rc.
Proof.
  intros Hz id c Hc. unfold all_insns in Hz. rewrite forallb_forall in Hz. specialize (Hz _ (lookup_In _ _ _ Hc)). rewrite forallb_forall in Hz. apply Forall_forall. intros i Hi. specialize (Hz i Hi).
  split; intros _; [split|]; intros; intros ->; discriminate.
Qed.

(* C36: the witness the solver computes for a satisfied source circuit satisfies the layered circuit, whatever the coins show.
   For every compilation whose optimisation rounds end, every source circuit without coins of its own and custom gates, every hint function
   that answers the compiler's own hints as the compiler does, every choice of public inputs, and every input on which the source circuit is
   satisfied: the solver succeeds, its answer has the size of the layered circuit's input, each source input that is not discarded is at its
   place in it, the layered circuit has a run on it for every set of coins, and every such run accepts and has the outputs of the source circuit. *)
Theorem C36_completeness : forall F (K : Config) (o : Options) (rc : RootCircuit (SrcI F)) (t : Trace) ex lc (hint : N -> nat -> list F -> option (list F)) (pub : list F) gate rnd0 (ins outs : list F),
  compiles K o rc t ex lc -> usable K rc t -> all_insns computable rc = true -> length pub = num_public_inputs rc ->
  (forall h n args outs, impl_builtin_hint h n args = Some outs -> hint (builtin_id h) n args = Some outs) ->
  root_run (SrcI F) (solver_env hint pub gate rnd0) rc ins outs true ->
  exists w, eval_safe hint ex pub ins = Ok w /\ input_size lc = Some (length w) /\
    (forall i s, place_of K t i = Some s -> nth_error w s = nth_error ins i) /\
    forall rnd, (exists r, rnd r) -> lrun (solver_env hint pub gate rnd) lc w outs true /\
      forall outs' sat, lrun (solver_env hint pub gate rnd) lc w outs' sat -> outs' = outs /\ sat = true.
Proof.
  intros F K o rc t ex lc hint pub gate rnd0 ins outs H U Hcp Hp Hh Hrun. destruct (root_of K o rc t ex lc H) as [c0 Hc0]. pose proof (computable_holds rc Hcp) as Hk.
  assert (Hn : forall id c, lookup id (circuits (t_hl t)) = Some c -> Forall (fun i : LInsn F => i <> LConst CRandom) (instructions c : list (LInsn F))).
  { intros id c Hc. eapply Forall_impl; [|apply (proj1 (split_kinds K o rc t ex lc H (us_keys _ _ _ U) c0 Hc0 (u_sz K rc t U c0 Hc0) True True Hk) id c Hc)]. intros i Hi. exact (Hi Logic.I). }
  assert (Hs : solvable_circuit ex).
  { intros id c i Hc Hi. pose proof (solver_kinds K o rc t ex lc H (us_keys _ _ _ U) c0 Hc0 (u_sz K rc t U c0 Hc0) True True Hk id c Hc) as Hf. rewrite Forall_forall in Hf. destruct (Hf i Hi) as [A B]. split; auto. }
  pose proof (u_lay K o rc t ex lc H U True (fun _ => Hn) c0 Hc0) as [_ [_ [_ [L1 [_ L2]]]]]. pose proof (u_solver K o rc t ex lc H U True (fun _ => Hn) c0 Hc0) as [S1 [S2 [_ [_ _]]]].
  set (E := solver_env hint pub gate rnd0) in *.
  destruct (u_forward K o rc t ex lc H U True (fun _ => Hn) c0 Hc0 E ins outs true Hh Hrun) as [mid [hv [v [b' [M1 [M2 [M3 M4]]]]]]]. exists v.
  pose proof (u_pub K o rc t ex lc H U True (fun _ => Hn) c0 Hc0) as Hpub.
  split; [eapply run_eval_safe; eauto; intros id c i Hc Hi; eapply solvable_all; eauto; congruence|]. pose proof M3 as [P1 [P2 P3]]. split; [rewrite L1; congruence|]. split.
  { intros i s Hi. apply place_of_spec in Hi. destruct Hi as [j [A [B [C D]]]]. rewrite (P3 j s C D).
    destruct (hn_im K o rc t ex lc H (us_keys _ _ _ U) c0 Hc0 (u_sz K rc t U c0 Hc0)) as [_ [[G1 [G2 G3]] _]].
    destruct (map_inputs_delivers (EMPTY K) f0 (t_hn_im t) ins mid i j G1 G2 M1 A B) as [X Y]. rewrite <- X. apply nth_error_app1. auto. }
  destruct (u_split K o rc t ex lc H U c0 Hc0) as [nh [Wl _]].
  set (E' := solver_env hint pub gate (fun _ => True)) in *. assert (Hr' : Qr E') by (exists f0; exact Logic.I).
  destruct (L2 (mid ++ hv) v M3 E' (fun _ _ => Logic.I) Hr') as [L3 [_ L4]].
  assert (Hx : forall (E1 E2 : Env F), e_pub E1 = e_pub E2 -> e_gate E1 = e_gate E2 -> forall id c (i : LInsn F) g o1, lookup id (circuits (t_hl t)) = Some c -> In i (instructions c : list (LInsn F)) -> l_sem F E1 i g o1 -> l_sem F E2 i g o1).
  { intros E1 E2 Ep Eg id c i g o1 Hc Hi. pose proof (Hn id c Hc) as Hf. rewrite Forall_forall in Hf. specialize (Hf i Hi). destruct i as [l|l|k|sb l n|gt l]; cbn; auto; [|rewrite Eg; auto]. intros [x [-> Hkk]]. exists x. split; auto. clear -Hkk Hf Ep. destruct k; cbn [coef_sem] in *; [auto|exfalso; apply Hf; reflexivity|rewrite <- Ep; auto]. }
  assert (M4' : root_run (HlI F) E' (t_hl t) (mid ++ hv) outs true). { apply (root_run_env (HlI F) E E' (t_hl t) Wl); auto. intros id c i g o1 Hc Hi _. apply (Hx E E' eq_refl eq_refl id c); auto. }
  assert (Huni : forall outs' sat, lrun E' lc v outs' sat -> outs' = outs /\ sat = true).
  { intros outs' sat Hl. assert (HQ : Q3 True E') by (split; [exact Hr'|right; exact Logic.I]). destruct (L4 HQ outs' sat Hl) as [b [L5 L6]].
    destruct (root_run_det (HlI F) E' (t_hl t) Wl) with (ins := mid ++ hv) (o := outs) (b := true) (o' := outs') (b' := b) as [-> <-]; auto.
    intros id c i g o1 o2 Hc Hi _. pose proof (Hn id c Hc) as Hf. rewrite Forall_forall in Hf. specialize (Hf i Hi). clear -Hf. destruct i as [l|l|k|sb l n|gt l]; cbn; intros A B; try congruence.
    - destruct A as [x [-> A]], B as [y [-> B]]. destruct k; cbn in A, B; [congruence|exfalso; apply Hf; reflexivity|congruence].
    - contradiction. }
  intros rnd Hr. assert (Hany : forall outs' sat, lrun (solver_env hint pub gate rnd) lc v outs' sat -> outs' = outs /\ sat = true).
  { intros outs' sat Hl. apply Huni. revert Hl. apply lrun_more; auto. intros r _. exact Logic.I. }
  split; [|exact Hany]. destruct (lrun_some E' (solver_env hint pub gate rnd) lc v outs true Hr (L3 outs M4')) as [outs' [sat Hl]]. destruct (Hany _ _ Hl) as [-> ->]. exact Hl.
Qed.
Print Assumptions C36_completeness.

(* A source circuit may also draw coins and use custom gates, if the solver does not need them: then for all coins with which the source circuit is
   satisfied the layered circuit has a run that accepts the witness, with the same outputs.  (At level 3, gates with coins that add up may have been
   merged into one: there all coins have to be possible.) *)
Theorem C36_with_coins : forall F (K : Config) (o : Options) (rc : RootCircuit (SrcI F)) (t : Trace) ex lc (hint : N -> nat -> list F -> option (list F)) (pub : list F) gate rnd (ins outs : list F),
  compiles K o rc t ex lc -> usable K rc t -> solvable_circuit ex -> length pub = num_public_inputs rc ->
  (forall h n args outs, impl_builtin_hint h n args = Some outs -> hint (builtin_id h) n args = Some outs) ->
  (exists r, rnd r) -> (3 <= opt_level o -> forall r, rnd r) ->
  let E := solver_env hint pub gate rnd in
  root_run (SrcI F) E rc ins outs true ->
  exists w, eval_safe hint ex pub ins = Ok w /\ input_size lc = Some (length w) /\
    (forall i s, place_of K t i = Some s -> nth_error w s = nth_error ins i) /\
    lrun E lc w outs true.
Proof.
  intros F K o rc t ex lc hint pub gate rnd ins outs H U Hs Hp Hh [r Hr] Hall E Hrun. destruct (root_of K o rc t ex lc H) as [c0 Hc0].
  pose proof (u_lay K o rc t ex lc H U False (fun x => match x with end) c0 Hc0) as [_ [_ [_ [L1 [_ L2]]]]]. pose proof (u_solver K o rc t ex lc H U False (fun x => match x with end) c0 Hc0) as [S1 [S2 [_ [_ _]]]].
  destruct (u_forward K o rc t ex lc H U False (fun x => match x with end) c0 Hc0 E ins outs true Hh Hrun) as [mid [hv [v [b' [M1 [M2 [M3 M4]]]]]]]. exists v.
  pose proof (u_pub K o rc t ex lc H U False (fun x => match x with end) c0 Hc0) as Hpub.
  split; [eapply run_eval_safe; eauto; intros id c i Hc Hi; eapply solvable_all; eauto; congruence|]. destruct M3 as [P1 [P2 P3]]. split; [rewrite L1; congruence|]. split.
  - intros i s Hi. apply place_of_spec in Hi. destruct Hi as [j [A [B [C D]]]]. rewrite (P3 j s C D).
    destruct (hn_im K o rc t ex lc H (us_keys _ _ _ U) c0 Hc0 (u_sz K rc t U c0 Hc0)) as [_ [[G1 [G2 G3]] _]].
    destruct (map_inputs_delivers (EMPTY K) f0 (t_hn_im t) ins mid i j G1 G2 M1 A B) as [X Y]. rewrite <- X. apply nth_error_app1. auto.
  - apply (L2 (mid ++ hv) v (conj P1 (conj P2 P3)) E Hall); auto. exists r. auto.
Qed.
Print Assumptions C36_with_coins.

(* ======================= C37 ======================= *)
(* instructions that always have a result, determined by the source semantics up to hints *)
Definition plain {F : Fld} (i : SInsn F) : bool := match i with SLin _ | SMul _ | SIsZero _ | SHint _ _ _ | SConst _ | SCall _ _ _ | SGate _ _ => true | _ => false end.
(* For every compilation, every environment in which all coins are possible, and every input of the layered circuit that is accepted whatever the coins
   show: the optimised source circuit, on the source input read off from it, is satisfied with hint values of the prover's choice. *)
Theorem C37_soundness_optimised : forall F (K : Config) (o : Options) (rc : RootCircuit (SrcI F)) (t : Trace) ex lc c0 (E : Env F) (ins v : list F),
  compiles K o rc t ex lc -> usable K rc t -> (forall r, e_rnd E r) ->
  lookup 0 (circuits rc) = Some c0 -> length ins = num_inputs c0 -> input_size lc = Some (length v) -> (forall i s, place_of K t i = Some s -> nth_error v s = nth_error ins i) ->
  (forall outs sat, lrun E lc v outs sat -> sat = true) ->
  all_insns unmarking (t_src t) = true \/ root_keptb (t_src t) = true ->
  exists ins' outs, map_inputs (EMPTY K) f0 (t_src_im t) ins = Some ins' /\ lrun E lc v outs true /\ root_run RelI (adv E) (relax_root (t_src t)) ins' outs true /\
    (all_insns pinned (t_src t) = true -> root_run (SrcI F) (adv E) (t_src t) ins' outs true).
Proof.
  intros F K o rc t ex lc c0 E ins v H U Hr Hc0 Hl Hv Hp Hacc Hm. pose proof (src_valid K o rc t ex lc H (us_keys _ _ _ U) c0 Hc0 (u_sz K rc t U c0 Hc0)) as V.
  pose proof (src_any K o rc t ex lc H (us_keys _ _ _ U) c0 Hc0 (u_sz K rc t U c0 Hc0)) as S. pose proof (wf_keys_of _ (st_wf _ _ _ _ _ _ S)) as Hk.
  destruct (u_backward K o rc t ex lc H U False (fun x => match x with end) c0 Hc0 E ins v Hr Hl Hv Hp Hacc) as [hn [m1 [outs [A1 [A2 [A3 A4]]]]]].
  exists m1, outs. split; auto. split; auto. split.
  - destruct Hm as [Hm|Hm]; [eapply C08_sound_without_marks|eapply C08_sound]; eauto.
  - intros Hpin. eapply C08_sound_pinned; eauto.
Qed.
Print Assumptions C37_soundness_optimised.

Section Plain.
  Context {F : Fld}.
  Lemma plain_total (E : Env F) (z : RootCircuit (SrcI F)) : (forall r, e_rnd E r) -> holds (SrcI F) (fun i => plain i = true) z -> total (SrcI F) (adv E) (circuits z).
  Proof.
    intros Hr Hz id c i g Hc Hi Ec. pose proof (Hz id c Hc) as Hf. rewrite Forall_forall in Hf. specialize (Hf i Hi). cbn [SrcI i_sem]. destruct i as [l|l|x y ck|x y op|x|l|h l k|kc|sb l k|x y op|cd tt ee|gt l|x k]; cbn in Hf; try discriminate; cbn [s_sem s_det]; eauto.
    - exists (repeat f0 k). split; [apply repeat_length|exact Logic.I].
    - destruct kc as [k| |p]; [exists [k], k|exists [f0], f0|exists [e_pub E p], (e_pub E p)]; split; cbn; auto.
  Qed.
  Lemma plain_ipred : ipred (SrcI F) (fun i => plain i = true).
  Proof. split; [intros f i; destruct i; auto|auto|auto]. Qed.
  Lemma unmarking_ipred : ipred (SrcI F) (fun i => unmarking i = true).
  Proof. split; [intros f i; destruct i; auto|auto|auto]. Qed.
  Lemma both_ipred (P P' : SInsn F -> Prop) : ipred (SrcI F) P -> ipred (SrcI F) P' -> ipred (SrcI F) (fun i => P i /\ P' i).
  Proof. intros [A B C] [A' B' C']. split; [intros f i []; auto|auto|]. intros i id l n l' n' [] Ec. split; eauto. Qed.
  Lemma all_holds p (z : RootCircuit (SrcI F)) : holds (SrcI F) (fun i => p i = true) z -> NoDup (keys (circuits z)) -> all_insns p z = true.
  Proof. intros Hz Hn. unfold all_insns. apply forallb_forall. intros [id c] Hi. apply forallb_forall. intros i Hii. pose proof (Hz id c (In_lookup _ _ _ Hn Hi)) as Hf. rewrite Forall_forall in Hf. apply Hf. auto. Qed.
  Lemma holds_all p (z : RootCircuit (SrcI F)) : all_insns p z = true -> holds (SrcI F) (fun i => p i = true) z.
  Proof. intros Hz id c Hc. unfold all_insns in Hz. rewrite forallb_forall in Hz. specialize (Hz _ (lookup_In _ _ _ Hc)). rewrite forallb_forall in Hz. apply Forall_forall. auto. Qed.
End Plain.

(* The same about the source circuit as given, if its instructions always have results (no division, and/or/xor, bit decomposition: what these check
   implicitly is dropped when their results are not used, C04; no commitment, selection or unconstrained operation: their results are not checked). *)
Theorem C37_soundness : forall F (K : Config) (o : Options) (rc : RootCircuit (SrcI F)) (t : Trace) ex lc c0 (E : Env F) (ins v : list F),
  compiles K o rc t ex lc -> usable K rc t -> (forall r, e_rnd E r) -> all_insns plain rc = true -> all_insns unmarking rc = true \/ root_keptb (t_src t) = true ->
  lookup 0 (circuits rc) = Some c0 -> length ins = num_inputs c0 -> input_size lc = Some (length v) -> (forall i s, place_of K t i = Some s -> nth_error v s = nth_error ins i) ->
  (forall outs sat, lrun E lc v outs sat -> sat = true) ->
  exists outs, lrun E lc v outs true /\ root_run (SrcI F) (adv E) rc ins outs true.
Proof.
  intros F K o rc t ex lc c0 E ins v H U Hr Hpl Hm Hc0 Hl Hv Hp Hacc. pose proof (u_sz K rc t U c0 Hc0) as Hsz. pose proof (us_keys _ _ _ U) as Hkk.
  destruct (src_ok K o rc t ex lc H Hkk c0 Hc0 Hsz (fun E' => exists E0 : Env F, E' = adv E0 /\ forall r, e_rnd E0 r) (fun i => plain i = true)) as [S P1]; auto.
  { apply plain_ipred. } { intros z E' Hz [E0 [-> HE]]. apply plain_total; auto. } { apply holds_all; auto. }
  pose proof (wf_keys_of _ (st_wf _ _ _ _ _ _ S)) as Hk'.
  assert (Hm' : all_insns unmarking (t_src t) = true \/ root_keptb (t_src t) = true).
  { destruct Hm as [Hm|Hm]; auto. left. apply all_holds; auto. apply (src_ok K o rc t ex lc H Hkk c0 Hc0 Hsz (fun _ => False) (fun i => unmarking i = true)); auto; [apply unmarking_ipred|intros z E' _ []|apply holds_all; auto]. }
  destruct (C37_soundness_optimised F K o rc t ex lc c0 E ins v H U Hr Hc0 Hl Hv Hp Hacc Hm') as [m1 [outs [A1 [A2 [_ A3]]]]]. exists outs. split; auto.
  assert (Hpin : all_insns pinned (t_src t) = true). { apply all_holds; auto. intros id c Hc. eapply Forall_impl; [|apply (P1 id c Hc)]. intros i. destruct i; auto; discriminate. }
  specialize (A3 Hpin). destruct S as [_ [d [T [G [_ [_ R]]]]]].
  assert (Hid : map_inputs (EMPTY K) f0 (im_identity (num_inputs c0)) ins = Some ins) by (rewrite <- Hl; apply map_inputs_identity; congruence).
  pose proof (R F f0 ins ins Hid) as X1. rewrite A1 in X1. symmetry in X1. destruct T as [_ _ _ T]. destruct (T ins m1 X1 (adv E) outs true) as [_ F2]. apply F2; eauto.
Qed.
Print Assumptions C37_soundness.

(* Read the other way: every input of the layered circuit that is accepted whatever the coins show contains a source input on which the source
   circuit is satisfied. *)
Definition source_input {F : Fld} (K : Config) (t : Trace (F := F)) (n : nat) (v : list F) : list F :=
  map (fun i => match place_of K t i with Some s => nth s v f0 | None => f0 end) (seq 0 n).
Theorem C37_extraction : forall F (K : Config) (o : Options) (rc : RootCircuit (SrcI F)) (t : Trace) ex lc c0 (E : Env F) (v : list F),
  compiles K o rc t ex lc -> usable K rc t -> (forall r, e_rnd E r) -> all_insns plain rc = true -> all_insns unmarking rc = true \/ root_keptb (t_src t) = true ->
  lookup 0 (circuits rc) = Some c0 -> input_size lc = Some (length v) -> (forall outs sat, lrun E lc v outs sat -> sat = true) ->
  exists outs, lrun E lc v outs true /\ root_run (SrcI F) (adv E) rc (source_input K t (num_inputs c0) v) outs true.
Proof.
  intros F K o rc t ex lc c0 E v H U Hr Hpl Hm Hc0 Hv Hacc. apply (C37_soundness F K o rc t ex lc c0 E _ v H U); auto; unfold source_input.
  - rewrite map_length, seq_length. auto.
  - intros i s Hi. destruct (place_of_bound K o rc t ex lc H (us_keys _ _ _ U) c0 Hc0 (u_sz K rc t U c0 Hc0) (u_szl K rc t U) (u_szc K rc t U) (us_few _ _ _ U) False (fun x => match x with end) i s (length v) Hi Hv) as [A B].
    rewrite nth_error_map, (nth_error_seq 0 (num_inputs c0)) by auto. cbn [option_map Nat.add]. rewrite Hi. apply nth_error_nth'. auto.
Qed.
Print Assumptions C37_extraction.

(* ------------------------------------------------------------ a compilation that can be run: the loop of step 3 is left after one round, in which all
   pairs of the first segments are compared *)
Section RunIt.
  Context {F : Fld} (K : Config) (o : Options).
  Definition edges_run (c : LCircuit F) : list (nat * nat) := let n := Nat.min 4 (length (l_segs c)) in flat_map (fun a => map (fun b => (a, b)) (seq (S a) (n - S a))) (seq 0 n).
  Definition step_3_run (c : LCircuit F) : option (LCircuit F) :=
    if 3 <=? opt_level o then
      let* c1 := expand_small_segments (l_dedup c) in
      if length (l_segs c1) <=? 100 then find_common_parts (edges_run c1) c1 else Some c1
    else Some (l_dedup c).
  Lemma step_3_run_ok c c1 : options_ok o = true -> l_validate c = true -> l_validate c1 = true -> step_3_run c = Some c1 -> Step3 (opt_level o) c (sort_everything c1).
  Proof.
    unfold step_3_run. intros Ho V V1 X. split; auto. exists c1. split; [|auto]. destruct (3 <=? opt_level o) eqn:E3.
    - apply obind_some in X. destruct X as [c2 [X1 X2]]. eapply (S3Iter (l_dedup c) c2 c1 c1 (edges_run c2)); [exact X1| |exact X2|apply S3Stop].
      apply Forall_forall. intros [a b] Hin. apply in_flat_map in Hin. destruct Hin as [a' [A1 A2]]. apply in_map_iff in A2. destruct A2 as [b' [A2 A3]]. injection A2 as <- <-. apply in_seq in A1, A3. cbn [fst snd]. lia.
    - injection X as <-. unfold options_ok in Ho. apply andb_true_iff in Ho. destruct Ho as [_ Ho]. apply andb_true_iff in Ho. destruct Ho as [-> _]. reflexivity.
  Qed.
  Definition compile_run (rc : RootCircuit (SrcI F)) : option (Trace * RootCircuit (HnI F) * LCircuit F) :=
    let* _ := assert (options_ok o) in
    let* s := step_1_source K o rc in
    let* h := step_1_hints K o (fst s) (snd s) in
    let* e := remove_and_export_hints (fst h) in
    let* _ := assert (validate _ (snd e)) in
    let* p2 := step_2_build K o (fst e) in
    let* p3 := step_2_single K o (fst p2) (snd p2) in
    let* d := step_2_dest K o (fst p3) (snd p3) in
    let* l := layer_compile (cross_layer K) (EMPTY K) (allow_input_reorder o) (fst d) in
    let* _ := assert (l_validate (fst l)) in
    let* l3 := step_3_run (fst l) in
    let* _ := assert (l_validate l3) in
    let* im := compose_in_place (EMPTY K) (snd d) (snd l) in
    let* pl := place_outputs K im (snd e) in
    let* so := step_4 K o pl (snd h) in
    let* ex := add_back_removed_inputs _ (EMPTY K) (snd so) (fst so) in
    let* _ := assert (validate _ ex) in
    Some ({| t_src := fst s; t_src_im := snd s; t_hn := fst h; t_hn_im := snd h; t_hl := fst e; t_ex := snd e; t_p2 := fst p2; t_p2_im := snd p2; t_p3 := fst p3; t_p3_im := snd p3;
             t_dest := fst d; t_dest_im := snd d; t_lc := fst l; t_lc_im := snd l; t_im := im; t_placed := pl; t_solver := fst so; t_solver_im := snd so |}, ex, sort_everything l3).
  Lemma compile_run_compiles rc t ex lc : compile_run rc = Some (t, ex, lc) -> compiles K o rc t ex lc.
  Proof.
    unfold compile_run. intros X. apply obind_some in X. destruct X as [u0 [A0 X]]. apply assert_some in A0. apply obind_some in X. destruct X as [[s1 s2] [A1 X]]. apply obind_some in X. destruct X as [[h1 h2] [A2 X]]. apply obind_some in X. destruct X as [[e1 e2] [A3 X]].
    apply obind_some in X. destruct X as [u1 [A4 X]]. apply assert_some in A4. apply obind_some in X. destruct X as [[p1 p2] [A5 X]]. apply obind_some in X. destruct X as [[q1 q2] [A6 X]]. apply obind_some in X. destruct X as [[d1 d2] [A7 X]]. apply obind_some in X. destruct X as [[l1 l2] [A8 X]].
    apply obind_some in X. destruct X as [u2 [A9 X]]. apply assert_some in A9. apply obind_some in X. destruct X as [l3 [A9' X]]. apply obind_some in X. destruct X as [u3 [A10 X]]. apply assert_some in A10. apply obind_some in X. destruct X as [im [A11 X]]. apply obind_some in X. destruct X as [pl [A12 X]]. apply obind_some in X. destruct X as [[o1 o2] [A13 X]].
    apply obind_some in X. destruct X as [ex' [A14 X]]. apply obind_some in X. destruct X as [u4 [A15 X]]. apply assert_some in A15. injection X as <- <- <-. cbn [fst snd] in *. split; cbn [t_src t_src_im t_hn t_hn_im t_hl t_ex t_p2 t_p2_im t_p3 t_p3_im t_dest t_dest_im t_lc t_lc_im t_im t_placed t_solver t_solver_im]; auto.
    eapply step_3_run_ok; eauto.
  Qed.
End RunIt.

(* ------------------------------------------------------------ a concrete compilation *)
Definition c36_rc : RootCircuit (SrcI F7) :=
  {| num_public_inputs := 1; expected_num_output_zeroes := 0;
     circuits := [(0, {| instructions := [SMul [1; 2]; SCall 1 [4; 1] 1; SConst (CPub 0); SLin {| lc_terms := [(5, fz 1); (6, fz 6)]; lc_const := fz 0 |}] : list (Insn (SrcI F7));
                         constraints := [(TZero, 7)] : list (Con (SrcI F7)); outputs := [4; 5]; num_inputs := 3 |});
                  (1, {| instructions := [SIsZero 1; SLin {| lc_terms := [(3, fz 1); (2, fz 2)]; lc_const := fz 1 |}; SMul [4; 2]] : list (Insn (SrcI F7));
                         constraints := [(TNonZero, 2)] : list (Con (SrcI F7)); outputs := [5]; num_inputs := 2 |})] |}.
Definition k7 (random cross : bool) : Config := {| EMPTY := 1000; random_combination := random; cross_layer := cross; costs := costs_std; fuel := 20 |}.
Definition o123 (lvl : nat) (limit : option nat) : Options := {| mul_fanout_limit := limit; allow_input_reorder := true; opt_level := lvl |}.
Section Check.
  Context {F : Fld} (K : Config) (o : Options).
  Fixpoint conb (n : nat) (cs : list (nat * Circuit (DestI F false))) (id : nat) : bool :=
    match n with
    | O => false
    | S n => match lookup id cs with Some c => match constraints c with [] => existsb (conb n cs) (calls c) | _ => true end | None => false end
    end.
  Lemma conb_ok n cs : forall id, conb n cs id = true -> constrained cs id.
  Proof.
    induction n as [|n IH]; intros id X; cbn [conb] in X; [discriminate|]. destruct (lookup id cs) as [c|] eqn:Ec; [|discriminate]. destruct (constraints c) eqn:Ek; [|eapply C_own; eauto; congruence].
    apply existsb_exists in X. destruct X as [d [X1 X2]]. eapply C_call; eauto.
  Qed.
  Definition rootb {I : IRC F} (x : RootCircuit I) : bool := match lookup 0 (circuits x) with Some c => num_inputs c <=? EMPTY K | None => true end.
  Lemma rootb_ok {I : IRC F} (x : RootCircuit I) : rootb x = true -> forall c, lookup 0 (circuits x) = Some c -> num_inputs c <= EMPTY K.
  Proof. unfold rootb. intros X c Hc. rewrite Hc in X. apply Nat.leb_le. auto. Qed.
  Definition usableb (rc : RootCircuit (SrcI F)) (t : Trace) : bool :=
    nodupb (keys (circuits rc)) && (rootb rc && rootb (t_hl t) && (next_size (t_lc_im t) <=? EMPTY K)) &&
    (cross_layer K || (forallb (fun p => (Z.of_nat (length (constraints (snd p))) <? fmod F)%Z) (circuits (t_p2 t)) && (negb (random_combination K) || conb 10 (circuits (t_p2 t)) 0))).
  Lemma usableb_ok rc t : usableb rc t = true -> usable K rc t.
  Proof.
    unfold usableb. rewrite !andb_true_iff. intros [[A [[B1 B2] B3]] C]. split.
    - apply SolveDuplicates.nodupb_iff. auto.
    - split; [|split]; [apply rootb_ok; auto|apply rootb_ok; auto|apply Nat.leb_le; auto].
    - intros Hx. rewrite Hx in C. cbn [orb] in C. apply andb_true_iff in C. destruct C as [C1 C2]. rewrite forallb_forall in C1. split.
      + intros id c Hc. apply lookup_In in Hc. specialize (C1 _ Hc). apply Z.ltb_lt in C1. auto.
      + intros Hrr. rewrite Hrr in C2. cbn [negb orb] in C2. apply (conb_ok 10). exact C2.
  Qed.
  Definition solvableb (ex : RootCircuit (HnI F)) : bool := forallb (fun p : nat * Circuit (HnI F) => forallb (fun i : HInsn F => match i with HConst CRandom | HGate _ _ => false | _ => true end) (instructions (snd p) : list (HInsn F))) (circuits ex).
  Lemma solvableb_ok ex : solvableb ex = true -> solvable_circuit ex.
  Proof.
    unfold solvableb. rewrite forallb_forall. intros X id c i Hc Hi. apply lookup_In in Hc. specialize (X _ Hc). rewrite forallb_forall in X. specialize (X i Hi).
    split; [intros ->; discriminate|]. intros g l ->. discriminate.
  Qed.
End Check.
(* what the examples check of a compilation and of an input of the source circuit: the hypotheses of C36 and C37, what the solver answers, and where the source inputs are in it *)
Definition oh36 : Oracle F7 := {| o_pub := fun _ => fz 5; o_gate := fun _ _ => fz 0; o_hint := o_hint oh7; o_rnd := fun _ => fz 1 |}.
Definition check7 (K : Config) (o : Options) (rc : RootCircuit (SrcI F7)) (ins : list Z) :=
  match compile_run K o rc with
  | Some (t, ex, lc) => Some (usableb K rc t && solvableb ex && (all_insns plain rc && (all_insns unmarking rc || root_keptb (t_src t))),
                              (map (place_of K t) (seq 0 (length ins)), input_size lc, length (l_layers lc)),
                              (match eval_safe (o_hint oh36) ex [fz 5] (map fz ins) with Ok w => Some (zs w) | _ => None end))
  | None => None
  end.
Lemma check7_ok K o rc ins places w : check7 K o rc ins = Some (true, places, Some w) ->
  exists t ex lc, compiles K o rc t ex lc /\ usable K rc t /\ solvable_circuit ex /\ all_insns plain rc = true /\ (all_insns unmarking rc = true \/ root_keptb (t_src t) = true) /\
    places = (map (place_of K t) (seq 0 (length ins)), input_size lc, length (l_layers lc)) /\ eval_safe (o_hint oh36) ex [fz 5] (map fz ins) = Ok (map fz w).
Proof.
  unfold check7. destruct (compile_run K o rc) as [[[t ex] lc]|] eqn:Ec; [|discriminate]. intros X. injection X as X1 X2 X3. exists t, ex, lc. rewrite !andb_true_iff, orb_true_iff in X1. destruct X1 as [[A B] [C D]].
  split; [apply compile_run_compiles; auto|]. split; [apply usableb_ok; auto|]. split; [apply solvableb_ok; auto|]. split; auto. split; auto. split; auto.
  destruct (eval_safe _ ex _ _) as [w'| | |]; try discriminate. injection X3 as X3. f_equal. apply zs_eq. auto.
Qed.
Definition runs36 := [(k7 true false, o123 2 (Some 4), ([Some 0; Some 3; None], Some 4, 5), [2; 0; 4; 0]%Z); (k7 true true, o123 2 None, ([Some 0; Some 1; None], Some 4, 7), [2; 0; 0; 4]%Z);
                      (k7 false false, o123 1 None, ([Some 0; Some 3; None], Some 4, 4), [2; 0; 4; 0]%Z); (k7 true false, o123 3 None, ([Some 0; Some 3; None], Some 4, 5), [2; 0; 4; 0]%Z)].
Lemma runs36_ok : forall K o places w, In (K, o, places, w) runs36 -> check7 K o c36_rc [2; 0; 4]%Z = Some (true, places, Some w).
Proof. intros K o places w Hin. repeat destruct Hin as [Hin|Hin]; [injection Hin as <- <- <- <-; vm_compute; reflexivity..|destruct Hin]. Qed.
Lemma run36 rnd : (exists r, rnd r) -> root_run (SrcI F7) (solver_env (o_hint oh36) [fz 5] (fun _ _ => fz 0) rnd) c36_rc (map fz [2; 0; 4]%Z) (map fz [0; 5]%Z) true.
Proof.
  intros [r Hr]. assert (R : root_run (SrcI F7) (env_of oh36) c36_rc (map fz [2; 0; 4]%Z) (map fz [0; 5]%Z) true) by (apply (C39_evaluator F7 Source); apply resz_ok; vm_compute; reflexivity).
  revert R. apply (root_run_env (SrcI F7)); [apply validate_wf_root; [repeat constructor; cbn; intuition discriminate|vm_compute; reflexivity]|].
  intros id c i g outs Hc Hi Hn Hs. assert (Hcc : lookup id (circuits c36_rc) = Some c) by exact Hc. clear Hc. cbn [c36_rc circuits lookup] in Hcc. destruct (Nat.eqb_spec 0 id); [|destruct (Nat.eqb_spec 1 id); [|discriminate]]; injection Hcc as <-; cbn [instructions] in Hi;
    repeat destruct Hi as [<-|Hi]; try contradiction; try exact Hs; try discriminate Hn.
Qed.
(* the hypotheses of C36 and C37 hold of four compilations of a circuit with a sub-circuit, a public input, an is_zero, a non-zero assertion and an unused
   input, with and without relays across layers, with and without random combination, at levels 1 to 3; the solver's answer and the places of the inputs in it *)
Lemma c36_computable : all_insns computable c36_rc = true. Proof. reflexivity. Qed.
Example C36_instance : forall K o places w, In (K, o, places, w) runs36 -> exists t ex lc,
  compiles K o c36_rc t ex lc /\ usable K c36_rc t /\ all_insns computable c36_rc = true /\ (forall h n args outs, impl_builtin_hint h n args = Some outs -> o_hint oh36 (builtin_id h) n args = Some outs) /\
  root_run (SrcI F7) (solver_env (o_hint oh36) [fz 5] (fun _ _ => fz 0) (fun _ => True)) c36_rc (map fz [2; 0; 4]%Z) (map fz [0; 5]%Z) true /\
  places = (map (place_of K t) (seq 0 3), input_size lc, length (l_layers lc)) /\ eval_safe (o_hint oh36) ex [fz 5] (map fz [2; 0; 4]%Z) = Ok (map fz w) /\
  (forall rnd, (exists r, rnd r) -> lrun (solver_env (o_hint oh36) [fz 5] (fun _ _ => fz 0) rnd) lc (map fz w) (map fz [0; 5]%Z) true) /\
  (forall rnd outs sat, (exists r, rnd r) -> lrun (solver_env (o_hint oh36) [fz 5] (fun _ _ => fz 0) rnd) lc (map fz w) outs sat -> sat = true).
Proof.
  intros K o places w Hin. destruct (check7_ok K o c36_rc [2; 0; 4]%Z places w (runs36_ok _ _ _ _ Hin)) as [t [ex [lc [A1 [A2 [A3 [_ [_ [A4 A5]]]]]]]]]. exists t, ex, lc.
  assert (Hh : forall h n (args outs : list F7), impl_builtin_hint h n args = Some outs -> o_hint oh36 (builtin_id h) n args = Some outs) by (intros h n args outs X; exact (oh7_honest h n args outs X)).
  assert (Hrun := run36 (fun _ => True) (ex_intro _ f0 Logic.I)). split; [auto|]. split; [auto|]. split; [exact c36_computable|]. split; [auto|]. split; [exact Hrun|]. split; [exact A4|]. split; [exact A5|].
  destruct (C36_completeness F7 K o c36_rc t ex lc (o_hint oh36) [fz 5] (fun _ _ => fz 0) (fun _ => True) (map fz [2; 0; 4]%Z) (map fz [0; 5]%Z) A1 A2 c36_computable eq_refl Hh Hrun) as [w' [B1 [_ [_ B4]]]].
  rewrite A5 in B1. injection B1 as <-. split; intros rnd; [intros Hr|intros outs sat Hr Hl]; destruct (B4 rnd Hr) as [B5 B6]; auto. apply (B6 outs sat Hl).
Qed.
(* the hypotheses of C37 hold of the same compilations and the witnesses found there; what it then says of the source circuit *)
Example C37_instance : forall K o places w, In (K, o, places, w) runs36 -> exists t ex lc c0 E,
  compiles K o c36_rc t ex lc /\ usable K c36_rc t /\ (forall r, e_rnd E r) /\ all_insns plain c36_rc = true /\ (all_insns unmarking c36_rc = true \/ root_keptb (t_src t) = true) /\
  lookup 0 (circuits c36_rc) = Some c0 /\ input_size lc = Some (length w) /\ (forall outs sat, lrun E lc (map fz w) outs sat -> sat = true) /\
  exists outs, root_run (SrcI F7) (adv E) c36_rc (source_input K t 3 (map fz w)) outs true.
Proof.
  intros K o places w Hin. destruct (check7_ok K o c36_rc [2; 0; 4]%Z places w (runs36_ok _ _ _ _ Hin)) as [t [ex [lc [A1 [A2 [A3 [P1 [P2 [A4 A5]]]]]]]]].
  assert (Hh : forall h n (args outs : list F7), impl_builtin_hint h n args = Some outs -> o_hint oh36 (builtin_id h) n args = Some outs) by (intros h n args outs X; exact (oh7_honest h n args outs X)).
  assert (Hrun := run36 (fun _ => True) (ex_intro _ f0 Logic.I)).
  destruct (C36_completeness F7 K o c36_rc t ex lc (o_hint oh36) [fz 5] (fun _ _ => fz 0) (fun _ => True) (map fz [2; 0; 4]%Z) (map fz [0; 5]%Z) A1 A2 c36_computable eq_refl Hh Hrun) as [w' [B1 [B2 [_ B4]]]].
  rewrite A5 in B1. injection B1 as <-. exists t, ex, lc. eexists. exists (solver_env (o_hint oh36) [fz 5] (fun _ _ => fz 0) (fun _ => True)).
  assert (Hacc : forall outs sat, lrun (solver_env (o_hint oh36) [fz 5] (fun _ _ => fz 0) (fun _ => True)) lc (map fz w) outs sat -> sat = true).
  { intros outs sat Hl. destruct (B4 (fun _ => True) (ex_intro _ f0 Logic.I)) as [_ B6]. apply (B6 outs sat Hl). }
  split; [auto|]. split; [auto|]. split; [intros; exact Logic.I|]. split; [exact P1|]. split; [exact P2|]. split; [reflexivity|]. split; [rewrite B2, map_length; reflexivity|]. split; [exact Hacc|].
  destruct (C37_extraction F7 K o c36_rc t ex lc _ (solver_env (o_hint oh36) [fz 5] (fun _ _ => fz 0) (fun _ => True)) (map fz w) A1 A2 (fun _ => Logic.I) P1 P2 eq_refl B2 Hacc) as [outs [_ C2]]. exists outs. exact C2.
Qed.
