(* Property theorems C15, C16, C17. *)
From Verif Require Import Prelude Field Zp Expr Topo Hints Ir IrFacts IrInst Sim ExportConstraints SolveDuplicates MulFanout PropIr.

(* ======================= C16 ======================= *)
(* the circuits reached in the pipeline have had unreachable code removed, after which nobody calls circuit 0 *)
Definition root_not_called {F s} (rc : RootCircuit (irc_of F s)) : Prop :=
  forall id c i args n, lookup id (circuits rc) = Some c -> In i (instructions c) -> i_call i <> Some (0, args, n).

Theorem C16_export_constraints : forall F (rc : RootCircuit (irc_of F DestRelaxed)) c0,
  NoDup (keys (circuits rc)) -> validate _ rc = true -> root_not_called rc -> lookup 0 (circuits rc) = Some c0 ->
  exists rc' c0' add, export_constraints rc = Some rc' /\ lookup 0 (circuits rc') = Some c0' /\
    num_public_inputs rc' = num_public_inputs rc /\ num_inputs c0' = num_inputs c0 /\
    (* [add] more leading outputs are declared to be zeroes, and no constraint is left in any circuit *)
    expected_num_output_zeroes rc' = expected_num_output_zeroes rc + add /\ length (outputs c0') = length (outputs c0) + add /\
    (forall id c, lookup id (circuits rc') = Some c -> constraints c = []) /\
    (* the runs: the new circuit never fails a constraint; its outputs are [add] new values followed by the old outputs,
       and the old constraints held exactly when the new values are all zero *)
    (forall E ins outs sat, length ins = num_inputs c0 -> run _ E (circuits rc) 0 ins outs sat ->
       exists checks, length checks = add /\ run _ E (circuits rc') 0 ins (checks ++ outs) true /\
         (sat = true <-> Forall (fun v => v = f0) checks)) /\
    (forall E ins outs' sat', length ins = num_inputs c0 -> run _ E (circuits rc') 0 ins outs' sat' ->
       sat' = true /\ exists checks outs sat, length checks = add /\ outs' = checks ++ outs /\
         run _ E (circuits rc) 0 ins outs sat /\ (sat = true <-> Forall (fun v => v = f0) checks)) /\
    (* hence the same verdict and the same user outputs *)
    (forall E ins outs verdict, root_run _ E rc ins outs verdict <-> root_run _ E rc' ins outs verdict).
Proof.
  intros F rc c0 Hk Hv Hn H0.
  destruct (export_constraints_spec rc (validate_wf_root _ rc Hk Hv)) as [rc' [add [A [_ [B [C [_ [D [G [H K]]]]]]]]]].
  { intros id c Hc Ho. apply (calls_in (DestI F false)) in Ho. destruct Ho as [i [l [n [Hi Ed]]]]. exact (Hn id c i l n Hc Hi Ed). }
  destruct (G c0 H0) as [c0' [G1 [G2 G3]]].
  assert (Z : forall l : list F, zeros l = true <-> Forall (fun v => v = f0) l).
  { intros l. unfold zeros. rewrite forallb_forall, Forall_forall. split; intros X x Hx; apply is0_spec; apply X; auto. }
  exists rc', c0', add. repeat (split; [assumption|]). split.
  { intros id c Hc. apply (D id c Hc). }
  split; [|split; [|exact H]].
  - intros E ins outs sat L R. destruct (K E c0 H0) as [K1 _]. destruct (K1 ins outs sat L R) as [cv [X1 [-> X3]]]. exists cv. split; auto.
  - intros E ins outs sat L R. destruct (K E c0 H0) as [_ K2]. destruct (K2 ins outs sat L R) as [-> [o [cv [X1 [X2 X3]]]]]. split; auto.
    exists cv, o, (zeros cv). auto.
Qed.
Print Assumptions C16_export_constraints.

Notation DI7 := (irc_of F7 DestRelaxed).
Definition lin7 (a b : Z) (x y : nat) : Insn DI7 := DVar (from_terms F7 [t_linear F7 (fz a) x; t_linear F7 (fz b) y]).
Definition quad7 (x y : nat) : Insn DI7 := DVar (from_terms F7 [t_quad F7 (fz 1) x y]).
Definition c16_rc : RootCircuit DI7 :=
  {| num_public_inputs := 0; expected_num_output_zeroes := 0;
     circuits := [(0, {| instructions := [DCall 1 [1; 2] 1; lin7 1 1 3 1; DCall 1 [4; 2] 1] : list (Insn DI7);
                         constraints := [5 : Con DI7]; outputs := [4; 5]; num_inputs := 2 |});
                  (1, {| instructions := [quad7 1 2; lin7 1 6 1 2] : list (Insn DI7);
                         constraints := [4 : Con DI7]; outputs := [3]; num_inputs := 2 |})] |}.
Example C16_instance : NoDup (keys (circuits c16_rc)) /\ validate _ c16_rc = true /\ root_not_called c16_rc /\
  option_map (fun r => (expected_num_output_zeroes r, map (fun p => (fst p, outputs (snd p))) (circuits r))) (export_constraints c16_rc)
    = Some (3, [(0, [6; 4; 7; 5; 6]); (1, [3; 4])]) /\
  resz (eval_root _ o7 c16_rc [fz 3; fz 5]) = Ok ([4; 6]%Z, false) /\ resz (eval_root _ o7 c16_rc [fz 0; fz 0]) = Ok ([0; 0]%Z, true).
Proof.
  split; [repeat constructor; cbn; intuition discriminate|]. split; [vm_compute; reflexivity|].
  split.
  { intros id c i args n Hc Hi. unfold c16_rc in Hc. cbn [circuits lookup] in Hc.
    destruct (0 =? id)%nat; [injection Hc as <-; cbn in Hi; intuition (subst; discriminate)|].
    destruct (1 =? id)%nat; [injection Hc as <-; cbn in Hi; intuition (subst; discriminate)|discriminate]. }
  repeat split; vm_compute; reflexivity.
Qed.

(* ======================= C17 ======================= *)
Definition distinct {F s} (c : Circuit (irc_of F s)) : Prop :=
  NoDup (outputs c) /\ NoDup (map c_var (constraints c)) /\
  forall i id l n, In i (instructions c) -> i_call i = Some (id, l, n) -> NoDup l.
(* an instruction drawing a fresh random value *)
Definition draws {F} (i : DInsn F) : Prop :=
  match i with DConst CRandom => True | DVar e => ~ no_random F e | _ => False end.

(* solve_duplicates runs after reassign_duplicates(true), which leaves no circuit listing an output twice (C05) *)
Theorem C17_solve_duplicates : forall F (rc : RootCircuit (irc_of F DestRelaxed)),
  NoDup (keys (circuits rc)) -> validate _ rc = true ->
  (forall id c, lookup id (circuits rc) = Some c -> NoDup (outputs c)) ->
  exists rc' : RootCircuit (irc_of F Dest), solve_duplicates rc = Some rc' /\
    num_public_inputs rc' = num_public_inputs rc /\ expected_num_output_zeroes rc' = expected_num_output_zeroes rc /\
    (forall id c', lookup id (circuits rc') = Some c' -> distinct (s := Dest) c' /\
       exists c, lookup id (circuits rc) = Some c /\ num_inputs c' = num_inputs c /\ length (outputs c') = length (outputs c)) /\
    (* every run is kept *)
    (forall E ins outs verdict, root_run _ E rc ins outs verdict -> root_run _ E rc' ins outs verdict) /\
    (* and no run is added, when all draws give one value or no circuit calls anything after its first draw *)
    (forall E, (forall r r', e_rnd E r -> e_rnd E r' -> r = r') \/
               (forall id c, lookup id (circuits rc) = Some c -> exists before after, instructions c = before ++ after /\
                  (forall i, In i before -> ~ draws i) /\ (forall i, In i after -> i_call i = None)) ->
       forall ins outs verdict, root_run _ E rc' ins outs verdict -> root_run _ E rc ins outs verdict).
Proof.
  intros F rc Hk Hv Ho. destruct (solve_duplicates_spec rc (validate_wf_root _ rc Hk Hv) Ho) as [rc' [A [B [C [D [G [H K]]]]]]].
  exists rc'. split; auto. split; auto. split; auto. split; [|split; auto].
  - intros id c' Hc'. destruct (G id c' Hc') as [[S1 [S2 S3]] S4]. split; auto. split; auto. split; [|exact S3]. cbn [c_var irc_of DestI]. rewrite map_id. exact S2.
  - intros E HE. apply K. intros id c Hc. destruct HE as [HE|HE]; [apply quiet_calm, Forall_forall; intros i Hi; left; auto|]. destruct (HE id c Hc) as [a [b [E1 [E2 E3]]]]. exists a, b. split; [exact E1|]. split; [|apply Forall_forall; exact E3].
    apply Forall_forall. intros i Hi. right. specialize (E2 i Hi). clear HE. rename E2 into HE.
    destruct i as [e|o l n|k]; cbn in *; split; auto; try discriminate.
    + unfold no_random. apply Forall_forall. intros t Ht. destruct (vars t) eqn:Ev; auto. apply HE. intros X. unfold no_random in X. rewrite Forall_forall in X. specialize (X t Ht). rewrite Ev in X. exact X.
    + intros X. injection X as ->. auto.
Qed.
Print Assumptions C17_solve_duplicates.
Definition c17_rc : RootCircuit DI7 :=
  {| num_public_inputs := 0; expected_num_output_zeroes := 0;
     circuits := [(0, {| instructions := [lin7 2 3 1 2; DCall 1 [3; 3] 1; DCall 1 [1; 1] 1] : list (Insn DI7);
                         constraints := [5 : Con DI7; 5 : Con DI7]; outputs := [4; 3]; num_inputs := 2 |});
                  (1, {| instructions := [quad7 1 2] : list (Insn DI7);
                         constraints := []; outputs := [3]; num_inputs := 2 |})] |}.
Example C17_instance : NoDup (keys (circuits c17_rc)) /\ validate _ c17_rc = true /\
  (forall id c, lookup id (circuits c17_rc) = Some c -> NoDup (outputs c)) /\
  (forall id c i, lookup id (circuits c17_rc) = Some c -> In i (instructions c) -> ~ draws i) /\
  option_map (fun r => map (fun p => (fst p, flat_map (fun i => match i_call i with Some (_, l, _) => [l] | None => [] end) (instructions (snd p)), outputs (snd p)))
     (circuits r)) (solve_duplicates c17_rc) = Some [(0, [[3; 4]; [1; 6]], [5; 3]); (1, [], [3])].
Proof.
  split; [repeat constructor; cbn; intuition discriminate|]. split; [vm_compute; reflexivity|]. split; [|split].
  - intros id c Hc. unfold c17_rc in Hc. cbn [circuits lookup] in Hc.
    destruct (0 =? id)%nat; [injection Hc as <-|destruct (1 =? id)%nat; [injection Hc as <-|discriminate]]; cbn [outputs]; repeat constructor; cbn; intuition discriminate.
  - intros id c i Hc Hi. unfold c17_rc in Hc. cbn [circuits lookup] in Hc.
    destruct (0 =? id)%nat; [injection Hc as <-|destruct (1 =? id)%nat; [injection Hc as <-|discriminate]]; cbn [instructions In] in Hi;
      repeat (destruct Hi as [<-|Hi]); try contradiction; cbn [draws]; try tauto; intros H; apply H; unfold lin7, quad7; repeat constructor.
  - vm_compute; reflexivity.
Qed.

(* Without that proviso runs are added: a random value passed twice to a sub-circuit becomes two independent random values.
   Here the circuit outputs r - r = 0 in every run before the pass, but 1 is possible after it. *)
Definition c17_bad : RootCircuit DI7 :=
  {| num_public_inputs := 0; expected_num_output_zeroes := 0;
     circuits := [(0, {| instructions := [DConst CRandom; DCall 1 [2; 2] 1] : list (Insn DI7);
                         constraints := []; outputs := [3]; num_inputs := 1 |});
                  (1, {| instructions := [lin7 1 6 1 2] : list (Insn DI7);
                         constraints := []; outputs := [3]; num_inputs := 2 |})] |}.
(* the k-th random draw is k *)
Definition o7r : Oracle F7 := {| o_pub := fun _ => fz 0; o_gate := fun _ _ => fz 0; o_hint := fun _ _ _ => None; o_rnd := fun k => fz (Z.of_nat k) |}.
Lemma lin7_cancel (E : Env F7) x y g outs : g x = g y -> i_sem (i := DI7) E (lin7 1 6 x y) g outs -> outs = [f0].
Proof.
  intros Hg [v [-> H]]. f_equal.
  assert (Hn : no_random F7 [t_linear F7 (fz 1) x; t_linear F7 (fz 6) y]) by (repeat constructor).
  apply expr_sem_val in H; [|apply no_random_from_terms; auto].
  rewrite H. destruct (from_terms_spec F7 E [t_linear F7 (fz 1) x; t_linear F7 (fz 6) y]) as [_ [Hv _]]. rewrite Hv.
  unfold expr_val, fsum, term_val. cbn [map fold_right t_linear vars coef vs_val]. rewrite Hg. unfold fz.
  transitivity (fmul (g y) (fadd (ofZ 1) (ofZ 6)) : F7).
  - destruct (fth F7) as [[R1 R2 R3 R4 R5 R6 R7 R8 R9] _ _ _]. rewrite (R2 _ f0), R1. rewrite (R5 (g y) (fadd _ _)), R7, (R5 (g y) (ofZ 1)), (R5 (g y) (ofZ 6)). reflexivity.
  - rewrite <- ofZ_add. replace (ofZ (1 + 6)) with (f0 : F7) by (apply toZ_inj; reflexivity). apply fmul_0. auto.
Qed.
Theorem C17_random_arguments_refuted : exists (rc : RootCircuit (irc_of F7 DestRelaxed)) (rc' : RootCircuit (irc_of F7 Dest)) E ins outs,
  NoDup (keys (circuits rc)) /\ validate _ rc = true /\ (forall id c, lookup id (circuits rc) = Some c -> NoDup (outputs c)) /\
  solve_duplicates rc = Some rc' /\ root_run _ E rc' ins outs true /\ ~ exists verdict, root_run _ E rc ins outs verdict.
Proof.
  assert (exists rc', solve_duplicates c17_bad = Some rc' /\ resz (eval_root (irc_of F7 Dest) o7r rc' [fz 0]) = Ok ([6%Z], true)) as [rc' [H1 H2]].
  { eexists. split; [reflexivity|]. vm_compute. reflexivity. }
  exists c17_bad, rc', (env_of o7r), [fz 0], [fz 6]. split; [repeat constructor; cbn; intuition discriminate|]. split; [vm_compute; reflexivity|].
  split. { intros id c Hc. unfold c17_bad in Hc. cbn [circuits lookup] in Hc.
    destruct (0 =? id)%nat; [injection Hc as <-|destruct (1 =? id)%nat; [injection Hc as <-|discriminate]]; cbn [outputs]; repeat constructor; cbn; intuition discriminate. }
  split; auto. split.
  { apply eval_root_run; [apply (irc_laws F7 Dest)|]. apply resz_ok in H2. exact H2. }
  intros [v [c [all [b [K1 [_ [K2 [_ [K3 _]]]]]]]]]. cbn in K3. subst all.
  apply run_iff in K2. destruct K2 as [c1 [vals [b1 [L1 [L2 [_ [_ [L3 _]]]]]]]]. injection L1 as <-. cbn [instructions outputs c17_bad] in L2, L3.
  apply exec_cons in L2. destruct L2 as [o1 [b2 [b3 [M1 [M2 _]]]]]. destruct M1 as [_ [M1 _]]. cbn in M1. destruct M1 as [r [-> _]].
  apply exec_cons in M2. destruct M2 as [o2 [b4 [b5 [N1 [N2 _]]]]]. apply exec_nil in N2. destruct N2 as [-> _].
  destruct N1 as [_ N1]. cbn [i_call irc_of DestI d_call] in N1. cbn in N1.
  apply run_iff in N1. destruct N1 as [c2 [vals2 [b6 [P1 [P2 [_ [_ [P3 _]]]]]]]]. injection P1 as <-. cbn [instructions outputs] in P2, P3.
  apply exec_cons in P2. destruct P2 as [o3 [b7 [b8 [Q1 [Q2 _]]]]]. apply exec_nil in Q2. destruct Q2 as [-> _].
  destruct Q1 as [_ [Q1 _]]. apply lin7_cancel in Q1; [|reflexivity]. subst o3 o2. cbn in L3. injection L3 as L3. discriminate.
Qed.
Print Assumptions C17_random_arguments_refuted.


(* ======================= C15 ======================= *)
(* how often variable x is an operand of a multiplication: once per factor of a quadratic term *)
Definition term_uses {F : Fld} (x : nat) (t : Term F) : nat :=
  match vars t with VQuad a b => (if a =? x then 1 else 0) + (if b =? x then 1 else 0) | _ => 0 end%nat.
Fixpoint expr_uses {F : Fld} (x : nat) (e : list (Term F)) : nat := match e with [] => 0%nat | t :: e => (term_uses x t + expr_uses x e)%nat end.
Fixpoint mul_uses {F : Fld} (x : nat) (is : list (DInsn F)) : nat :=
  match is with [] => 0%nat | DVar e :: is => (expr_uses x e + mul_uses x is)%nat | _ :: is => mul_uses x is end.
Lemma mul_uses_usage {F : Fld} x (is : list (DInsn F)) : mul_uses x is = usage is x.
Proof.
  assert (G : forall e : list (Term F), expr_uses x e = cnt x (quads e)).
  { induction e as [|t e IH]; auto. cbn [expr_uses]. unfold quads, cnt in *. cbn [flat_map]. rewrite count_occ_app, IH. f_equal. unfold term_uses.
    destruct (vars t) as [|a|a b|g l|a]; auto. cbn [count_occ]. destruct (Nat.eqb_spec a x), (Nat.eqb_spec b x), (Nat.eq_dec a x), (Nat.eq_dec b x); auto; contradiction. }
  unfold usage. induction is as [|[e|id l n|c] is IH]; auto. cbn [mul_uses map]. change (list_sum (?a :: ?b)) with (a + list_sum b)%nat. rewrite IH, G. auto.
Qed.
(* terms scaled by a fresh random value only arise in layering, after this pass *)
Definition no_random_terms {F} (rc : RootCircuit (irc_of F DestRelaxed)) : Prop :=
  forall id c e, lookup id (circuits rc) = Some c -> In (DVar e : Insn (irc_of F DestRelaxed)) (instructions c) -> no_random F e.

Theorem C15_mul_fanout_limit : forall F limit (rc : RootCircuit (irc_of F DestRelaxed)),
  (2 <= limit)%nat -> NoDup (keys (circuits rc)) -> validate _ rc = true -> no_random_terms rc ->
  exists rc', solve_mul_fanout_limit limit rc = Some rc' /\
    num_public_inputs rc' = num_public_inputs rc /\ expected_num_output_zeroes rc' = expected_num_output_zeroes rc /\
    (forall id c', lookup id (circuits rc') = Some c' ->
       (forall x, (mul_uses x (instructions c' : list (DInsn F)) <= limit)%nat) /\
       exists c, lookup id (circuits rc) = Some c /\ num_inputs c' = num_inputs c /\ length (outputs c') = length (outputs c)) /\
    (* every run is kept *)
    (forall E ins outs verdict, root_run _ E rc ins outs verdict -> root_run _ E rc' ins outs verdict) /\
    (* and no run is added, when randomness is drawn nowhere or all draws give one value *)
    (forall E, (forall r r', e_rnd E r -> e_rnd E r' -> r = r') \/
               (forall id c i, lookup id (circuits rc) = Some c -> In i (instructions c) -> ~ draws i) ->
       forall ins outs verdict, root_run _ E rc' ins outs verdict -> root_run _ E rc ins outs verdict).
Proof.
  intros F limit rc Hl Hk Hv Hn. 
  destruct (solve_mul_fanout_spec limit Hl rc (validate_wf_root _ rc Hk Hv)) as [rc' [A [B [C [D [G [H K]]]]]]].
  { intros id c Hc. apply Forall_forall. intros i Hi. destruct i as [e|o l n|k]; cbn; auto. eapply Hn; eauto. }
  exists rc'. split; [auto|]. split; [auto|]. split; [auto|]. split; [|split; [auto|]].
  - intros id c' Hc'. destruct (G id c' Hc') as [G1 G2]. split; [|exact G2]. intros x. rewrite mul_uses_usage. apply G1.
  - intros E HE. apply K. intros id c Hc. apply Forall_forall. intros i Hi. destruct HE as [HE|HE]; [left; auto|right]. specialize (HE id c i Hc Hi).
    split. { destruct i as [e|o l n|k]; cbn; auto. eapply Hn; eauto. }
    intros X. apply HE. rewrite X. exact Coq.Init.Logic.I.
Qed.
Print Assumptions C15_mul_fanout_limit.
(* variable 1 is multiplied seven times, variable 2 five times, variable 3 (a quadratic form) three times; limit 2 *)
Definition c15_rc : RootCircuit DI7 :=
  {| num_public_inputs := 0; expected_num_output_zeroes := 0;
     circuits := [(0, {| instructions := [quad7 1 2; quad7 1 2; quad7 3 1; quad7 3 2; quad7 3 3; quad7 1 1; quad7 1 2; DConst (CConst (fz 5)); quad7 10 2; quad7 10 10] : list (Insn DI7);
                         constraints := [7 : Con DI7]; outputs := [5; 3; 9; 12]; num_inputs := 2 |})] |}.
Example C15_instance : NoDup (keys (circuits c15_rc)) /\ validate _ c15_rc = true /\ no_random_terms c15_rc /\
  (forall id c i, lookup id (circuits c15_rc) = Some c -> In i (instructions c) -> ~ draws i) /\
  map (fun p : nat * Circuit DI7 => map (fun x => mul_uses (F := F7) x (instructions (snd p))) [1; 2; 3; 4; 10]) (circuits c15_rc) = [[6; 5; 4; 0; 3]] /\
  option_map (fun r : RootCircuit DI7 => map (fun p : nat * Circuit DI7 => (length (instructions (snd p)), outputs (snd p), map (fun x => mul_uses (F := F7) x (instructions (snd p))) (seq 1 22))) (circuits r))
    (solve_mul_fanout_limit 2 c15_rc) = Some [(21, [15; 13; 19; 23], [0; 0; 0; 1; 2; 2; 2; 0; 2; 2; 2; 2; 2; 0; 0; 0; 0; 0; 0; 2; 1; 0])].
Proof.
  split; [repeat constructor; cbn; intuition discriminate|]. split; [vm_compute; reflexivity|]. split; [|split].
  - intros id c e Hc Hi. unfold c15_rc in Hc. cbn [circuits lookup] in Hc. destruct (0 =? id)%nat; [injection Hc as <-|discriminate]. cbn [instructions In] in Hi.
    unfold lin7, quad7 in Hi.
    repeat (destruct Hi as [Hi|Hi]; [first [discriminate Hi|assert (X : forall a b : Expression F7, DVar a = DVar b -> a = b) by (intros ? ? K; injection K; auto); apply X in Hi; rewrite <- Hi; apply no_random_from_terms; repeat constructor]|]). contradiction.
  - intros id c i Hc Hi. unfold c15_rc in Hc. cbn [circuits lookup] in Hc. destruct (0 =? id)%nat; [injection Hc as <-|discriminate]. cbn [instructions In] in Hi.
    repeat (destruct Hi as [<-|Hi]; [cbn [draws]; try tauto; intros H; apply H; unfold quad7; repeat constructor|]). contradiction.
  - split; vm_compute; reflexivity.
Qed.

(* Without that proviso runs are added here too: a random value multiplied more often than the limit is drawn again for each copy.
   The circuit outputs r*x - r*x = 0 before the pass, but another value is possible after it. *)
Definition c15_bad : RootCircuit DI7 :=
  {| num_public_inputs := 0; expected_num_output_zeroes := 0;
     circuits := [(0, {| instructions := [DConst CRandom; quad7 1 2; quad7 1 2; quad7 1 2; lin7 1 6 3 5] : list (Insn DI7);
                         constraints := []; outputs := [6]; num_inputs := 1 |})] |}.
Theorem C15_random_constant_refuted : exists (rc rc' : RootCircuit (irc_of F7 DestRelaxed)) E ins outs,
  NoDup (keys (circuits rc)) /\ validate _ rc = true /\ no_random_terms rc /\
  solve_mul_fanout_limit 2 rc = Some rc' /\ root_run _ E rc' ins outs true /\ ~ exists verdict, root_run _ E rc ins outs verdict.
Proof.
  assert (H : match solve_mul_fanout_limit 2 c15_bad with Some rc' => resz (eval_root (irc_of F7 DestRelaxed) o7r rc' [fz 1]) | None => Panic end = Ok ([6%Z], true)) by (vm_compute; reflexivity).
  destruct (solve_mul_fanout_limit 2 c15_bad) as [rc'|] eqn:H1; [rename H into H2|discriminate].
  exists c15_bad, rc', (env_of o7r), [fz 1], [fz 6]. split; [repeat constructor; cbn; intuition discriminate|]. split; [vm_compute; reflexivity|].
  split. { intros id c e Hc Hi. unfold c15_bad in Hc. cbn [circuits lookup] in Hc. destruct (0 =? id)%nat; [injection Hc as <-|discriminate]. cbn [instructions In] in Hi.
    unfold lin7, quad7 in Hi.
    repeat (destruct Hi as [Hi|Hi]; [first [discriminate Hi|assert (X : forall a b : Expression F7, DVar a = DVar b -> a = b) by (intros ? ? K; injection K; auto); apply X in Hi; rewrite <- Hi; apply no_random_from_terms; repeat constructor]|]). contradiction. }
  split; [exact H1|]. split.
  { apply eval_root_run; [apply (irc_laws F7 DestRelaxed)|]. apply resz_ok in H2. exact H2. }
  intros [v [c [all [b [K1 [_ [K2 [_ [K3 _]]]]]]]]]. cbn in K3. subst all.
  apply run_iff in K2. destruct K2 as [c1 [vals [b1 [L1 [L2 [_ [_ [L3 _]]]]]]]]. injection L1 as <-. cbn [instructions outputs c15_bad] in L2, L3.
  assert (Q : forall (g : nat -> F7) o, i_sem (i := DI7) (env_of o7r) (quad7 1 2) g o -> o = [expr_val F7 (env_of o7r) g [t_quad F7 (fz 1) 1 2]]).
  { intros g o [w [-> H]]. f_equal. apply expr_sem_val in H; [exact H|]. apply no_random_from_terms. repeat constructor. }
  apply exec_cons in L2. destruct L2 as [o1 [b2 [b3 [M1 [M2 _]]]]]. destruct M1 as [_ [M1 _]]. cbn in M1. destruct M1 as [r [-> _]].
  apply exec_cons in M2. destruct M2 as [o2 [b4 [b5 [[_ [N1 _]] [M2 _]]]]]. apply Q in N1.
  apply exec_cons in M2. destruct M2 as [o3 [b6 [b7 [[_ [N2 _]] [M2 _]]]]]. apply Q in N2.
  apply exec_cons in M2. destruct M2 as [o4 [b8 [b9 [[_ [N3 _]] [M2 _]]]]]. apply Q in N3.
  apply exec_cons in M2. destruct M2 as [o5 [b10 [b11 [[_ [N4 _]] [M2 _]]]]]. apply exec_nil in M2. destruct M2 as [-> _].
  subst o2 o3 o4. apply lin7_cancel in N4; [|reflexivity]. subst o5. cbn in L3. injection L3 as L3. discriminate.
Qed.
Print Assumptions C15_random_constant_refuted.
