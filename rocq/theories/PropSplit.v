(* C18: splitting at layer boundaries keeps behaviour. *)
From Verif Require Import Prelude Field Zp Sorting Expr Topo Ir IrFacts IrInst Sim Builder LaySched Layering IrSplit SplitExp SplitRoot PropIr PropDest.
Open Scope nat_scope.

(* circuit id has a constraint, or calls a circuit that has one, and so on *)
Inductive constrained {F} (cs : list (nat * Circuit (DestI F false))) : nat -> Prop :=
| C_own id c : lookup id cs = Some c -> constraints c <> [] -> constrained cs id
| C_call id c o : lookup id cs = Some c -> In o (calls c) -> constrained cs o -> constrained cs id.
Definition unconstrained {F} (rc : RootCircuit (DestI F false)) : Prop := forall id c, lookup id (circuits rc) = Some c -> constraints c = [].

Lemma skipn_skip {A} (a b : nat) (l : list A) : skipn (a + b) l = skipn b (skipn a l).
Proof. revert l. induction a; intros l; [auto|]. destruct l; cbn [Nat.add skipn]; [destruct b; auto|apply IHa]. Qed.

Theorem C18_split_to_single_layer : forall (F : Fld) (random : bool) (rc rc' : RootCircuit (DestI F false)),
  NoDup (keys (circuits rc)) -> validate _ rc = true -> split_to_single_layer random rc = Some rc' ->
  (* no circuit has as many constraints as the field has elements in its prime field *)
  (forall id c, lookup id (circuits rc) = Some c -> (Z.of_nat (length (constraints c)) < fmod F)%Z) ->
  (* constraints are combined at random if there are any, and have been made outputs otherwise *)
  (if random then constrained (circuits rc) 0 else unconstrained rc) ->
  num_public_inputs rc' = num_public_inputs rc /\ unconstrained rc' /\ wf_root _ rc' /\
  forall (E : Env F) (ins : list F), (exists r, e_rnd E r) ->
    (* what the split circuit computes, the circuit computes; and if its constraints hold, it is accepted, whatever is drawn *)
    (forall outs sat, root_run _ E rc' ins outs sat -> exists b, root_run _ E rc ins outs b /\ (b = true -> sat = true)) /\
    (* what the circuit computes with its constraints satisfied, the split circuit computes and accepts *)
    (forall outs, root_run _ E rc ins outs true -> root_run _ E rc' ins outs true) /\
    (* what the circuit computes with a constraint violated is rejected for some choice of the coefficients *)
    ((forall r, e_rnd E r) -> forall outs, root_run _ E rc ins outs false -> root_run _ E rc' ins outs false) /\
    (* without random combination both behave alike *)
    (random = false -> forall outs b, root_run _ E rc ins outs b <-> root_run _ E rc' ins outs b).
Proof.
  intros F random rc rc' Hk Hv Hs Hsmall Hcon. pose proof (validate_wf_root _ rc Hk Hv) as W.
  assert (Hre : random = true -> reach_con (circuits rc) 0).
  { intros ->. cbn in Hcon. induction Hcon as [id c H1 H2|id c o H1 H2 H3 IH]; [eapply RC_own; eauto|eapply RC_call; eauto]. }
  assert (Hun : random = false -> unconstrained rc) by (intros ->; exact Hcon).
  destruct (split_spec random rc rc' W Hs Hsmall Hun Hre) as [P1 P2 P3 P4 [c0 [c0' [k [Hc0 [Hc0' [Hn [Hlo [Hk1 Sem]]]]]]]]].
  split; auto. split; auto. split; auto. intros E ins Hr. set (z := expected_num_output_zeroes rc) in *. assert (Ez : expected_num_output_zeroes rc' = k + z) by lia.
  assert (Hsplit : forall l : list F, k <= length l -> firstn (k + z) l = firstn k l ++ firstn z (skipn k l) /\ skipn (k + z) l = skipn z (skipn k l)).
  { intros l Hl. split; [|apply skipn_skip]. rewrite <- (firstn_skipn k l) at 1. assert (Hlk : length (firstn k l) = k) by (rewrite firstn_length; lia). rewrite <- Hlk at 1. rewrite firstn_app_2. auto. }
  assert (A : forall outs sat, root_run _ E rc' ins outs sat -> exists b, root_run _ E rc ins outs b /\ (b = true -> sat = true) /\ (random = false -> sat = b)).
  { intros outs sat [c [all [b [H1 [H2 [H3 [H4 [-> ->]]]]]]]]. rewrite Hc0' in H1. apply Some_inj in H1. subst c. rewrite Hn in H2. destruct (Sem E ins Hr H2) as [SA _]. destruct (SA all b H3) as [-> [b0 [B1 B2]]]. rewrite Ez in *. destruct (Hsplit all ltac:(lia)) as [F1 F2]. rewrite F1, F2.
    exists (b0 && forallb (is0 F) (firstn z (skipn k all))). split; [exists c0, (skipn k all), b0; repeat split; auto; rewrite skipn_length; lia|]. rewrite forallb_app. cbn [andb].
    assert (Hf : b0 = true -> forallb (is0 F) (firstn k all) = true).
    { intros Hb. specialize (B2 Hb). destruct random; [|subst k; reflexivity]. subst k. destruct all as [|x all]; [reflexivity|]. cbn [firstn fsum fold_right forallb] in *. rewrite andb_true_r. apply is0_spec. change (fsum F [x]) with (fadd x f0) in B2. rewrite (Radd_comm (F_R (fth F))) in B2. rewrite (Radd_0_l (F_R (fth F))) in B2. auto. }
    split.
    - intros Hb. apply andb_true_iff in Hb. destruct Hb as [Hb1 Hb2]. rewrite (Hf Hb1), Hb2. auto.
    - intros Hrf. assert (b0 = true) as -> by (eapply (run_true0 random (circuits rc) Hun); eauto). rewrite (Hf eq_refl). auto. }
  assert (B : forall outs b, root_run _ E rc ins outs b -> b = true \/ random = false \/ (forall r, e_rnd E r) -> root_run _ E rc' ins outs b).
  { intros outs b [c [all [bc [H1 [H2 [H3 [H4 [-> ->]]]]]]]] Hcase. rewrite Hc0 in H1. apply Some_inj in H1. subst c. destruct (Sem E ins Hr H2) as [_ SB]. fold z in H4.
    assert (HT : exists a, T E bc a /\ (random = true -> bc = is0 F a) /\ (random = false -> bc = true)).
    { destruct bc.
      - exists f0. split; [left; auto|]. split; [intros _; symmetry; apply is0_spec|]; auto.
      - exists f1. destruct Hcase as [Hc|[Hc|Hc]]; [cbn in Hc; discriminate|exfalso; enough (false = true) by discriminate; eapply (run_true0 random (circuits rc) Hun); eauto|]. split; [right; auto|]. split; [|intros Hrf; eapply (run_true0 random (circuits rc) Hun); eauto]. intros _. destruct (is0 F f1) eqn:E1; auto. apply is0_spec in E1. exfalso. apply (f1_neq_f0 F). auto. }
    destruct HT as [a [HT [Ha1 Ha2]]]. destruct (SB all bc a H3 HT) as [ss [S1 [S2 S3]]]. exists c0', (ss ++ all), true. split; auto. split; [congruence|]. split; auto. rewrite Ez. split; [rewrite app_length; lia|].
    destruct (Hsplit (ss ++ all) ltac:(rewrite app_length; lia)) as [F1 F2]. rewrite F1, F2. rewrite <- S1. rewrite skipn_app, Nat.sub_diag, skipn_all, skipn_O, firstn_app, Nat.sub_diag, firstn_all, firstn_O, app_nil_r. cbn [app]. split; auto. rewrite forallb_app. cbn [andb]. f_equal.
    destruct random; [|rewrite (Ha2 eq_refl); subst k; destruct ss; [reflexivity|discriminate]]. subst k. destruct ss as [|x [|y ss]]; try discriminate. cbn [forallb]. rewrite andb_true_r. rewrite (Ha1 eq_refl), <- S2. f_equal. change (fsum F [x]) with (fadd x f0). rewrite (Radd_comm (F_R (fth F))). rewrite (Radd_0_l (F_R (fth F))). auto. }
  split; [intros outs sat H; destruct (A outs sat H) as [b [A1 [A2 _]]]; eauto|]. split; [intros outs H; apply B; auto|]. split; [intros HR outs H; apply B; auto|]. intros Hrf outs b. split; [intros H; apply B; auto|]. intros H. destruct (A outs b H) as [b' [A1 [_ A3]]]. rewrite (A3 Hrf). auto.
Qed.

(* a circuit that calls a sub-circuit with a constraint twice, at different depths, and has a constraint of its own *)
Notation DR7 := (DestI F7 false).
Definition li7r (a b : Z) (x y : nat) : Insn DR7 := DVar (from_terms F7 [t_linear F7 (fz a) x; t_linear F7 (fz b) y]).
Definition qu7r (x y : nat) : Insn DR7 := DVar (from_terms F7 [t_quad F7 (fz 1) x y]).
Definition c18_rc : RootCircuit DR7 :=
  {| num_public_inputs := 0; expected_num_output_zeroes := 1;
     circuits := [(0, {| instructions := [DCall 1 [1; 2] 1; li7r 1 1 3 1; DCall 1 [4; 2] 1; DConst (CConst (fz 5))] : list (Insn DR7);
                         constraints := [5 : Con DR7]; outputs := [5; 4; 6]; num_inputs := 2 |});
                  (1, {| instructions := [qu7r 1 2; qu7r 3 3; li7r 1 6 4 4] : list (Insn DR7);
                         constraints := [5 : Con DR7]; outputs := [4]; num_inputs := 2 |})] |}.
Definition split_eval (random : bool) (rc : RootCircuit DR7) (ins : list Z) :=
  match split_to_single_layer random rc with
  | Some rc' => Some (validate _ rc', expected_num_output_zeroes rc', length (circuits rc'), resz (eval_root _ o7 rc' (map fz ins)))
  | None => None
  end.
Definition small7 (rc : RootCircuit DR7) : bool := forallb (fun p : nat * Circuit DR7 => (Z.of_nat (length (constraints (snd p))) <? 7)%Z) (circuits rc).
Lemma small7_ok rc : small7 rc = true -> forall id c, lookup id (circuits rc) = Some c -> (Z.of_nat (length (constraints c)) < fmod F7)%Z.
Proof. intros H id c Hc. apply lookup_In in Hc. unfold small7 in H. rewrite forallb_forall in H. specialize (H _ Hc). apply Z.ltb_lt in H. exact H. Qed.
Example C18_instance : NoDup (keys (circuits c18_rc)) /\ validate _ c18_rc = true /\ (forall id c, lookup id (circuits c18_rc) = Some c -> (Z.of_nat (length (constraints c)) < fmod F7)%Z) /\
  constrained (circuits c18_rc) 0 /\ (exists r, e_rnd (env_of o7) r) /\
  split_eval true c18_rc [3; 5]%Z = Some (true, 2, 9, Ok ([4; 5]%Z, false)) /\ resz (eval_root _ o7 c18_rc [fz 3; fz 5]) = Ok ([4; 5]%Z, false) /\
  split_eval true c18_rc [0; 0]%Z = Some (true, 2, 9, Ok ([0; 5]%Z, true)) /\ resz (eval_root _ o7 c18_rc [fz 0; fz 0]) = Ok ([0; 5]%Z, true).
Proof.
  split; [repeat constructor; cbn; intuition discriminate|]. split; [vm_compute; reflexivity|]. split; [apply small7_ok; vm_compute; reflexivity|]. split; [eapply C_own; [reflexivity|discriminate]|]. split; [exists (fz 1); exists 0; reflexivity|]. repeat split; vm_compute; reflexivity.
Qed.
(* checks already turned into outputs, no random combination *)
Definition c18_plain : RootCircuit DR7 :=
  {| num_public_inputs := 0; expected_num_output_zeroes := 1;
     circuits := [(0, {| instructions := [DCall 1 [1; 2] 2; li7r 1 6 3 4; DCall 1 [4; 5] 2] : list (Insn DR7); constraints := []; outputs := [5; 7; 6]; num_inputs := 2 |});
                  (1, {| instructions := [qu7r 1 2; qu7r 3 3] : list (Insn DR7); constraints := []; outputs := [3; 4]; num_inputs := 2 |})] |}.
Example C18_instance_plain : NoDup (keys (circuits c18_plain)) /\ validate _ c18_plain = true /\ unconstrained c18_plain /\
  split_eval false c18_plain [3; 5]%Z = Some (true, 1, 6, resz (eval_root _ o7 c18_plain [fz 3; fz 5])) /\ split_eval false c18_plain [1; 1]%Z = Some (true, 1, 6, resz (eval_root _ o7 c18_plain [fz 1; fz 1])).
Proof.
  split; [repeat constructor; cbn; intuition discriminate|]. split; [vm_compute; reflexivity|]. split; [|split; vm_compute; reflexivity]. intros id c H. cbn [circuits c18_plain lookup] in H. destruct (0 =? id); [apply Some_inj in H; subst; auto|]. destruct (1 =? id); [apply Some_inj in H; subst; auto|discriminate].
Qed.

Definition split_of (random : bool) (rc : RootCircuit DR7) : RootCircuit DR7 := match split_to_single_layer random rc with Some rc' => rc' | None => rc end.
Lemma split_of_ok random rc : (match split_to_single_layer random rc with Some _ => true | None => false end) = true -> split_to_single_layer random rc = Some (split_of random rc).
Proof. unfold split_of. destruct (split_to_single_layer random rc); [auto|discriminate]. Qed.
(* Without the hypothesis that some constraint is reachable, the claim is false with random combination on: the sum of the checks is not
   output, yet one more output is taken for a check (ir_split.rs:486-500), here the only real output. *)
Definition c18_nocon : RootCircuit DR7 :=
  {| num_public_inputs := 0; expected_num_output_zeroes := 0;
     circuits := [(0, {| instructions := [qu7r 1 1] : list (Insn DR7); constraints := []; outputs := [2]; num_inputs := 1 |})] |}.
Theorem C18_without_constraints_refuted : exists (rc rc' : RootCircuit DR7) (ins outs : list F7),
  NoDup (keys (circuits rc)) /\ validate _ rc = true /\ unconstrained rc /\ split_to_single_layer true rc = Some rc' /\ outs <> [] /\
  forall (O : Oracle F7), eval_root _ O rc ins = Ok (outs, true) /\ eval_root _ O rc' ins = Ok ([], false).
Proof.
  exists c18_nocon, (split_of true c18_nocon), [fz 3], (map fz [2]%Z). split; [repeat constructor; cbn; intuition discriminate|]. split; [vm_compute; reflexivity|]. split.
  { intros id c H. cbn [circuits c18_nocon lookup] in H. destruct (0 =? id); [apply Some_inj in H; subst; auto|discriminate]. }
  split; [apply split_of_ok; vm_compute; reflexivity|]. split; [discriminate|]. intros O. split; [apply resz_ok|apply (resz_ok F7 _ [])]; vm_compute; reflexivity.
Qed.
(* Without the bound on the number of constraints it is false too: the terms of equal constraints are merged by adding their coefficients
   (expr.rs from_terms), so as many copies of a constraint as the characteristic vanish, whatever is drawn. *)
Definition c18_many : RootCircuit DR7 :=
  {| num_public_inputs := 0; expected_num_output_zeroes := 0;
     circuits := [(0, {| instructions := [qu7r 1 1] : list (Insn DR7); constraints := repeat (2 : Con DR7) 7; outputs := [2]; num_inputs := 1 |})] |}.
Theorem C18_too_many_constraints_refuted : exists (rc rc' : RootCircuit DR7) (ins outs : list F7),
  NoDup (keys (circuits rc)) /\ validate _ rc = true /\ constrained (circuits rc) 0 /\ split_to_single_layer true rc = Some rc' /\
  forall (O : Oracle F7), eval_root _ O rc ins = Ok (outs, false) /\ eval_root _ O rc' ins = Ok (outs, true).
Proof.
  exists c18_many, (split_of true c18_many), [fz 3], (map fz [2]%Z). split; [repeat constructor; cbn; intuition discriminate|]. split; [vm_compute; reflexivity|]. split; [eapply C_own; [reflexivity|discriminate]|].
  split; [apply split_of_ok; vm_compute; reflexivity|]. intros O. split; apply resz_ok; vm_compute; reflexivity.
Qed.
