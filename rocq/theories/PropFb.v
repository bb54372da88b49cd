(* C14: final_build_opt (builder/final_build_opt.rs; model in FinalBuild.v) turns a hint-free circuit into a dest circuit.
   Specification: [root_run] (Ir.v), the meaning of a circuit in either IR. *)
From Verif Require Import Prelude Field Zp Sorting Expr Topo Containers Hints Ir IrFacts IrInst Sim LocalPass Builder FinalBuild BuilderFacts FbFacts FbSim PropIr.
Open Scope nat_scope.

(* A cost model under which the choices always terminate; both of the compiler's cost models are of this kind *)
Definition costs_std : Costs := {| COST_VARIABLE := 100; COST_MUL := 10; COST_ADD := 3; COST_CONST := 3 |}.  (* circuit/config.rs:24-28 *)
Definition costs_gf2 : Costs := {| COST_VARIABLE := 100; COST_MUL := 200; COST_ADD := 3; COST_CONST := 3 |}. (* circuit/config.rs:60-63 *)
Example real_costs_ok : costs_ok costs_std /\ costs_ok costs_gf2.
Proof. unfold costs_ok. cbn. lia. Qed.

Section L.
  Context {F : Fld}.
  Lemma l_validate_insns_valid (rc : RootCircuit (HlI F)) : validate (HlI F) rc = true -> l_insns_valid rc.
  Proof.
    intros H. unfold validate in H. destruct (lookup 0 (circuits rc)); [|discriminate]. rewrite !andb_true_iff in H. destruct H as [[H1 _] _]. rewrite forallb_forall in H1.
    intros id c1 Hc. apply lookup_In in Hc. specialize (H1 _ Hc). cbn [snd] in H1. unfold validate_variable_references in H1. destruct (validate_insns _ _ _ _) as [m|] eqn:E; [|discriminate].
    apply validate_insns_spec in E. apply E.
  Qed.
  Lemma reaches_run_len (E : Env F) (cs : list (nat * Circuit (HlI F))) a b cb : wf_circuits (HlI F) cs -> reaches cs a b -> lookup b cs = Some cb ->
    forall c ins outs, lookup a cs = Some c -> length ins = num_inputs c -> run (HlI F) E cs a ins outs true -> exists ins' outs', length ins' = num_inputs cb /\ run (HlI F) E cs b ins' outs' true.
  Proof.
    intros W H Hb. induction H as [a|a c o b Hc Ho H IH]; intros c1 ins outs Hc1 Hl Hr.
    - exists ins, outs. split; auto. congruence.
    - apply run_iff in Hr. destruct Hr as [c2 [vals [b0 [Hc2 [X1 [X2 [X3 [-> Hv]]]]]]]]. rewrite Hc in Hc1, Hc2. injection Hc1 as <-. injection Hc2 as <-.
      symmetry in Hv. apply andb_true_iff in Hv. destruct Hv as [-> _]. apply calls_in in Ho. destruct Ho as [i [l [n [Hi Ec]]]]. destruct (exec_true_step (HlI F) E cs _ _ _ X1 i Hi) as [v0 [o0 S0]]. unfold step in S0. rewrite Ec in S0.
      pose proof (wf_calls _ _ W a c Hc) as Wl. rewrite Forall_forall in Wl. destruct (Wl i Hi o l n Ec) as [co [C1 [C2 C3]]]. destruct S0 as [_ S0]. apply (IH Hb co _ _ C1) in S0; [auto|]. rewrite map_length. auto.
  Qed.
End L.

(* For every hint-free circuit that passes validation and every usable cost model the pass either reports an error or answers a
   well-formed dest circuit with the same interface and, for every input and environment, exactly the runs of the source: the same outputs
   with the same verdict. It never panics and never loops. *)
Theorem C14_final_build : forall F (K : Costs) (rc : RootCircuit (HlI F)),
  costs_ok K -> NoDup (keys (circuits rc)) -> validate _ rc = true ->
  fb_process K rc = Err \/
  exists rc', fb_process K rc = Ok rc' /\ wf_root (DestI F false) rc' /\
    num_public_inputs rc' = num_public_inputs rc /\ expected_num_output_zeroes rc' = expected_num_output_zeroes rc /\
    (forall id, In id (keys (circuits rc')) <-> In id (keys (circuits rc))) /\
    (forall id c, lookup id (circuits rc) = Some c -> exists c', lookup id (circuits rc') = Some c' /\
       num_inputs c' = num_inputs c /\ length (outputs c') = length (outputs c)) /\
    forall E ins outs verdict, root_run (HlI F) E rc ins outs verdict <-> root_run (DestI F false) E rc' ins outs verdict.
Proof.
  intros F K rc HK Hk Hv. pose proof (validate_wf_root _ rc Hk Hv) as W. destruct (fb_process_spec K rc W (l_validate_insns_valid rc Hv)) as [[rc' [E Hr]]|[[E _]|[E Hn]]]; [|left; auto|contradiction].
  right. exists rc'. split; auto. split; [apply Hr|]. split; [apply Hr|]. split; [apply Hr|]. split; [apply Hr|]. split.
  - intros id c Hc. destruct (fr_fwd _ _ Hr id c Hc) as [c' [A [[_ [B [C _]]] _]]]. exists c'. auto.
  - intros E0 ins outs b. apply fb_behaviour; auto.
Qed.
Print Assumptions C14_final_build.

(* An error is only reported for a circuit that holds a constraint no input can meet: no run of it is accepted, in any environment.
   If that circuit is used by the root (directly or not), no run of the root is accepted either: the source was unsatisfiable. *)
Theorem C14_error_only_if_unsatisfiable : forall F (K : Costs) (rc : RootCircuit (HlI F)),
  NoDup (keys (circuits rc)) -> validate _ rc = true -> fb_process K rc = Err ->
  exists id c, lookup id (circuits rc) = Some c /\
    (forall E ins outs, length ins = num_inputs c -> ~ run (HlI F) E (circuits rc) id ins outs true) /\
    (reaches (circuits rc) 0 id -> forall E ins outs, ~ root_run (HlI F) E rc ins outs true).
Proof.
  intros F K rc Hk Hv He. pose proof (validate_wf_root _ rc Hk Hv) as W. destruct (fb_process_spec K rc W (l_validate_insns_valid rc Hv)) as [[rc' [E Hr]]|[[E [id [c [x [Hc [Hx Hn]]]]]]|[E _]]]; try congruence.
  assert (G : forall E ins outs, length ins = num_inputs c -> ~ run (HlI F) E (circuits rc) id ins outs true) by (intros E0 ins outs Hl; eapply never_run; eauto).
  exists id, c. split; auto. split; auto. intros Hre E0 ins outs [c0 [all [b0 [A1 [A2 [A3 [_ [_ A4]]]]]]]]. symmetry in A4. apply andb_true_iff in A4. destruct A4 as [-> _].
  destruct (reaches_run_len E0 (circuits rc) 0 id c (wr_cs _ _ W) Hre Hc c0 _ _ A1 A2 A3) as [ins' [outs' [B1 B2]]]. eapply G; eauto.
Qed.
Print Assumptions C14_error_only_if_unsatisfiable.


(* a circuit with a call, products of sums, a constant and a constraint *)
Definition c14_sub : Circuit (HlI F7) := {| num_inputs := 2;
  instructions := [LMul [1; 2]; LLin {| lc_terms := [(3, fz 2); (1, fz 1)]; lc_const := fz 1 |}] : list (Insn (HlI F7));
  constraints := [] : list (Con (HlI F7)); outputs := [4; 3] |}.
Definition c14_rc : RootCircuit (HlI F7) := {| num_public_inputs := 0; expected_num_output_zeroes := 0;
  circuits := [(0, {| num_inputs := 3;
     instructions := [LCall 1 [1; 2] 2; LMul [4; 5; 3; 3]; LConst (CConst (fz 3)); LLin {| lc_terms := [(6, fz 1); (7, fz 1)]; lc_const := fz 0 |};
                      LLin {| lc_terms := [(1, fz 1); (2, fz 6)]; lc_const := fz 0 |}] : list (Insn (HlI F7));
     constraints := [9] : list (Con (HlI F7)); outputs := [8; 4; 8] |}); (1, c14_sub)] |}.
Definition fb_eval (rc : RootCircuit (HlI F7)) (ins : list Z) : Res (list Z * bool) :=
  match fb_process costs_std rc with Ok rc' => resz (eval_root _ o7 rc' (map fz ins)) | _ => Panic end.
Example C14_instance : NoDup (keys (circuits c14_rc)) /\ validate _ c14_rc = true /\
  resz (eval_root _ o7 c14_rc (map fz [2; 2; 1]%Z)) = Ok ([5; 4; 5]%Z, true) /\ fb_eval c14_rc [2; 2; 1]%Z = Ok ([5; 4; 5]%Z, true) /\
  resz (eval_root _ o7 c14_rc (map fz [2; 3; 1]%Z)) = Ok ([2; 1; 2]%Z, false) /\ fb_eval c14_rc [2; 3; 1]%Z = Ok ([2; 1; 2]%Z, false).
Proof. split; [repeat constructor; cbn; intuition discriminate|]. repeat split; vm_compute; reflexivity. Qed.
(* and one that is reported: 3 = 0 *)
Definition c14_bad : RootCircuit (HlI F7) := {| num_public_inputs := 0; expected_num_output_zeroes := 0;
  circuits := [(0, {| num_inputs := 1; instructions := [LConst (CConst (fz 3))] : list (Insn (HlI F7)); constraints := [2] : list (Con (HlI F7)); outputs := [1] |})] |}.
Definition is_err {A} (r : Res A) : bool := match r with Err => true | _ => false end.
Example C14_error_instance : validate _ c14_bad = true /\ is_err (fb_process costs_std c14_bad) = true.
Proof. split; vm_compute; reflexivity. Qed.
