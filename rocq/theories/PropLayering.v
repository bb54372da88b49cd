(* C19: layering a dest circuit keeps its behaviour. *)
From Verif Require Import Prelude Field Zp Sorting Expr Topo Ir IrInst InputMapping Layered SolveDuplicates LayeredFacts LayeredOpt LayeredOptFacts IrFacts Sim Layering LaySem LaySched LayInst LayLayout LayOwn LayView LayRoot PropIr.
Open Scope nat_scope.

Definition no_constraints {F} (rc : RootCircuit (DestI F true)) : Prop := forall id c, lookup id (circuits rc) = Some c -> constraints c = [].

Lemma strict_outputs {F} (rc : RootCircuit (DestI F true)) c : validate _ rc = true -> lookup 0 (circuits rc) = Some c -> NoDup (outputs c).
Proof.
  intros H Hc. unfold validate in H. rewrite Hc in H. apply andb_true_iff in H. destruct H as [H _]. apply andb_true_iff in H. destruct H as [H _]. rewrite forallb_forall in H. specialize (H (0, c) (lookup_In _ _ _ Hc)). cbn [snd] in H.
  unfold validate_variable_references in H. destruct (validate_insns _ _ _) as [m|]; [|discriminate]. rewrite !andb_true_iff in H. destruct H as [_ H]. cbn [dup_outs DestI orb] in H. apply nodupb_iff. exact H.
Qed.
Lemma no_con_true {F} (E : Env F) (cs : list (nat * Circuit (DestI F true))) : (forall id c, lookup id cs = Some c -> constraints c = []) -> forall id ins outs b, run _ E cs id ins outs b -> b = true.
Proof.
  intros Hn id ins outs b H.
  refine (run_mut _ E cs (fun is vals vals' b _ => b = true) (fun id ins outs b _ => b = true) _ _ _ _ id ins outs b H); intros; subst; auto.
  match goal with Hc : lookup _ cs = Some _ |- _ => rewrite (Hn _ _ Hc) end. cbn [forallb]. auto.
Qed.

(* [ins'] holds the inputs [ins] where the mapping puts them; what is elsewhere (padding) is arbitrary *)
Definition fed {F : Fld} (im : InputMapping) (ins ins' : list F) : Prop :=
  length ins = cur_size im /\ length ins' = next_size im /\ forall t s, nth_error (mapping im) t = Some s -> nth_error ins' s = nth_error ins t.

Theorem C19_layering : forall (F : Fld) (cross : bool) (EMPTY : nat) (reorder : bool) (rc : RootCircuit (DestI F true)) (lc : LCircuit F) (im : InputMapping),
  NoDup (keys (circuits rc)) -> validate _ rc = true -> layer_compile cross EMPTY reorder rc = Some (lc, im) -> next_size im <= EMPTY ->
  l_pub lc = num_public_inputs rc /\
  (* every input has its own place in the input layer; map_inputs puts it there *)
  input_size lc = Some (next_size im) /\
  (exists c, lookup 0 (circuits rc) = Some c /\ cur_size im = num_inputs c) /\ NoDup (mapping im) /\ Forall (fun s => s < next_size im) (mapping im) /\
  (forall ins : list F, length ins = cur_size im -> exists ins', map_inputs EMPTY f0 im ins = Some ins' /\ fed im ins ins') /\
  forall (E : Env F) (ins ins' : list F), (exists r, e_rnd E r) -> fed im ins ins' ->
    (* what the layered circuit computes, the dest circuit computes; and if its constraints hold, it is accepted, whatever is drawn *)
    (forall outs sat, lrun E lc ins' outs sat -> exists b, root_run _ E rc ins outs b /\ (b = true -> sat = true)) /\
    (* what the dest circuit computes with its constraints satisfied, the layered circuit computes and accepts *)
    (forall outs, root_run _ E rc ins outs true -> lrun E lc ins' outs true) /\
    (* what the dest circuit computes with a constraint violated is rejected for some choice of the coefficients *)
    ((forall r, e_rnd E r) -> forall outs, root_run _ E rc ins outs false -> lrun E lc ins' outs false) /\
    (* without constraints (they are outputs then) both behave alike *)
    (no_constraints rc -> forall outs b, root_run _ E rc ins outs b <-> lrun E lc ins' outs b).
Proof.
  intros F cross EMPTY reorder rc lc im Hk Hv Hc HE. destruct (compile_inv cross EMPTY reorder rc lc im Hk Hv Hc) as [ctxs [X [layouts [G HC]]]].
  pose proof (co_ok _ _ _ _ _ _ _ _ _ HC) as Hok. pose proof (co_X _ _ _ _ _ _ _ _ _ HC) as HX. pose proof (co_inst _ _ _ _ _ _ _ _ _ HC) as HI. pose proof (co_wf _ _ _ _ _ _ _ _ _ HC) as Hwf. pose proof (Hok _ _ HX) as K.
  pose proof (ok_c _ _ _ _ _ K) as Hc0. pose proof (strict_outputs rc _ Hv Hc0) as Hnd. pose proof (Inst_deep _ _ _ _ _ _ HI) as Hdeep.
pose proof (im_range cross EMPTY rc lc im ctxs X layouts G HC HE) as [R1 [R2 R3]]. destruct (co_map _ _ _ _ _ _ _ _ _ HC) as [M1 M2]. destruct (co_in _ _ _ _ _ _ _ _ _ HC) as [p [P1 [P2 P3]]].
  assert (Rn : forall s, In s (mapping im) -> s <> EMPTY). { intros s Hs. apply In_nth_error in Hs. destruct Hs as [t Ht]. assert (Hlt : t < num_inputs (x_c X)) by (rewrite <- M1; eapply nth_error_Some_lt; eauto). destruct (R3 t Hlt) as [s' [_ [S2 S3]]]. congruence. }
  split; [apply (co_pub _ _ _ _ _ _ _ _ _ HC)|]. split; [congruence|]. split; [exists (x_c X); split; auto|]. split.
  { apply NoDup_nth_error. intros i j Hi Hij. destruct (nth_error_Some_ex (mapping im) i Hi) as [s Hs]. eapply R2; [exact Hs|congruence|]. apply Rn. eapply nth_error_In; eauto. }
  split. { apply Forall_forall. intros s Hs. destruct R1 as [_ R1]. rewrite Forall_forall in R1. destruct (R1 s Hs) as [->|]; auto. destruct (Rn _ Hs eq_refl). }
  split.
  { intros ins Hl. destruct (map_inputs_spec EMPTY f0 im ins R1 Hl) as [r [Hr _]]. exists r. split; auto. destruct (map_agree cross EMPTY rc lc im ctxs X layouts G HC ins r HE Hr) as [A [B D]]. split; auto. }
  intros E ins ins' Hr [Hf1 [Hf2 Hf3]]. assert (Hl : length ins = num_inputs (x_c X)) by (unfold cur_size in Hf1; congruence).
  pose proof (root_A cross EMPTY rc lc im ctxs X layouts G HC Hnd E ins ins' Hl Hf2 Hf3) as RA. pose proof (root_B cross EMPTY rc lc im ctxs X layouts G HC Hnd E ins ins' Hl Hf2 Hf3) as RB. set (z := expected_num_output_zeroes rc) in *.
  assert (A : forall outs sat, lrun E lc ins' outs sat -> exists b, root_run _ E rc ins outs b /\ (b = true -> sat = true) /\ (no_constraints rc -> sat = b)).
  { intros outs sat H. destruct (RA outs sat Hr H) as [all [w [HLS [Hal [Hz [-> ->]]]]]]. destruct (LS_run cross (circuits rc) ctxs E Hwf Hok _ _ _ _ _ HLS) as [b [Hb Hw]].
    exists (b && forallb (is0 F) (firstn z all)). split; [exists (x_c X), all, b; auto 10|]. split.
    - intros Ht. apply andb_true_iff in Ht. destruct Ht as [-> Ht]. rewrite (Hw eq_refl), Ht, andb_true_r. apply is0_spec. auto.
    - intros Hn. pose proof (no_con_true E (circuits rc) Hn _ _ _ _ Hb) as ->. rewrite (Hw eq_refl). f_equal. apply is0_spec. auto. }
  assert (B : forall outs b, root_run _ E rc ins outs b -> b = true \/ no_constraints rc -> lrun E lc ins' outs b).
  { intros outs b [c [all [bc [H1 [H2 [H3 [H4 [-> ->]]]]]]]] Hcase. rewrite Hc0 in H1. apply Some_inj in H1. subst c.
    assert (Hbc : bc = true) by (destruct Hcase as [Ht|Hn]; [apply andb_true_iff in Ht; tauto|apply (no_con_true E (circuits rc) Hn _ _ _ _ H3)]). subst bc.
    pose proof (run_LS0 cross (circuits rc) ctxs E Hwf Hok _ _ X _ _ _ Hdeep HX Hl H3 (or_intror (conj eq_refl Hr))) as HLS. specialize (RB all _ HLS H4). cbn beta in RB. replace (is0 F f0) with true in RB by (symmetry; apply is0_spec; auto). exact RB. }
  split; [intros outs sat H; destruct (A outs sat H) as [b [A1 [A2 _]]]; eauto|]. split; [intros outs H; apply B; auto|]. split.
  - intros Hall outs [c [all [bc [H1 [H2 [H3 [H4 [-> Hcond]]]]]]]]. rewrite Hc0 in H1. apply Some_inj in H1. subst c. destruct bc.
    + pose proof (run_LS0 cross (circuits rc) ctxs E Hwf Hok _ _ X _ _ _ Hdeep HX Hl H3 (or_introl Hall)) as HLS. specialize (RB all _ HLS H4). cbn beta in RB. replace (is0 F f0) with true in RB by (symmetry; apply is0_spec; auto). fold z in Hcond. rewrite <- Hcond in RB. exact RB.
    + destruct (run_LS1 cross (circuits rc) ctxs E Hwf Hok _ _ X _ _ f1 Hdeep HX Hl H3 Hall) as [i0 [Hi0 HLS]]. specialize (RB all _ HLS H4). replace (wnz 0 X i0 f1 (x_out X)) with (@f1 F) in RB.
      * destruct (is0 F f1) eqn:E1; [|exact RB]. apply is0_spec in E1. exfalso. apply (f1_neq_f0 F). auto.
      * unfold wnz. cbn [Nat.eqb]. pose proof (cc_le _ _ _ _ _ _ K Hi0) as Hle. rewrite (cc_persist _ _ _ X i0 K Hi0) by lia. rewrite (proj2 (Nat.leb_le i0 (x_out X))) by auto. auto.
  - intros Hn outs b. split; [intros H; apply B; auto|]. intros H. destruct (A outs b H) as [b' [A1 [_ A3]]]. rewrite (A3 Hn). auto.
Qed.

(* a circuit that calls a sub-circuit with a constraint twice, at different depths, and has a constraint of its own *)
Notation DS7 := (DestI F7 true).
Definition li7 (a b : Z) (x y : nat) : Insn DS7 := DVar (from_terms F7 [t_linear F7 (fz a) x; t_linear F7 (fz b) y]).
Definition qu7 (x y : nat) : Insn DS7 := DVar (from_terms F7 [t_quad F7 (fz 1) x y]).
Definition c19_rc : RootCircuit DS7 :=
  {| num_public_inputs := 0; expected_num_output_zeroes := 1;
     circuits := [(0, {| instructions := [DCall 1 [1; 2] 1; li7 1 1 3 1; DCall 1 [4; 2] 1; DConst (CConst (fz 5))] : list (Insn DS7);
                         constraints := [5 : Con DS7]; outputs := [5; 4; 6]; num_inputs := 2 |});
                  (1, {| instructions := [qu7 1 2; qu7 3 3; li7 1 6 4 4] : list (Insn DS7);
                         constraints := [5 : Con DS7]; outputs := [4]; num_inputs := 2 |})] |}.
Definition c19_out (cross reorder : bool) (ins : list Z) :=
  match layer_compile cross 1000 reorder c19_rc with
  | Some (lc, im) => match map_inputs 1000 f0 im (map fz ins) with
      | Some ins' => Some (zs ins', option_map (fun p => (zs (fst p), snd p)) (eval_scalar (fun _ => None) (fun _ _ => f0) (fun k => fz (Z.of_nat k + 1)) lc ins'), length (l_layers lc), l_zeroes lc, l_actual lc)
      | None => None end
  | None => None end.
Example C19_instance : NoDup (keys (circuits c19_rc)) /\ validate _ c19_rc = true /\
  (forall cross reorder, match layer_compile cross 1000 reorder c19_rc with Some (lc, im) => next_size im <=? 1000 | None => false end = true) /\
  c19_out false false [3; 5]%Z = Some ([3; 5]%Z, Some ([4; 5]%Z, false), 8, 2, 4) /\ resz (eval_root _ o7 c19_rc [fz 3; fz 5]) = Ok ([4; 5]%Z, false) /\
  c19_out true true [0; 0]%Z = Some ([0; 0]%Z, Some ([0; 5]%Z, true), 8, 2, 4) /\ resz (eval_root _ o7 c19_rc [fz 0; fz 0]) = Ok ([0; 5]%Z, true) /\
  (exists r, e_rnd (env_of o7) r).
Proof.
  split; [repeat constructor; cbn; intuition discriminate|]. split; [vm_compute; reflexivity|]. split; [intros [|] [|]; vm_compute; reflexivity|]. repeat (split; [vm_compute; reflexivity|]). exists (fz 1). exists 0. reflexivity.
Qed.
(* one without constraints: its checks are outputs *)
Definition c19_out_rc : RootCircuit DS7 :=
  {| num_public_inputs := 0; expected_num_output_zeroes := 1;
     circuits := [(0, {| instructions := [DCall 1 [1; 2] 2; li7 1 6 3 4] : list (Insn DS7); constraints := []; outputs := [5; 4]; num_inputs := 2 |});
                  (1, {| instructions := [qu7 1 2; qu7 3 3] : list (Insn DS7); constraints := []; outputs := [3; 4]; num_inputs := 2 |})] |}.
Example C19_instance_no_constraints : validate _ c19_out_rc = true /\ no_constraints c19_out_rc /\
  match layer_compile true 1000 true c19_out_rc with Some (lc, im) => (next_size im <=? 1000) && (l_actual lc =? 2) | None => false end = true.
Proof.
  split; [vm_compute; reflexivity|]. split; [|vm_compute; reflexivity]. intros id c H. cbn [circuits c19_out_rc lookup] in H. destruct (0 =? id); [apply Some_inj in H; subst; auto|]. destruct (1 =? id); [apply Some_inj in H; subst; auto|discriminate].
Qed.
