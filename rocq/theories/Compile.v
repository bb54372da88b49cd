(* Model of the whole compiler, compile/mod.rs: the four steps and compile_with_options. *)
From Verif Require Import Prelude Field InputMapping Expr Topo Ir IrFacts IrInst Hints Sim RemoveUnreachable ReassignDup AddBack FixedPoint DetectChains
  Builder HintExport FinalBuild MulFanout ExportConstraints SolveDuplicates IrSplit Layered LayeredOpt Layering.

(* ------------------------------------------------------------ derived equality (PartialEq, Eq) of circuits *)
Section Eq.
  Context {F : Fld}.
  Definition f_dec (a b : F) : {a = b} + {a <> b}.
  Proof. destruct (feqb a b) eqn:E; [left; apply feqb_spec; exact E|right; intros H; apply (proj2 (feqb_spec F a b)) in H; congruence]. Defined.
  Definition pair_dec {A B} (da : forall a b : A, {a = b} + {a <> b}) (db : forall a b : B, {a = b} + {a <> b}) : forall a b : A * B, {a = b} + {a <> b}.
  Proof. decide equality. Defined.
  Definition nats_dec : forall a b : list nat, {a = b} + {a <> b} := list_eq_dec Nat.eq_dec.
  Definition coef_dec : forall a b : Coef F, {a = b} + {a <> b}.
  Proof. decide equality; [apply f_dec|apply Nat.eq_dec]. Defined.
  Definition lc_dec : forall a b : LinComb F, {a = b} + {a <> b}.
  Proof. decide equality; [apply f_dec|apply (list_eq_dec (pair_dec Nat.eq_dec f_dec))]. Defined.
  Definition vs_dec : forall a b : VarSpec, {a = b} + {a <> b}.
  Proof. decide equality; try apply Nat.eq_dec; apply nats_dec. Defined.
  Definition term_dec : forall a b : Term F, {a = b} + {a <> b}.
  Proof. decide equality; [apply vs_dec|apply f_dec]. Defined.
  Definition op_dec : forall a b : BoolOp, {a = b} + {a <> b}.
  Proof. decide equality. Defined.
  Definition uop_dec : forall a b : UnOp, {a = b} + {a <> b}.
  Proof. decide equality. Defined.
  Definition s_dec : forall a b : SInsn F, {a = b} + {a <> b}.
  Proof. decide equality; try apply Nat.eq_dec; try apply nats_dec; try apply lc_dec; try apply coef_dec; try apply N.eq_dec; try apply op_dec; try apply uop_dec; apply Bool.bool_dec. Defined.
  Definition con_dec : forall a b : ConType * nat, {a = b} + {a <> b}.
  Proof. apply pair_dec; [decide equality|apply Nat.eq_dec]. Defined.
  Definition h_dec : forall a b : HInsn F, {a = b} + {a <> b}.
  Proof. decide equality; try apply Nat.eq_dec; try apply nats_dec; try apply lc_dec; try apply coef_dec; apply N.eq_dec. Defined.
  Definition l_dec : forall a b : LInsn F, {a = b} + {a <> b}.
  Proof. decide equality; try apply Nat.eq_dec; try apply nats_dec; try apply lc_dec; apply coef_dec. Defined.
  Definition d_dec : forall a b : DInsn F, {a = b} + {a <> b}.
  Proof. decide equality; try apply Nat.eq_dec; try apply nats_dec; try apply (list_eq_dec term_dec); apply coef_dec. Defined.

  Section Root.
    Context (I : IRC F) (idec : forall a b : Insn I, {a = b} + {a <> b}) (kdec : forall a b : Con I, {a = b} + {a <> b}).
    Definition circuit_dec : forall a b : Circuit I, {a = b} + {a <> b}.
    Proof. decide equality; try apply Nat.eq_dec; try apply nats_dec; [apply (list_eq_dec kdec)|apply (list_eq_dec idec)]. Defined.
    Definition odec (a b : option (Circuit I)) : bool :=
      match a, b with Some a, Some b => if circuit_dec a b then true else false | None, None => true | _, _ => false end.
    (* circuit/ir/common/mod.rs:97-104; the HashMaps have the same entries *)
    Definition root_eqb (a b : RootCircuit I) : bool :=
      (num_public_inputs a =? num_public_inputs b) && (expected_num_output_zeroes a =? expected_num_output_zeroes b) &&
      forallb (fun id => odec (lookup id (circuits a)) (lookup id (circuits b))) (keys (circuits a) ++ keys (circuits b)).
    Lemma odec_spec a b : odec a b = true <-> a = b.
    Proof. destruct a as [a|], b as [b|]; cbn; try (split; congruence). destruct (circuit_dec a b); split; congruence. Qed.
    Lemma root_eqb_spec a b : root_eqb a b = true <-> same_root I a b.
    Proof.
      unfold root_eqb, same_root. rewrite !andb_true_iff, !Nat.eqb_eq, forallb_forall. split.
      - intros [[H1 H2] H3]. split; auto. split; auto. intros id. destruct (in_dec Nat.eq_dec id (keys (circuits a) ++ keys (circuits b))) as [Hi|Hi]; [apply odec_spec; auto|].
        assert (G : forall cs : list (nat * Circuit I), ~ In id (keys cs) -> lookup id cs = None).
        { intros cs Hn. destruct (lookup id cs) as [c|] eqn:E; auto. exfalso. apply Hn. apply lookup_keys; eauto. }
        rewrite !G; auto; intros Hx; apply Hi; apply in_or_app; auto.
      - intros [H1 [H2 H3]]. split; auto. intros id _. apply odec_spec. auto.
    Qed.
  End Root.
End Eq.

(* ------------------------------------------------------------ the compiler *)
(* compile/mod.rs:18-23 *)
Record Options := { mul_fanout_limit : option nat; allow_input_reorder : bool; opt_level : nat }.
(* compile/mod.rs:48-56 *)
Definition options_ok (o : Options) : bool :=
  match mul_fanout_limit o with Some l => 1 <? l | None => true end && ((1 <=? opt_level o) && (opt_level o <=? 3)).
(* What the compiler takes from its type parameters: C::ENABLE_RANDOM_COMBINATION and the cost constants of C, I::CROSS_LAYER_RELAY;
   [EMPTY] is input_mapping.rs' usize::MAX.  [fuel] bounds the number of rounds of each optimisation loop in the model only. *)
Record Config := { EMPTY : nat; random_combination : bool; cross_layer : bool; costs : Costs; fuel : nat }.

Section Compile.
  Context {F : Fld}.
  Variables (K : Config) (o : Options).
  Notation SR := (RootCircuit (SrcI F)). Notation HR := (RootCircuit (HnI F)). Notation LR := (RootCircuit (HlI F)).
  Notation DR := (RootCircuit (DestI F false)). Notation DS := (RootCircuit (DestI F true)).
  Definition assert (b : bool) : option unit := if b then Some tt else None.
  Definition ok {A} (r : Res A) : option A := match r with Ok a => Some a | _ => None end.

  (* the optimisation between two steps: compile/mod.rs:128-142, 158-168, 176-190, 218-230, 240-254: the loop at levels 2 and 3, one
     remove_unreachable at level 1 *)
  Definition opt_stage {I : IRC F} (eqb : RootCircuit I -> RootCircuit I -> bool) (x : RootCircuit I) (im : InputMapping) : option (RootCircuit I * InputMapping) :=
    if 2 <=? opt_level o then optimize_until_fixed_point (EMPTY K) eqb (opt_pass (EMPTY K)) (fuel K) x im
    else if 1 <=? opt_level o then let* r := remove_unreachable I (EMPTY K) x in let* im' := compose_in_place (EMPTY K) im (snd r) in Some (fst r, im')
    else Some (x, im).
  Definition s_eqb := root_eqb (SrcI F) s_dec con_dec.
  Definition h_eqb := root_eqb (HnI F) h_dec Nat.eq_dec.
  Definition l_eqb := root_eqb (HlI F) l_dec Nat.eq_dec.
  Definition d_eqb := root_eqb (DestI F false) d_dec Nat.eq_dec.
  Definition ds_eqb := root_eqb (DestI F true) d_dec Nat.eq_dec.

  (* compile/mod.rs:108-112: a round of the loop on the source circuit *)
  Definition src_pass (rc : SR) : option (SR * InputMapping) :=
    let* r := opt_pass (EMPTY K) rc in let* rc' := detect_chains (fst r) in Some (rc', snd r).
  (* compile/mod.rs:95-124 *)
  Definition step_1_source (rc : SR) : option (SR * InputMapping) :=
    let* _ := assert (validate _ rc) in
    let* c0 := lookup 0 (circuits rc) in
    let im := im_identity (num_inputs c0) in
    let* r :=
      if 3 <=? opt_level o then let* rc1 := detect_chains rc in optimize_until_fixed_point (EMPTY K) s_eqb src_pass (fuel K) rc1 im
      else if 1 <=? opt_level o then
        let* rc1 := detect_chains rc in let* r := remove_unreachable _ (EMPTY K) rc1 in let* im' := compose_in_place (EMPTY K) im (snd r) in Some (fst r, im')
      else Some (rc, im) in
    let* _ := assert (validate _ (fst r)) in
    Some r.
  (* compile/mod.rs:125-147 *)
  Definition step_1_hints (rc : SR) (im : InputMapping) : option (HR * InputMapping) :=
    let* hn := ok (hn_process rc) in
    let* r := opt_stage h_eqb hn im in
    let* _ := assert (validate _ (fst r)) in
    Some r.
  (* compile/mod.rs:149-215: the first part of step 2, up to r_dest_relaxed_p2 *)
  Definition step_2_build (hl : LR) : option (DR * InputMapping) :=
    let* c0 := lookup 0 (circuits hl) in
    let* r1 := if 2 <=? opt_level o then optimize_until_fixed_point (EMPTY K) l_eqb (opt_pass (EMPTY K)) (fuel K) hl (im_identity (num_inputs c0))
               else Some (hl, im_identity (num_inputs c0)) in
    let* _ := assert (validate _ (fst r1)) in
    let* d := ok (fb_process (costs K) (fst r1)) in
    let* r2 := opt_stage d_eqb d (snd r1) in
    let* _ := assert (validate _ (fst r2)) in
    let* d2 := match mul_fanout_limit o with
               | Some limit => let* r := solve_mul_fanout_limit limit (fst r2) in let* _ := assert (validate _ r) in Some r
               | None => Some (fst r2)
               end in
    if random_combination K then Some (d2, snd r2)
    else
      let* r3 := export_constraints d2 in
      let* r4 := reassign_duplicates _ false r3 in
      let* r5 := remove_unreachable _ (EMPTY K) r4 in
      let* im := compose_in_place (EMPTY K) (snd r2) (snd r5) in
      let* _ := assert (validate _ (fst r5)) in
      Some (fst r5, im).
  (* dest/mod.rs:341-348 *)
  Definition has_inputs (rc : DS) : bool := forallb (fun p => negb (num_inputs (snd p) =? 0)) (circuits rc).
  (* compile/mod.rs:217-234: up to solve_duplicates *)
  Definition step_2_single (p2 : DR) (im : InputMapping) : option (DR * InputMapping) :=
    let* r := if cross_layer K then Some (p2, im)
              else let* s := split_to_single_layer (random_combination K) p2 in
                   let* _ := assert (validate _ s) in
                   opt_stage d_eqb s im in
    let* p3 := if opt_level o =? 1 then reassign_duplicates _ true (fst r) else Some (fst r) in
    Some (p3, snd r).
  (* compile/mod.rs:236-261 *)
  Definition step_2_dest (p3 : DR) (im : InputMapping) : option (DS * InputMapping) :=
    let* d := solve_duplicates p3 in
    let* r := opt_stage ds_eqb d im in
    let* _ := assert (validate _ (fst r)) in
    let* _ := assert (has_inputs (fst r)) in
    Some r.
  (* compile/mod.rs:385-391: the outputs of the exported circuit are put where the layered circuit takes its inputs; a place that is not
     filled reads variable 1 *)
  Definition place_outputs (im : InputMapping) (rc : HR) : option HR :=
    let* c0 := lookup 0 (circuits rc) in
    let* outs := map_inputs (EMPTY K) 0 im (outputs c0) in
    Some {| num_public_inputs := num_public_inputs rc; expected_num_output_zeroes := expected_num_output_zeroes rc;
            circuits := set_circuit _ 0 {| instructions := instructions c0; constraints := constraints c0; outputs := map (Nat.max 1) outs; num_inputs := num_inputs c0 |} (circuits rc) |}.
  (* compile/mod.rs:295-312 *)
  Definition step_4 (rc : HR) (im : InputMapping) : option (HR * InputMapping) :=
    let* _ := assert (validate _ rc) in
    if 2 <=? opt_level o then optimize_until_fixed_point (EMPTY K) h_eqb (remove_unreachable _ (EMPTY K)) (fuel K) rc im else Some (rc, im).

  (* the values of one compilation *)
  Record Trace := {
    t_src : SR; t_src_im : InputMapping;      (* the optimised source circuit *)
    t_hn : HR; t_hn_im : InputMapping;        (* the hint-normalised circuit, optimised *)
    t_hl : LR; t_ex : HR;                     (* without hints; the exported circuit *)
    t_p2 : DR; t_p2_im : InputMapping;        (* r_dest_relaxed_p2 *)
    t_p3 : DR; t_p3_im : InputMapping;        (* r_dest_relaxed_p3 *)
    t_dest : DS; t_dest_im : InputMapping;    (* r_dest_opt *)
    t_lc : LCircuit F; t_lc_im : InputMapping;  (* the layered circuit before step 3 *)
    t_im : InputMapping;                      (* from the inputs of the hint-less circuit to the inputs of the layered circuit *)
    t_placed : HR;
    t_solver : HR; t_solver_im : InputMapping }.
  (* compile/mod.rs:352-407: from the source circuit [rc] the compiler may return the solver circuit [ex] and the layered circuit [lc].
     It is a relation because step 3 samples at random. *)
  Record compiles (rc : SR) (t : Trace) (ex : HR) (lc : LCircuit F) : Prop := {
    c_options : options_ok o = true;
    c_src : step_1_source rc = Some (t_src t, t_src_im t);
    c_hn : step_1_hints (t_src t) (t_src_im t) = Some (t_hn t, t_hn_im t);
    c_split : remove_and_export_hints (t_hn t) = Some (t_hl t, t_ex t);
    c_ex : validate _ (t_ex t) = true;
    c_p2 : step_2_build (t_hl t) = Some (t_p2 t, t_p2_im t);
    c_p3 : step_2_single (t_p2 t) (t_p2_im t) = Some (t_p3 t, t_p3_im t);
    c_dest : step_2_dest (t_p3 t) (t_p3_im t) = Some (t_dest t, t_dest_im t);
    c_lc : layer_compile (cross_layer K) (EMPTY K) (allow_input_reorder o) (t_dest t) = Some (t_lc t, t_lc_im t);
    c_step3 : Step3 (opt_level o) (t_lc t) lc;
    c_im : compose_in_place (EMPTY K) (t_dest_im t) (t_lc_im t) = Some (t_im t);
    c_placed : place_outputs (t_im t) (t_ex t) = Some (t_placed t);
    c_solver : step_4 (t_placed t) (t_hn_im t) = Some (t_solver t, t_solver_im t);
    c_back : add_back_removed_inputs _ (EMPTY K) (t_solver_im t) (t_solver t) = Some ex;
    c_valid : validate _ ex = true }.
End Compile.
