(* C07 - C09: hint normalisation (builder/hint_normalize.rs, builder/basic.rs; model in Builder.v).
   Specification used below: [root_run] (what a run of a circuit is, Ir.v), and for the adversarial reading [rel_sem] (HnTrans.v):
   what each source instruction promises about its results when every value it does not constrain is chosen by an adversary. *)
From Verif Require Import Prelude Field Zp Sorting Expr Topo Containers Hints Ir IrFacts IrInst Sim LocalPass Builder BuilderFacts BuilderSim HnTrans HnSim HnCirc PropIr.
Open Scope nat_scope.

(* ======================= C07 ======================= *)
(* a division, or an operation on constants that may fail to compute *)
Definition may_reject {F : Fld} (i : SInsn F) : bool := match i with SDiv _ _ _ | SUnOp _ _ _ => true | _ => false end.
Section Reject.
  Context {F : Fld}.
  Lemma transform_err cv (i : SInsn F) n : snd (transform cv i n) = TErr -> may_reject i = true.
  Proof.
    destruct i as [l|l|x y ck|x y op|x|l|h l k|c|id l k|x y op|c t e|gt l|x k]; auto; try (cbn; discriminate).
    - rewrite transform_bool. cbn. discriminate.
    - destruct (cv x) eqn:Ex; [cbn [transform]; rewrite Ex; cbn; discriminate|]. rewrite transform_iszero by auto. cbn. discriminate.
    - cbn [transform]. destruct (cv c) as [v|]; [destruct (is0 F v)|]; cbn; discriminate.
    - rewrite transform_tobin. cbn. discriminate.
  Qed.
  Lemma process_insn_err B (i : SInsn F) : process_insn B i = Err -> may_reject i = true.
  Proof.
    unfold process_insn. destruct (forallb _ _); [|discriminate]. pose proof (transform_err (const_of B) (s_replace F (i2o B) i) (nvars B)) as H.
    destruct (transform (const_of B) (s_replace F (i2o B) i) (nvars B)) as [[acts n'] r]. cbn [snd] in H. destruct (do_acts B acts) as [B1|]; [|discriminate]. destruct r as [o|l|].
    - destruct (Nat.eqb _ _); [|discriminate]. destruct (push_insn B1 o); discriminate.
    - destruct (Nat.eqb _ _); discriminate.
    - intros _. specialize (H eq_refl). destruct i; auto.
  Qed.
  Lemma process_body_err (c : Circuit (SrcI F)) : process_body c = Err -> existsb may_reject (instructions c : list (SInsn F)) = true.
  Proof.
    unfold process_body. destruct (add_input (num_inputs c)) as [B|]; [|discriminate]. cbn [of_opt rbind].
    assert (Hc : forall l (B : @Builder F), rfold process_con B l <> Err).
    { induction l as [|k l IH]; intros B1; cbn [rfold]; [discriminate|]. unfold process_con at 1. destruct (_ <? _); [|discriminate].
      destruct (transform_con _ _) as [[acts n'] x]. destruct (do_acts _ _); [|discriminate]. apply IH. }
    change (list (Insn (SrcI F))) with (list (SInsn F)). generalize (instructions c : list (SInsn F)). intros l. revert B. induction l as [|i l IH]; intros B; cbn [rfold rbind existsb].
    - intros H. destruct (Hc _ _ H).
    - destruct (process_insn B i) as [B1| | |] eqn:E; cbn [rbind]; try discriminate.
      + intros H. rewrite (IH B1 H). apply orb_true_r.
      + intros _. rewrite (process_insn_err _ _ E). auto.
  Qed.
End Reject.
(* (a) for every source circuit that passes validation, hint normalisation either rejects it (only possible if it has a division or
   an unconstrained operation) or answers a well-formed circuit with the same interface; it never panics.
   (b) and with the compiler's built-in hints the answer has every run of the source circuit: same inputs, outputs and verdict. *)
Theorem C07_complete : forall F (rc : RootCircuit (SrcI F)),
  NoDup (keys (circuits rc)) -> validate _ rc = true ->
  (hn_process rc = Err /\ exists id c, In (id, c) (circuits rc) /\ existsb may_reject (instructions c : list (SInsn F)) = true) \/
  exists rc', hn_process rc = Ok rc' /\ wf_root (HnI F) rc' /\
    num_public_inputs rc' = num_public_inputs rc /\ expected_num_output_zeroes rc' = expected_num_output_zeroes rc /\
    (forall id, In id (keys (circuits rc')) <-> In id (keys (circuits rc))) /\
    (forall id c, lookup id (circuits rc) = Some c -> exists c', lookup id (circuits rc') = Some c' /\
       num_inputs c' = num_inputs c /\ length (outputs c') = length (outputs c)) /\
    forall E ins outs verdict,
      (forall h n args outs, impl_builtin_hint h n args = Some outs -> e_hint E (builtin_id h) n args outs) ->
      root_run (SrcI F) E rc ins outs verdict -> root_run (HnI F) E rc' ins outs verdict.
Proof.
  intros F rc Hk Hv. pose proof (validate_wf_root _ rc Hk Hv) as W. pose proof (validate_insns_valid rc Hv) as Hi.
  destruct (hn_process_spec rc W Hi) as [E|[rc' [E Hr]]].
  - left. split; auto. unfold hn_process in E. destruct (root_order_spec (SrcI F) rc (wr_cs _ _ W) (wr_rank _ _ W)) as [q [E1 [N1 [K1 _]]]].
    rewrite E1 in E. cbn [of_opt rbind] in E.
    assert (G : forall order acc, (forall id, In id order -> exists c, lookup id (circuits rc) = Some c) -> process_loop (circuits rc) order acc = Err -> exists id c, lookup id (circuits rc) = Some c /\ process_circuit c = Err).
    { induction order as [|id order IH]; intros acc Ho H; cbn [process_loop] in H; [discriminate|]. destruct (Ho id (or_introl eq_refl)) as [c Hc]. rewrite Hc in H.
      destruct (process_circuit c) as [c'| | |] eqn:Ec; cbn [rbind] in H; try discriminate; eauto. apply (IH _ (fun id1 H1 => Ho id1 (or_intror H1)) H). }
    destruct (process_loop _ _ _) as [cs| | |] eqn:El; try discriminate.
    destruct (G _ _ ltac:(intros id Hin; rewrite <- in_rev in Hin; exact (proj1 (lookup_keys _ _) (proj1 (K1 id) Hin))) El) as [id [c [Hc Ec]]].
    exists id, c. split; [apply lookup_In; auto|]. unfold process_circuit in Ec. destruct (process_body c) as [B| | |] eqn:Eb; cbn [rbind] in Ec; try discriminate.
    + destruct (final_cons B); cbn [of_opt rbind] in Ec; [|discriminate]. destruct (forallb _ _); discriminate.
    + apply process_body_err; auto.
  - right. exists rc'. split; auto. split; [apply Hr|]. split; [apply Hr|]. split; [apply Hr|]. split.
    { intros id. rewrite !lookup_keys. split; intros [c Hc]; [destruct (hr_bwd _ _ Hr id c Hc) as [c' [A _]]|destruct (hr_fwd _ _ Hr id c Hc) as [c' [A _]]]; eauto. }
    split.
    { intros id c Hc. destruct (hr_fwd _ _ Hr id c Hc) as [c' [A B]]. exists c'. split; auto.
      destruct (process_circuit_spec (num_public_inputs rc) c (wf_each _ _ (wr_cs _ _ W) id c Hc) (Hi id c Hc)) as [E1|[c1 [E1 [[_ [L1 [L2 _]]] _]]]]; [congruence|].
      rewrite B in E1. injection E1 as <-. split; auto. }
    intros E0 ins outs b Hh. apply (hn_fwd rc rc' E0 W Hi Hr Hh).
Qed.
Print Assumptions C07_complete.

(* ======================= C08 ======================= *)
(* An instruction whose results the source pins down completely: all but user hints (which an environment answers), unconstrained
   operations and selections, unchecked division, commitments, and bit decompositions too wide for the field *)
Definition pinned {F : Fld} (i : SInsn F) : bool :=
  match i with
  | SDiv _ _ checked => checked
  | SCommit _ | SUnOp _ _ _ | SSelect _ _ _ => false
  | SToBin _ n => (2 ^ Z.of_nat n <=? fmod F)%Z
  | _ => true
  end.
Definition all_insns {F : Fld} (p : SInsn F -> bool) (rc : RootCircuit (SrcI F)) : bool :=
  forallb (fun c : nat * Circuit (SrcI F) => forallb p (instructions (snd c) : list (SInsn F))) (circuits rc).
(* and/or/xor and is_zero: the instructions that mark an expression as boolean without asserting it *)
Definition unmarking {F : Fld} (i : SInsn F) : bool := match i with SBool _ _ _ | SIsZero _ => false | _ => true end.

Section Pinned.
  Context {F : Fld}.
  Lemma rel_pinned (E : Env F) i g outs : pinned i = true -> rel_sem E i g outs -> s_sem F E i g outs.
  Proof.
    destruct i as [l|l|x y ck|x y op|x|l|h l k|c|id l k|x y op|c t e|gt l|x k]; cbn [pinned]; try discriminate; auto.
    - destruct ck; [auto|discriminate].
    - intros Hk [Hl [Hb Hf]]. apply Z.leb_le in Hk. cbn [s_sem s_det].
      assert (Hex : forall l : list F, Forall bool01 l -> exists z, l = map (fun b => (ofZ b : F)) z /\ Forall (fun b => b = 0 \/ b = 1)%Z z /\ length z = length l).
      { induction l as [|b l IH]; intros H; [exists []; auto|]. inversion H as [|? ? Hb0 Hr]; subst. destruct (IH Hr) as [z [-> [Hz Hlen]]].
        destruct Hb0 as [-> | ->]; [exists (0%Z :: z)|exists (1%Z :: z)]; cbn [map length]; rewrite ?ofZ_0, ?ofZ_1; repeat split; auto. }
      destruct (Hex outs Hb) as [z [Ez [Hz Hzl]]]. pose proof (of_bits_range z Hz) as R. rewrite Hzl, Hl in R.
      assert (Hx : g x = ofZ (of_bits z)) by (rewrite <- Hf, Ez; apply from_bits_ofZ).
      destruct (proj2 (C10_succeeds_iff_fits F (g x) k)) as [l Hl'].
      { rewrite Hx, toZ_ofZ, Z.mod_small by lia. lia. }
      rewrite Hl'. f_equal. destruct (C10_low_bits_first F (g x) k l Hl') as [E1 [E2 E3]]. apply (C10_unique F k); auto.
      + subst l. rewrite map_length, seq_length. auto.
      + change (recombine F) with (@from_bits F) in *. congruence.
  Qed.
  Lemma exec_pinned (E : Env F) cs (l : list (Insn (RelI (F := F)))) : forall vals vals' b, forallb pinned (l : list (SInsn F)) = true ->
    (forall i o x n ins outs b, In i l -> s_call F i = Some (o, x, n) -> run RelI E (relax_cs cs) o ins outs b -> run (SrcI F) E cs o ins outs b) ->
    exec RelI E (relax_cs cs) l vals vals' b -> exec (SrcI F) E cs l vals vals' b.
  Proof.
    induction l as [|i l IH]; intros vals vals' b Hp Hs H.
    - apply exec_nil in H. apply (exec_nil (SrcI F)). auto.
    - apply exec_cons in H. destruct H as [outs [b1 [b2 [S [X ->]]]]]. cbn [forallb] in Hp. apply andb_true_iff in Hp. destruct Hp as [Hp1 Hp2].
      apply (exec_cons (SrcI F)). exists outs, b1, b2. split; [|split; auto].
      + unfold step in *. change (@i_call F RelI i) with (s_call F i) in S. change (@i_call F (SrcI F) i) with (s_call F i). destruct (s_call F i) as [[[o x] n]|] eqn:Ec.
        * destruct S as [S1 S2]. split; auto. eapply Hs; eauto. left; auto.
        * destruct S as [S1 [S2 S3]]. split; auto. split; auto. apply rel_pinned; auto.
      + apply IH; auto. intros; eapply Hs; eauto. right; auto.
  Qed.
  Lemma root_pinned (rc : RootCircuit (SrcI F)) E ins outs b : wf_root (SrcI F) rc -> all_insns pinned rc = true ->
    root_run RelI E (relax_root rc) ins outs b -> root_run (SrcI F) E rc ins outs b.
  Proof.
    intros [W [rank R] _] Hp H.
    assert (G : forall id, forall ins outs b, run RelI E (relax_cs (circuits rc)) id ins outs b -> run (SrcI F) E (circuits rc) id ins outs b).
    { apply (rank_ind rank (fun id => forall ins outs b, run RelI E (relax_cs (circuits rc)) id ins outs b -> run (SrcI F) E (circuits rc) id ins outs b)).
      intros id IH ins0 outs0 b0 H0. apply run_iff in H0. destruct H0 as [c [vals [b1 [Hc [X1 [X2 [X3 [-> ->]]]]]]]]. rewrite relax_lookup in Hc. destruct (lookup id (circuits rc)) as [c1|] eqn:Ec; [|discriminate]. injection Hc as <-.
      apply run_iff. exists c1, vals, b1. split; auto. split; [|auto]. cbn [relax instructions] in X1. apply exec_pinned; auto.
      - unfold all_insns in Hp. rewrite forallb_forall in Hp. apply (Hp (id, c1)). apply lookup_In; auto.
      - intros i o x n ins1 outs1 b2 Hin Hcall. apply IH. eapply R; eauto. eapply in_calls; eauto. }
    destruct H as [c [all [b0 [A1 [A2 [A3 A4]]]]]]. cbn [relax_root circuits expected_num_output_zeroes] in *. rewrite relax_lookup in A1. destruct (lookup 0 (circuits rc)) as [c1|] eqn:Ec; [|discriminate]. injection A1 as <-.
    exists c1, all, b0. split; auto.
  Qed.
End Pinned.

(* Which assertions of a circuit survive is decided by a terminating computation on the state the pass ends with: [keptb]. *)
Section Keptb.
  Context {F : Fld}.
  Notation Expr := (list (Term F)).
  Notation Builder := (@Builder F).
  Definition memE (e : Expr) (S : list Expr) : bool := e_eqb e (e_const F f0) || existsb (e_eqb e) S.
  Definition tag_ok (B : Builder) (S : list Expr) (t : nat) : bool :=
    forallb (fun p => match p with
      | (t', true, y) => if Nat.eqb t' t then match nth_error (b_exprs B) y with Some e => memE e S | None => true end else true
      | _ => true end) (b_log B).
  Definition grow1 (B : Builder) (S : list Expr) : list Expr :=
    flat_map (fun p => match p with
      | (t, false, x) => if tag_ok B S t then match nth_error (b_exprs B) x with Some e => [e] | None => [] end else []
      | _ => [] end) (b_log B).
  Fixpoint grow (B : Builder) (n : nat) (S : list Expr) : list Expr :=
    match n with O => S | Datatypes.S n => grow B n (grow1 B S ++ S) end.
  Definition start (B : Builder) : list Expr := filter (fun e => match eget e (b_cons B) with Some Asserted => true | _ => false end) (map fst (b_cons B)).
  Definition keptb (B : Builder) : bool :=
    let S := grow B (length (b_log B)) (start B) in
    forallb (fun p => match p with
      | (_, true, y) => match nth_error (b_exprs B) y with Some e => memE e S | None => true end
      | _ => true end) (b_log B).
  Lemma memE_spec (B : Builder) e S : (forall e, In e S -> enforced B e) -> memE e S = true -> enforced B e.
  Proof.
    intros H. unfold memE. rewrite orb_true_iff. intros [H1|H1].
    - apply e_eqb_spec in H1. subst. apply enf_zero.
    - apply existsb_exists in H1. destruct H1 as [e' [H1 H2]]. apply e_eqb_spec in H2. subst. auto.
  Qed.
  Lemma keptb_sound (B : Builder) : keptb B = true -> kept B.
  Proof.
    assert (G : forall n S, (forall e, In e S -> enforced B e) -> forall e, In e (grow B n S) -> enforced B e).
    { induction n as [|n IH]; intros S HS; cbn [grow]; auto. apply IH. intros e He. apply in_app_iff in He. destruct He as [He|He]; auto.
      unfold grow1 in He. apply in_flat_map in He. destruct He as [[[t [|]] x] [Hp He]]; [contradiction|]. destruct (tag_ok B S t) eqn:Et; [|contradiction].
      destruct (nth_error (b_exprs B) x) as [e'|] eqn:Ex; [|contradiction]. destruct He as [<-|[]]. eapply enf_ma; eauto. intros y ey Hy Hey.
      unfold tag_ok in Et. rewrite forallb_forall in Et. specialize (Et _ Hy). cbn in Et. rewrite Nat.eqb_refl, Hey in Et. eapply memE_spec; eauto. }
    assert (G0 : forall e, In e (start B) -> enforced B e).
    { intros e He. unfold start in He. apply filter_In in He. destruct He as [_ He]. apply enf_as. destruct (eget e (b_cons B)) as [[|]|]; try discriminate; auto. }
    unfold keptb. rewrite forallb_forall. intros H t x e Hin He. specialize (H _ Hin). cbn in H. rewrite He in H. eapply memE_spec; [|exact H]. apply G. exact G0.
  Qed.
  Definition root_keptb (rc : RootCircuit (SrcI F)) : bool :=
    forallb (fun c => match process_body (snd c) with Ok B => keptb B | _ => true end) (circuits rc).
  Lemma root_keptb_sound rc : root_keptb rc = true -> root_kept rc.
  Proof.
    unfold root_keptb. rewrite forallb_forall. intros H id c B Hc HB. apply lookup_In in Hc. specialize (H _ Hc). cbn [snd] in H. rewrite HB in H. apply keptb_sound; auto.
  Qed.
  Lemma unmarking_kept (rc : RootCircuit (SrcI F)) : wf_root _ rc -> insns_valid rc -> all_insns unmarking rc = true -> root_kept rc.
  Proof.
    intros W Hi H id c B Hc HB. destruct (process_body_spec (num_public_inputs rc) c (wf_each _ _ (wr_cs _ _ W) id c Hc) (Hi id c Hc)) as [E|[B' [E J]]]; [congruence|].
    rewrite HB in E. injection E as <-. apply (nomark_kept _ _ _ _ J). unfold all_insns in H. rewrite forallb_forall in H. specialize (H _ (lookup_In _ _ _ Hc)). cbn [snd] in H.
    rewrite forallb_forall in H. apply Forall_forall. intros i Hin. specialize (H i Hin). destruct i; auto; discriminate.
  Qed.
End Keptb.

(* (a) For every circuit without and/or/xor and is_zero: whatever values the hints have, a satisfied normalised circuit means the
   source circuit is satisfied on the same input with the same outputs, each instruction meaning what it promises against an
   adversary ([rel_sem]: arbitrary results for unconstrained operations, any q with q*y = x for an unchecked division, ...) *)
Theorem C08_sound_without_marks : forall F (rc : RootCircuit (SrcI F)) rc',
  NoDup (keys (circuits rc)) -> validate _ rc = true -> hn_process rc = Ok rc' -> all_insns unmarking rc = true ->
  forall E ins outs, root_run (HnI F) E rc' ins outs true -> root_run RelI E (relax_root rc) ins outs true.
Proof.
  intros F rc rc' Hk Hv Hp Hu E ins outs H. pose proof (validate_wf_root _ rc Hk Hv) as W. pose proof (validate_insns_valid rc Hv) as Hi.
  destruct (hn_process_spec rc W Hi) as [E0|[rc1 [E0 Hr]]]; [congruence|]. rewrite Hp in E0. injection E0 as <-.
  eapply (hn_bwd rc rc' E W Hi Hr); eauto. apply unmarking_kept; auto.
Qed.
Print Assumptions C08_sound_without_marks.
(* (b) the same for every circuit, with and/or/xor and is_zero, that the check [root_keptb] accepts: no assertion is lost *)
Theorem C08_sound : forall F (rc : RootCircuit (SrcI F)) rc',
  NoDup (keys (circuits rc)) -> validate _ rc = true -> hn_process rc = Ok rc' -> root_keptb rc = true ->
  forall E ins outs, root_run (HnI F) E rc' ins outs true -> root_run RelI E (relax_root rc) ins outs true.
Proof.
  intros F rc rc' Hk Hv Hp Hu E ins outs H. pose proof (validate_wf_root _ rc Hk Hv) as W. pose proof (validate_insns_valid rc Hv) as Hi.
  destruct (hn_process_spec rc W Hi) as [E0|[rc1 [E0 Hr]]]; [congruence|]. rewrite Hp in E0. injection E0 as <-.
  eapply (hn_bwd rc rc' E W Hi Hr); eauto. apply root_keptb_sound; auto.
Qed.
Print Assumptions C08_sound.
(* (c) if moreover every instruction is pinned down by the source semantics, the source circuit itself is satisfied *)
Theorem C08_sound_pinned : forall F (rc : RootCircuit (SrcI F)) rc',
  NoDup (keys (circuits rc)) -> validate _ rc = true -> hn_process rc = Ok rc' ->
  all_insns unmarking rc = true \/ root_keptb rc = true -> all_insns pinned rc = true ->
  forall E ins outs, root_run (HnI F) E rc' ins outs true -> root_run (SrcI F) E rc ins outs true.
Proof.
  intros F rc rc' Hk Hv Hp Hu Hn E ins outs H. apply root_pinned; auto; [apply validate_wf_root; auto|].
  destruct Hu as [Hu|Hu]; [eapply C08_sound_without_marks|eapply C08_sound]; eauto.
Qed.
Print Assumptions C08_sound_pinned.

(* ---------- concrete circuits: hints answered by the compiler's own implementations ---------- *)
Definition oh7 : Oracle F7 := {| o_pub := fun _ => fz 0; o_gate := fun _ _ => fz 0;
  o_hint := fun h n args => match builtin_of h with Some b => impl_builtin_hint b n args | None => None end; o_rnd := fun _ => fz 1 |}.
Lemma oh7_honest : forall h n args outs, impl_builtin_hint h n args = Some outs -> e_hint (env_of oh7) (builtin_id h) n args outs.
Proof.
  intros h n args outs H. cbn [env_of e_hint oh7 o_hint]. replace (builtin_of (builtin_id h)) with (Some h) by (destruct h; vm_compute; reflexivity). exact H.
Qed.
Definition hn_eval (rc : RootCircuit (SrcI F7)) (ins : list Z) : Res (list Z * bool) :=
  match hn_process rc with Ok rc' => resz (eval_root _ oh7 rc' (map fz ins)) | _ => Panic end.
Lemma hn_eval_run rc ins outs b : hn_eval rc ins = Ok (outs, b) -> exists rc', hn_process rc = Ok rc' /\ root_run (HnI F7) (env_of oh7) rc' (map fz ins) (map fz outs) b.
Proof.
  unfold hn_eval. destruct (hn_process rc) as [rc'| | |]; try discriminate. intros H. exists rc'. split; auto.
  apply (C39_evaluator F7 HintNormalized). apply resz_ok; auto.
Qed.
Definition c08_rc : RootCircuit (SrcI F7) :=
  {| num_public_inputs := 0; expected_num_output_zeroes := 0;
     circuits := [(0, {| instructions := [SBool 1 2 BAnd; SBool 4 3 BOr; SIsZero 5; SCall 1 [6; 2] 2; SDiv 7 8 true] : list (Insn (SrcI F7));
                         constraints := [(TBool, 4); (TNonZero, 8)] : list (Con (SrcI F7)); outputs := [9; 5]; num_inputs := 3 |});
       (1, {| instructions := [SToBin 2 2; SLin {| lc_terms := [(1, fz 1); (2, fz 2)]; lc_const := fz 3 |}; SMul [5; 3]] : list (Insn (SrcI F7));
                         constraints := [(TZero, 4)] : list (Con (SrcI F7)); outputs := [5; 3]; num_inputs := 2 |})] |}.
Example C07_instance : NoDup (keys (circuits c08_rc)) /\ validate _ c08_rc = true /\
  resz (eval_root _ oh7 c08_rc (map fz [1; 1; 0]%Z)) = Ok ([5; 1]%Z, true) /\ hn_eval c08_rc [1; 1; 0]%Z = Ok ([5; 1]%Z, true) /\
  (* an operand of [and] that is not a bit: the source has no run, the normalised circuit is not satisfied *)
  resz (eval_root _ oh7 c08_rc (map fz [2; 1; 0]%Z)) = Err /\ hn_eval c08_rc [2; 1; 0]%Z = Ok ([5; 2]%Z, false).
Proof. split; [repeat constructor; cbn; intuition discriminate|]. repeat split; vm_compute; reflexivity. Qed.
Example C08_instance : root_keptb c08_rc = true /\ all_insns pinned c08_rc = true /\ all_insns unmarking c08_rc = false /\
  exists rc' outs, hn_process c08_rc = Ok rc' /\ root_run (HnI F7) (env_of oh7) rc' (map fz [1; 1; 0]%Z) outs true.
Proof.
  split; [vm_compute; reflexivity|]. split; [vm_compute; reflexivity|]. split; [vm_compute; reflexivity|].
  destruct (hn_eval_run c08_rc [1; 1; 0]%Z [5; 1]%Z true) as [rc' [A B]]; [vm_compute; reflexivity|]. eauto.
Qed.

(* ======================= C09 ======================= *)
(* (a) Where the check of C08 (or the absence of and/or/xor/is_zero) applies, a satisfied normalised circuit comes from values of the
   source variables in which every explicitly asserted bit, and every operand of and/or/xor, of the root circuit is 0 or 1 *)
Theorem C09_enforced : forall F (rc : RootCircuit (SrcI F)) rc' c0,
  NoDup (keys (circuits rc)) -> validate _ rc = true -> hn_process rc = Ok rc' -> lookup 0 (circuits rc) = Some c0 ->
  all_insns unmarking rc = true \/ root_keptb rc = true ->
  forall E ins outs, root_run (HnI F) E rc' ins outs true ->
  exists vals, exec RelI E (relax_cs (circuits rc)) (instructions c0) (f0 :: ins) vals true /\
    (forall x, In (TBool, x) (constraints c0 : list (ConType * nat)) -> getv vals x = f0 \/ getv vals x = f1) /\
    (forall pre x y op post, (instructions c0 : list (SInsn F)) = pre ++ SBool x y op :: post ->
       (getv vals x = f0 \/ getv vals x = f1) /\ (getv vals y = f0 \/ getv vals y = f1)).
Proof.
  intros F rc rc' c0 Hk Hv Hp Hc Hu E ins outs H.
  assert (G : root_run RelI E (relax_root rc) ins outs true) by (destruct Hu as [Hu|Hu]; [eapply C08_sound_without_marks|eapply C08_sound]; eauto).
  destruct G as [c [all [b [A1 [A2 [A3 [A4 [A5 A6]]]]]]]]. cbn [relax_root circuits] in A1, A3. rewrite relax_lookup, Hc in A1. injection A1 as <-.
  symmetry in A6. apply andb_true_iff in A6. destruct A6 as [-> _]. apply run_iff in A3. destruct A3 as [c [vals [b0 [B1 [B2 [B3 [B4 [B5 B6]]]]]]]]. rewrite relax_lookup, Hc in B1. injection B1 as <-.
  symmetry in B6. apply andb_true_iff in B6. destruct B6 as [-> B6]. exists vals. split; auto. split.
  - intros x Hx. cbn [relax constraints] in B6. rewrite forallb_forall in B6. specialize (B6 _ Hx). cbn in B6. apply boolean_spec in B6. exact B6.
  - intros pre x y op post Hs. cbn [relax instructions] in B2. change (list (Insn RelI)) with (list (SInsn F)) in B2. change (list (Insn (SrcI F))) with (list (SInsn F)) in B2. rewrite Hs in B2.
    apply (exec_app RelI) in B2. destruct B2 as [mid [b1 [b2 [X1 [X2 _]]]]]. apply exec_cons in X2. destruct X2 as [o [b3 [b4 [S [X2 _]]]]].
    unfold step in S. cbn [RelI i_call s_call] in S. destruct S as [Hin [S _]]. change (rel_sem E (SBool x y op) (getv mid) o) in S. change (Forall (inb mid) [x; y]) in Hin. cbn [rel_sem s_sem s_det] in S.
    apply obind_some in S. destruct S as [v [S _]]. unfold bool_eval in S. destruct (boolean F (getv mid x)) eqn:Ex; [|discriminate]. destruct (boolean F (getv mid y)) eqn:Ey; [|discriminate].
    destruct (exec_prefix RelI _ _ _ _ _ _ X2) as [w ->]. inversion Hin as [|? ? I1 I2]; subst. inversion I2 as [|? ? I3 _]; subst. unfold inb in *.
    apply boolean_spec in Ex. apply boolean_spec in Ey. rewrite <- !app_assoc, !getv_app1 by lia. auto.
Qed.
Print Assumptions C09_enforced.
(* (b) Without that proviso the claim is false.  A circuit that asserts its input x to be a bit, and also computes [x and 1], is
   normalised to a circuit satisfied by x = 2: the product x * 1 is x itself, so marking the product as a bit drops the two assertions
   about x.  The source circuit has no run on that input, even against an adversary. *)
Definition c09_rc : RootCircuit (SrcI F7) :=
  {| num_public_inputs := 0; expected_num_output_zeroes := 0;
     circuits := [(0, {| instructions := [SConst (CConst (fz 1)); SBool 1 2 BAnd] : list (Insn (SrcI F7));
                         constraints := [(TBool, 1)] : list (Con (SrcI F7)); outputs := [3]; num_inputs := 1 |})] |}.
Theorem C09_refuted : exists (rc : RootCircuit (SrcI F7)) rc' ins outs,
  NoDup (keys (circuits rc)) /\ validate _ rc = true /\ hn_process rc = Ok rc' /\
  root_run (HnI F7) (env_of oh7) rc' ins outs true /\
  (forall E outs b, ~ root_run RelI E (relax_root rc) ins outs b) /\ (forall E outs b, ~ root_run (SrcI F7) E rc ins outs b).
Proof.
  destruct (hn_eval_run c09_rc [2]%Z [2]%Z true) as [rc' [A B]]; [vm_compute; reflexivity|].
  exists c09_rc, rc', (map fz [2]%Z), (map fz [2]%Z). split; [repeat constructor; cbn; intuition discriminate|]. split; [vm_compute; reflexivity|]. split; auto. split; auto.
  assert (G : forall E outs b, ~ root_run RelI E (relax_root c09_rc) (map fz [2]%Z) outs b).
  { intros E outs b [c [all [b0 [K1 [_ [K2 _]]]]]]. apply run_iff in K2. destruct K2 as [c' [vals [b1 [K3 [K4 _]]]]]. injection K3 as <-.
    cbn [relax_cs relax_root relax instructions circuits c09_rc map fst snd] in K4. apply exec_cons in K4. destruct K4 as [o1 [b2 [b3 [S1 [K4 _]]]]].
    apply exec_cons in K4. destruct K4 as [o2 [b4 [b5 [S2 _]]]]. unfold step in S1, S2. cbn [RelI i_call s_call] in S1, S2. destruct S1 as [_ [S1 _]]. destruct S2 as [_ [S2 _]].
    change (rel_sem E (SBool 1 2 BAnd) (getv ((f0 :: map fz [2]%Z) ++ o1)) o2) in S2. cbn [rel_sem s_sem s_det] in S2. apply obind_some in S2. destruct S2 as [v [S2 _]]. unfold bool_eval in S2.
    rewrite getv_app1 in S2 by (cbn; lia).
    assert (Hb : boolean F7 (getv (f0 :: map fz [2]%Z) 1) = false) by (vm_compute; reflexivity). rewrite Hb in S2. discriminate. }
  split; auto. intros E outs b H. apply (G E outs b).
  (* a source run would be a run of the relaxed reading *)
  destruct H as [c [all [b0 [K1 [_ [K2 _]]]]]]. exfalso. apply run_iff in K2. destruct K2 as [c' [vals [b1 [K3 [K4 _]]]]]. injection K3 as <-.
  cbn [instructions circuits c09_rc] in K4. apply exec_cons in K4. destruct K4 as [o1 [b2 [b3 [S1 [K4 _]]]]].
  apply exec_cons in K4. destruct K4 as [o2 [b4 [b5 [S2 _]]]]. unfold step in S1, S2. cbn [SrcI i_call s_call] in S1, S2. destruct S2 as [_ [S2 _]].
  change (s_sem F7 E (SBool 1 2 BAnd) (getv ((f0 :: map fz [2]%Z) ++ o1)) o2) in S2. cbn [s_sem s_det] in S2. apply obind_some in S2. destruct S2 as [v [S2 _]]. unfold bool_eval in S2.
  rewrite getv_app1 in S2 by (cbn; lia).
  assert (Hb : boolean F7 (getv (f0 :: map fz [2]%Z) 1) = false) by (vm_compute; reflexivity). rewrite Hb in S2. discriminate.
Qed.
Print Assumptions C09_refuted.
Example C09_instance : root_keptb c08_rc = true /\ root_keptb c09_rc = false /\
  (exists c0, lookup 0 (circuits c08_rc) = Some c0 /\ In (TBool, 4) (constraints c0 : list (ConType * nat))).
Proof. split; [vm_compute; reflexivity|]. split; [vm_compute; reflexivity|]. eexists. split; [reflexivity|]. left; auto. Qed.
