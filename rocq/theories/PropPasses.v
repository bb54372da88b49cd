(* Property theorems C04, C05. *)
From Verif Require Import Prelude Field Zp InputMapping Expr Topo Hints Ir IrFacts IrInst Sim RemoveUnreachable ReassignDup PropIr.

(* ======================= C04 ======================= *)
(* EMPTY is usize::MAX, the code of "unmapped" in an input mapping (input_mapping.rs:6) *)
(* (a) removal always succeeds on a validated circuit, keeps sizes, and every run of the original on [ins] is a run of the
   result on the mapped inputs: same outputs, same verdict *)
Theorem C04_completeness : forall F s EMPTY (rc : RootCircuit (irc_of F s)) c0,
  NoDup (keys (circuits rc)) -> validate _ rc = true ->
  lookup 0 (circuits rc) = Some c0 -> (num_inputs c0 <= EMPTY)%nat ->
  exists rc' im, remove_unreachable _ EMPTY rc = Some (rc', im) /\
    num_public_inputs rc' = num_public_inputs rc /\ expected_num_output_zeroes rc' = expected_num_output_zeroes rc /\
    forall E ins outs verdict, root_run _ E rc ins outs verdict ->
      exists ins', map_inputs EMPTY f0 im ins = Some ins' /\ root_run _ E rc' ins' outs verdict.
Proof.
  intros F s EMPTY rc c0 Hk Hv Hc0 HE.
  destruct (remove_unreachable_spec _ (irc_laws F s) EMPTY rc (validate_wf_root _ rc Hk Hv)) as [rc' [im [H1 [_ [H2 [H3 [_ H4]]]]]]].
  exists rc', im. split; auto. split; auto. split; auto. intros E ins outs b Hr.
  destruct (root_run_len _ _ _ _ _ _ Hr) as [c1 [Hc1 Hl]]. rewrite Hc0 in Hc1. injection Hc1 as <-.
  destruct (H4 c0 Hc0) as [_ [_ [_ [_ H5]]]]. destruct (H5 ins Hl HE) as [ins' [H6 H7]]. exists ins'. split; auto. apply H7; auto.
Qed.
Print Assumptions C04_completeness.

(* What the environment must provide for the instructions of a stage to have an outcome whatever their operands: random
   coefficients can be drawn, and (hint-normalised circuits) every hint answers. *)
Definition env_answers {F} (s : Stage) (E : Env F) : Prop :=
  (exists r, e_rnd E r) /\
  match s with HintNormalized => forall h n args, exists outs, length outs = n /\ e_hint E h n args outs | _ => True end.
Lemma stage_total F s E (rc : RootCircuit (irc_of F s)) : s <> Source -> env_answers s E -> total _ E (circuits rc).
Proof.
  intros Hs [[r Hr] Hh] id c i g _ _ Ec.
  assert (Hcst : forall k : Coef F, exists outs, const_sem F E k outs).
  { intros k. destruct k as [v| |p]; [exists [v], v|exists [r], r|exists [e_pub E p], (e_pub E p)]; split; cbn; auto. }
  assert (Hexp : forall e : Expression F, exists outs v, outs = [v] /\ expr_sem F E g e v).
  { intros e. assert (exists v, expr_sem F E g e v) as [v Hv]; [|eauto].
    induction e as [|t e [v [vs [H1 H2]]]]; [exists f0, []; split; [constructor|reflexivity]|].
    assert (exists u, term_sem F E g t u) as [u Hu].
    { unfold term_sem. destruct (vars t); eauto. }
    exists (fsum F (u :: vs)), (u :: vs). split; auto. }
  destruct s; [contradiction| | | |]; cbn in i, Ec |- *; destruct i; cbn in *; try discriminate; eauto.
Qed.

(* (b) at every stage after the source the converse holds too: the result accepts nothing the original does not *)
Theorem C04_soundness : forall F s EMPTY (rc : RootCircuit (irc_of F s)) c0,
  s <> Source -> NoDup (keys (circuits rc)) -> validate _ rc = true ->
  lookup 0 (circuits rc) = Some c0 -> (num_inputs c0 <= EMPTY)%nat ->
  exists rc' im, remove_unreachable _ EMPTY rc = Some (rc', im) /\
    forall ins, length ins = num_inputs c0 -> exists ins', map_inputs EMPTY f0 im ins = Some ins' /\
      forall E outs verdict, env_answers s E ->
        (root_run _ E rc' ins' outs verdict <-> root_run _ E rc ins outs verdict).
Proof.
  intros F s EMPTY rc c0 Hs Hk Hv Hc0 HE.
  destruct (remove_unreachable_spec _ (irc_laws F s) EMPTY rc (validate_wf_root _ rc Hk Hv)) as [rc' [im [H1 [_ [_ [_ [_ H4]]]]]]].
  exists rc', im. split; auto. intros ins Hl. destruct (H4 c0 Hc0) as [_ [_ [_ [_ H5]]]]. destruct (H5 ins Hl HE) as [ins' [H6 H7]].
  exists ins'. split; auto. intros E outs b HA. destruct (H7 E outs b) as [H8 H9]. split; auto. apply H9. apply stage_total; auto.
Qed.
Print Assumptions C04_soundness.

Lemma map_inputs_agree {T} EMPTY (d : T) im l1 l2 : length l1 = length (mapping im) -> length l2 = length (mapping im) ->
  (forall i, nth i (mapping im) EMPTY <> EMPTY -> nth i l1 d = nth i l2 d) -> map_inputs EMPTY d im l1 = map_inputs EMPTY d im l2.
Proof.
  intros L1 L2 Hag. unfold map_inputs. rewrite L1, L2. destruct (Nat.eqb _ _); auto.
  generalize (repeat d (next_size im)). revert l1 l2 L1 L2 Hag. induction (mapping im) as [|m ms IH]; intros l1 l2 L1 L2 Hag acc.
  - destruct l1, l2; try discriminate. auto.
  - destruct l1 as [|x1 l1], l2 as [|x2 l2]; try discriminate. cbn [map_inputs_loop].
    assert (Hrec : forall acc, map_inputs_loop EMPTY ms l1 acc = map_inputs_loop EMPTY ms l2 acc).
    { apply IH; try (cbn in *; congruence). intros i Hi. apply (Hag (S i)); auto. }
    destruct (Nat.eqb_spec m EMPTY) as [|Hne]; auto. pose proof (Hag 0%nat Hne) as Hx. cbn in Hx. subst x2.
    destruct (vset _ _ _); cbn [obind]; auto.
Qed.
(* (c) an input that the mapping drops influences neither the outputs nor the verdict of the original *)
Theorem C04_dropped_inputs_do_not_matter : forall F s EMPTY (rc : RootCircuit (irc_of F s)) c0,
  s <> Source -> NoDup (keys (circuits rc)) -> validate _ rc = true ->
  lookup 0 (circuits rc) = Some c0 -> (num_inputs c0 <= EMPTY)%nat ->
  exists rc' im, remove_unreachable _ EMPTY rc = Some (rc', im) /\ length (mapping im) = num_inputs c0 /\
    forall E ins1 ins2 outs verdict, env_answers s E -> length ins1 = num_inputs c0 -> length ins2 = num_inputs c0 ->
      (forall i, nth i (mapping im) EMPTY <> EMPTY -> nth i ins1 f0 = nth i ins2 f0) ->
      (root_run _ E rc ins1 outs verdict <-> root_run _ E rc ins2 outs verdict).
Proof.
  intros F s EMPTY rc c0 Hs Hk Hv Hc0 HE.
  destruct (remove_unreachable_spec _ (irc_laws F s) EMPTY rc (validate_wf_root _ rc Hk Hv)) as [rc' [im [H1 [_ [_ [_ [_ H4]]]]]]].
  exists rc', im. split; auto. destruct (H4 c0 Hc0) as [_ [Hcs [Hle [[mask [Hm1 [Hm2 Hm3]]] H5]]]]. split; [exact Hcs|].
  intros E ins1 ins2 outs b HA L1 L2 Hag.
  destruct (H5 ins1 L1 HE) as [i1 [A1 A2]]. destruct (H5 ins2 L2 HE) as [i2 [B1 B2]].
  assert (i1 = i2) as <-.
  { assert (M : map_inputs EMPTY f0 im ins1 = map_inputs EMPTY f0 im ins2); [|congruence].
    apply map_inputs_agree; unfold cur_size in Hcs; congruence || auto. }
  destruct (A2 E outs b) as [A3 A4]. destruct (B2 E outs b) as [B3 B4].
  pose proof (stage_total F s E rc Hs HA) as T. split; intros H; auto.
Qed.
Print Assumptions C04_dropped_inputs_do_not_matter.

(* (d) at the source stage the verdict is not preserved: an unused instruction with an implicit check is dropped with its
   check.  y is never tested after removal. *)
Definition c04_src : RootCircuit (irc_of F7 Source) :=
  {| num_public_inputs := 0; expected_num_output_zeroes := 0;
     circuits := [(0, {| instructions := [SDiv 1 2 true; SMul [1; 2]] : list (Insn (irc_of F7 Source));
                         constraints := []; outputs := [4]; num_inputs := 2 |})] |}.
Definition e7 : Env F7 := env_of o7.
Theorem C04_source_soundness_refuted : exists (rc rc' : RootCircuit (irc_of F7 Source)) im ins ins' outs,
  NoDup (keys (circuits rc)) /\ validate _ rc = true /\ remove_unreachable _ 99 rc = Some (rc', im) /\
  map_inputs 99 f0 im ins = Some ins' /\
  root_run _ e7 rc' ins' outs true /\ ~ exists outs b, root_run _ e7 rc ins outs b.
Proof.
  assert (exists rc' im, remove_unreachable _ 99 c04_src = Some (rc', im) /\ map_inputs 99 (@f0 F7) im [f1; f0] = Some [f1; f0]
     /\ circuits rc' = [(0, {| instructions := [SMul [1; 2]] : list (Insn (irc_of F7 Source)); constraints := []; outputs := [3]; num_inputs := 2 |})]
     /\ expected_num_output_zeroes rc' = 0) as [rc' [im [H1 [H2 [H3 H4]]]]].
  { eexists _, _. split; [reflexivity|]. split; reflexivity || (split; reflexivity). }
  exists c04_src, rc', im, [f1; f0], [f1; f0], [f0]. split; [repeat constructor; auto; intros []|]. split; [reflexivity|].
  split; auto. split; auto. split.
  - unfold root_run. rewrite H3, H4. eexists _, [f0], true. split; [reflexivity|]. split; [reflexivity|]. split; [|split; [apply Nat.le_0_l|split; reflexivity]].
    apply run_iff. eexists _, [f0; f1; f0; f0], true. split; [reflexivity|]. cbn [instructions constraints outputs].
    split; [|repeat split; auto; repeat constructor].
    eapply ESem; [reflexivity|repeat constructor| |].
    + cbn. unfold mul_eval. cbn. reflexivity.
    + match goal with |- exec _ _ _ _ ?a ?b _ => replace a with b; [constructor|] end. cbn. repeat f_equal. all: try (apply toZ_inj; reflexivity).
  - intros [outs [b [c [all [b0 [K1 [_ [K2 _]]]]]]]]. apply run_iff in K2. destruct K2 as [c' [vals [b1 [K3 [K4 _]]]]].
    injection K3 as <-. cbn [instructions] in K4. apply exec_cons in K4. destruct K4 as [o [b2 [b3 [K4 _]]]].
    destruct K4 as [_ [K4 _]]. cbn in K4. discriminate.
Qed.
Print Assumptions C04_source_soundness_refuted.

(* non-vacuity of (a)-(c): a hint-normalised root with a constrained call, a dropped input and a dropped instruction *)
Definition c04_hn : RootCircuit (irc_of F7 HintNormalized) :=
  {| num_public_inputs := 0; expected_num_output_zeroes := 0;
     circuits := [(0, {| instructions := [HCall 1 [1; 3] 2; HMul [2; 4]; HMul [4; 4]] : list (Insn (irc_of F7 HintNormalized));
                         constraints := []; outputs := [7]; num_inputs := 3 |});
                  (1, {| instructions := [HLin {| lc_terms := [(1, fz 1); (2, fz 6)]; lc_const := fz 0 |}; HMul [1; 1]] : list (Insn (irc_of F7 HintNormalized));
                         constraints := [3 : Con (irc_of F7 HintNormalized)]; outputs := [4; 1]; num_inputs := 2 |})] |}.
Example C04_instance : NoDup (keys (circuits c04_hn)) /\ validate _ c04_hn = true /\
  (exists rc' im, remove_unreachable _ 99 c04_hn = Some (rc', im) /\ mapping im = [0; 99; 1] /\
     map (fun p => length (instructions (snd p))) (circuits rc') = [2; 2]) /\
  resz (eval_root _ o7 c04_hn [fz 3; fz 5; fz 3]) = Ok ([4]%Z, true) /\
  resz (eval_root _ o7 c04_hn [fz 3; fz 5; fz 2]) = Ok ([4]%Z, false) /\
  env_answers (F := F7) HintNormalized {| e_pub := fun _ => fz 0; e_gate := fun _ _ => fz 0; e_hint := fun _ n _ outs => length outs = n; e_rnd := fun _ => True |}.
Proof.
  split; [repeat constructor; cbn; intuition discriminate|]. split; [vm_compute; reflexivity|].
  split; [eexists _, _; repeat split; vm_compute; reflexivity|].
  split; [vm_compute; reflexivity|]. split; [vm_compute; reflexivity|].
  split; [exists (fz 0); exact I|]. intros h n args. exists (repeat (fz 0) n). split; apply repeat_length.
Qed.

(* ======================= C05 ======================= *)
Theorem C05_reassign_duplicates : forall F s force (rc : RootCircuit (irc_of F s)),
  NoDup (keys (circuits rc)) -> validate _ rc = true ->
  exists rc', reassign_duplicates _ force rc = Some rc' /\
    (* sizes *)
    num_public_inputs rc' = num_public_inputs rc /\ expected_num_output_zeroes rc' = expected_num_output_zeroes rc /\
    (forall id, In id (keys (circuits rc')) <-> In id (keys (circuits rc))) /\
    (forall c0, lookup 0 (circuits rc) = Some c0 -> exists c0', lookup 0 (circuits rc') = Some c0' /\
       num_inputs c0' = num_inputs c0 /\ length (outputs c0') = length (outputs c0)) /\
    (* no output is listed twice: in the root, and with [force] in any circuit *)
    (forall id c', lookup id (circuits rc') = Some c' -> id = 0 \/ force = true -> NoDup (outputs c')) /\
    (* same runs *)
    (forall E ins outs verdict, root_run _ E rc ins outs verdict <-> root_run _ E rc' ins outs verdict).
Proof.
  intros F s force rc Hk Hv. destruct (reassign_duplicates_spec _ (irc_laws F s) force rc (validate_wf_root _ rc Hk Hv)) as [rc' [H1 [_ [H2 [H3 [H4 [H5 [H6 H7]]]]]]]].
  exists rc'. split; auto. split; auto. split; auto. split; auto. split.
  { intros c0 Hc0. destruct (H5 c0 Hc0) as [c0' [A [B C]]]. eauto. }
  split; auto. intros id c' Hc' Hf. apply (H6 id c' Hc'). apply orb_true_iff. rewrite Nat.eqb_eq. auto.
Qed.
Print Assumptions C05_reassign_duplicates.
Definition c05_rc : RootCircuit (irc_of F7 HintNormalized) :=
  {| num_public_inputs := 0; expected_num_output_zeroes := 0;
     circuits := [(0, {| instructions := [HCall 1 [1; 2] 3; HMul [4; 5]] : list (Insn (irc_of F7 HintNormalized));
                         constraints := []; outputs := [6; 5; 6]; num_inputs := 2 |});
                  (1, {| instructions := [HMul [1; 2]] : list (Insn (irc_of F7 HintNormalized));
                         constraints := []; outputs := [3; 1; 3]; num_inputs := 2 |})] |}.
Example C05_instance : NoDup (keys (circuits c05_rc)) /\ validate _ c05_rc = true /\
  option_map (fun r => map (fun p => (fst p, length (instructions (snd p)), outputs (snd p))) (circuits r)) (reassign_duplicates _ false c05_rc)
    = Some [(0, 3, [6; 3; 7]); (1, 1, [3; 1; 3])] /\
  resz (eval_root _ o7 c05_rc [fz 3; fz 5]) = Ok ([3; 1; 3]%Z, true).
Proof. split; [repeat constructor; cbn; intuition discriminate|]. repeat split; vm_compute; reflexivity. Qed.
