(* Property theorems C12, C13, C25, C26, C40. *)
From Verif Require Import Prelude Field Zp InputMapping Expr Topo Hints Ir IrFacts IrInst Sim RemoveUnreachable ReassignDup HintExport AddBack Solver Witness FixedPoint PropIr PropPasses.

(* what the solver can execute: no random constant, no custom gate, public inputs that are given *)
Definition all_solvable {F} (npub : nat) (rc : RootCircuit (HnI F)) : Prop :=
  forall id c i, lookup id (circuits rc) = Some c -> In i (instructions c) -> solvable npub i.
Lemma solvable_replace {F} n f (i : HInsn F) : solvable n i -> solvable n (h_replace F f i).
Proof. destruct i as [l|[|x l]|h l k|c|id l k|g l]; cbn; auto. Qed.
Lemma ex_insns_solvable {F} n sz (is : list (HInsn F)) : forall vm new own sub r, ex_insns sz is vm new own sub = Some r ->
  (forall i, In i is -> solvable n i) -> forall i, In i (fst (fst (fst r))) -> solvable n i.
Proof.
  induction is as [|i is IH]; intros vm new own sub r H Hs j Hj; cbn [ex_insns] in H.
  - injection H as <-. destruct Hj.
  - apply obind_some in H. destruct H as [[[[is' vm2] own2] sub2] [H1 H2]]. apply obind_some in H2. destruct H2 as [j' [H2 H3]]. injection H3 as <-. cbn [fst] in Hj.
    destruct Hj as [<-|Hj].
    + pose proof (solvable_replace n (vmap (vm ++ seq (S new) (h_nout F i))) i (Hs i (or_introl eq_refl))) as Hr.
      destruct (h_replace F (vmap (vm ++ seq (S new) (h_nout F i))) i); cbn [ex_call] in H2; try (injection H2 as <-; exact Hr).
      apply obind_some in H2. destruct H2 as [p [_ H2]]. injection H2 as <-. exact Logic.I.
    + assert (Hrec : forall vm' new' own' sub', ex_insns sz is vm' new' own' sub' = Some (is', vm2, own2, sub2) -> solvable n j).
      { intros vm' new' own' sub' H. exact (IH _ _ _ _ _ H (fun x Hx => Hs x (or_intror Hx)) j Hj). }
      destruct i; try (eapply Hrec; exact H1). apply obind_some in H1. destruct H1 as [p [_ H1]]. eapply Hrec; exact H1.
Qed.
Lemma export_solvable {F} n (rc : RootCircuit (HnI F)) hl ex : NoDup (keys (circuits rc)) -> remove_and_export_hints rc = Some (hl, ex) -> all_solvable n rc -> all_solvable n ex.
Proof.
  intros Hk H Hs id c i Hc Hi. unfold remove_and_export_hints in H. apply obind_some in H. destruct H as [sz [_ H]]. apply obind_some in H. destruct H as [rm [_ H]].
  apply obind_some in H. destruct H as [exs [H1 H2]]. injection H2 as _ <-. cbn [circuits] in Hc. apply omap_some in H1.
  assert (exists c1, lookup id (circuits rc) = Some c1 /\ export_hints (id =? 0)%nat sz c1 = Some c) as [c1 [A B]].
  { clear -H1 Hc. induction H1 as [|p q l l' Hpq H1 IH]; [discriminate|]. destruct p as [k c1], q as [k' c']. apply obind_some in Hpq. destruct Hpq as [c2 [A B]]. injection B as <- <-. cbn [fst snd] in *.
    cbn [lookup] in *. destruct (Nat.eqb_spec k id); [subst; injection Hc as <-; eauto|auto]. }
  unfold export_hints in B. apply obind_some in B. destruct B as [r [B1 B2]]. pose proof (ex_insns_solvable n sz _ _ _ _ _ r B1 (fun i => Hs id c1 i A) i) as G.
  destruct r as [[[is' vm] own] sub]. injection B2 as <-. apply G. exact Hi.
Qed.

(* ======================= C12 ======================= *)
(* [adv E]: the environment in which hints answer whatever an adversary likes *)
Theorem C12_hint_free_circuit_means_any_hints : forall F (rc : RootCircuit (HnI F)) c0,
  NoDup (keys (circuits rc)) -> validate _ rc = true -> lookup 0 (circuits rc) = Some c0 ->
  (0 < num_inputs c0 + list_sum (map i_nout (instructions c0)))%nat ->   (* circuit 0 has a variable *)
  (forall id c, lookup id (circuits rc) = Some c -> ~ In 0%nat (calls c)) -> (* nobody calls circuit 0 *)
  exists hl ex nh, remove_and_export_hints rc = Some (hl, ex) /\
    (* the extended input: the user inputs followed by nh hint values *)
    (exists cl, lookup 0 (circuits hl) = Some cl /\ num_inputs cl = (num_inputs c0 + nh)%nat) /\
    forall E ins, length ins = num_inputs c0 -> forall outs verdict,
      (root_run _ (adv E) rc ins outs verdict <-> exists hints, length hints = nh /\ root_run _ E hl (ins ++ hints) outs verdict).
Proof.
  intros F rc c0 Hk Hv Hc0 Hp Hn0.
  assert (Hn : forall l : list (Insn (HnI F)), nouts _ l = list_sum (map i_nout l)) by (induction l as [|i l IH]; cbn; auto).
  destruct (remove_and_export_hints_spec rc c0 (validate_wf_root _ rc Hk Hv) Hc0) as [hl [ex [nh [H1 [_ [_ [_ [_ [_ [_ [[cl [A [B _]]] [_ H]]]]]]]]]]]]; auto; [rewrite Hn; auto|].
  exists hl, ex, nh. split; auto. split; [eauto|]. intros E ins Hl. apply (H E ins Hl).
Qed.
Print Assumptions C12_hint_free_circuit_means_any_hints.

(* the exported circuit, run by the witness solver with the public inputs [pub] and the hint functions [hint], computes the
   extended input; on it the hint-free circuit does what the original does with the honest hints.
   [solver_env hint pub gate rnd]: hints answer what [hint] computes, public inputs are [pub]. *)
Theorem C12_solver_computes_the_extended_input : forall F (rc : RootCircuit (HnI F)) c0 hint pub gate rnd,
  NoDup (keys (circuits rc)) -> validate _ rc = true -> lookup 0 (circuits rc) = Some c0 ->
  (0 < num_inputs c0 + list_sum (map i_nout (instructions c0)))%nat ->
  (forall id c, lookup id (circuits rc) = Some c -> ~ In 0%nat (calls c)) ->
  exists hl ex nh, remove_and_export_hints rc = Some (hl, ex) /\
    (exists cl, lookup 0 (circuits hl) = Some cl /\ num_inputs cl = (num_inputs c0 + nh)%nat) /\
    forall ins, length ins = num_inputs c0 ->
      (* what the solver returns is the user input followed by the hint values of a run of the original, and the hint-free
         circuit agrees with that run *)
      (forall w, eval_safe hint ex pub ins = Ok w ->
         exists hints outs verdict, w = ins ++ hints /\ length hints = nh /\
           root_run _ (solver_env hint pub gate rnd) rc ins outs verdict /\ root_run _ (solver_env hint pub gate rnd) hl w outs verdict) /\
      (* if no randomness is involved, any run of the hint-free circuit on the solved input is a run of the original *)
      ((forall r r', rnd r -> rnd r' -> r = r') -> forall w outs verdict, eval_safe hint ex pub ins = Ok w ->
         root_run _ (solver_env hint pub gate rnd) hl w outs verdict -> root_run _ (solver_env hint pub gate rnd) rc ins outs verdict) /\
      (* the solver succeeds on whatever the original accepts *)
      (all_solvable (length pub) rc -> forall outs verdict, root_run _ (solver_env hint pub gate rnd) rc ins outs verdict ->
         exists w, eval_safe hint ex pub ins = Ok w /\ root_run _ (solver_env hint pub gate rnd) hl w outs verdict).
Proof.
  intros F rc c0 hint pub gate rnd Hk Hv Hc0 Hp Hn0.
  assert (Hn : forall l : list (Insn (HnI F)), nouts _ l = list_sum (map i_nout l)) by (induction l as [|i l IH]; cbn; auto).
  destruct (remove_and_export_hints_spec rc c0 (validate_wf_root _ rc Hk Hv) Hc0) as [hl [ex [nh [H1 [_ [Wx [_ [_ [_ [Hz [[cl [A [B _]]] [_ H]]]]]]]]]]]]; auto; [rewrite Hn; auto|].
  exists hl, ex, nh. split; auto. split; [eauto|]. intros ins Hl. destruct (H (solver_env hint pub gate rnd) ins Hl) as [_ [G2 [G3 G4]]]. split; [|split].
  - intros w Hw. destruct (eval_safe_run hint ex pub gate rnd ins w Wx Hz Hw) as [b Hb]. destruct (G3 _ _ Hb) as [hv [-> [L [outs [v [K1 K2]]]]]]. exists hv, outs, v. auto.
  - intros Hr w outs v Hw Hrun. destruct (eval_safe_run hint ex pub gate rnd ins w Wx Hz Hw) as [b Hb]. eapply G4; eauto.
  - intros Hs outs v Hrun. destruct (G2 _ _ Hrun) as [hv [b' [_ [K1 K2]]]]. exists (ins ++ hv). split; auto.
    eapply run_eval_safe; eauto. intros id c i. apply (export_solvable _ rc hl ex Hk H1 Hs).
Qed.
Print Assumptions C12_solver_computes_the_extended_input.

(* without the hypothesis on circuit 0: an unreachable circuit that calls circuit 0 makes the exported circuit invalid *)
Definition c12_bad : RootCircuit (HnI F7) :=
  {| num_public_inputs := 0; expected_num_output_zeroes := 0;
     circuits := [(0, {| instructions := [HMul [1; 1]] : list (Insn (HnI F7)); constraints := []; outputs := [2; 1; 2]; num_inputs := 1 |});
                  (1, {| instructions := [HCall 0 [1] 3] : list (Insn (HnI F7)); constraints := []; outputs := [1]; num_inputs := 1 |})]%nat |}.
Theorem C12_export_validity_needs_uncalled_root_refuted :
  validate _ c12_bad = true /\ exists hl ex, remove_and_export_hints c12_bad = Some (hl, ex) /\ validate _ ex = false.
Proof. split; [vm_compute; reflexivity|]. eexists _, _. split; [reflexivity|]. vm_compute. reflexivity. Qed.
Print Assumptions C12_export_validity_needs_uncalled_root_refuted.

(* an instance: a sub-circuit with a hint, used twice; the hint doubles its argument *)
Definition dbl7 : N -> nat -> list F7 -> option (list F7) := fun _ n args => Some (repeat (fadd (nth 0 args f0) (nth 0 args f0)) n).
Definition c12_rc : RootCircuit (HnI F7) :=
  {| num_public_inputs := 0; expected_num_output_zeroes := 0;
     circuits := [(0, {| instructions := [HCall 1 [1] 1; HCall 1 [2] 1; HMul [3; 4]] : list (Insn (HnI F7));
                         constraints := []; outputs := [5]; num_inputs := 2 |});
                  (1, {| instructions := [HHint 5%N [1] 1; HLin {| lc_terms := [(1, fz 2); (2, fz 6)]; lc_const := fz 0 |}] : list (Insn (HnI F7));
                         constraints := [3 : Con (HnI F7)]; outputs := [2]; num_inputs := 1 |})]%nat |}.
Definition resl {F : Fld} (r : Res (list F)) : Res (list Z) := match r with Ok l => Ok (zs l) | Err => Err | Panic => Panic | OutOfFuel => OutOfFuel end.
Example C12_instance : NoDup (keys (circuits c12_rc)) /\ validate _ c12_rc = true /\
  (forall id c, lookup id (circuits c12_rc) = Some c -> ~ In 0%nat (calls c)) /\
  exists hl ex, remove_and_export_hints c12_rc = Some (hl, ex) /\
    resl (eval_safe dbl7 ex [] [fz 3; fz 2]) = Ok [3; 2; 6; 4]%Z /\
    resz (eval_root _ o7 hl [fz 3; fz 2; fz 6; fz 4]) = Ok ([3]%Z, true) /\
    resz (eval_root _ o7 hl [fz 3; fz 2; fz 5; fz 4]) = Ok ([6]%Z, false) /\ all_solvable 0 c12_rc.
Proof.
  split; [repeat constructor; cbn; intuition discriminate|]. split; [vm_compute; reflexivity|]. split.
  { intros id c H. destruct id as [|[|id]]; cbn in H; [injection H as <-|injection H as <-|discriminate]; cbn; intuition discriminate. }
  eexists _, _. split; [reflexivity|]. split; [vm_compute; reflexivity|]. split; [vm_compute; reflexivity|]. split; [vm_compute; reflexivity|].
  intros id c i H Hi. destruct id as [|[|id]]; cbn in H; [injection H as <-|injection H as <-|discriminate]; cbn in Hi; intuition (subst; cbn; auto).
Qed.

(* ======================= C13 ======================= *)
(* For any mapping with in-range, pairwise different, gapless targets (every mapping the compiler builds: C13_mappings) the
   circuit with the removed inputs added back takes the full input and does what the reduced circuit does on the kept part. *)
Theorem C13_added_inputs_are_ignored : forall F EMPTY im (rc : RootCircuit (HnI F)) c0,
  NoDup (keys (circuits rc)) -> validate _ rc = true -> lookup 0 (circuits rc) = Some c0 ->
  im_validate EMPTY im = true -> (next_size im <= EMPTY)%nat -> next_size im = num_inputs c0 ->
  (forall id c, lookup id (circuits rc) = Some c -> ~ In 0%nat (calls c)) ->
  exists rc' c0', add_back_removed_inputs (HnI F) EMPTY im rc = Some rc' /\ lookup 0 (circuits rc') = Some c0' /\
    num_inputs c0' = cur_size im /\ length (outputs c0') = length (outputs c0) /\ num_public_inputs rc' = num_public_inputs rc /\
    expected_num_output_zeroes rc' = expected_num_output_zeroes rc /\
    forall ins, length ins = cur_size im -> exists ins', map_inputs EMPTY f0 im ins = Some ins' /\
      (forall E outs verdict, root_run _ E rc' ins outs verdict <-> root_run _ E rc ins' outs verdict) /\
      (* the witness solver *)
      (forall hint pub, expected_num_output_zeroes rc = 0%nat -> all_solvable (length pub) rc ->
         forall w, eval_safe hint rc' pub ins = Ok w <-> eval_safe hint rc pub ins' = Ok w).
Proof.
  intros F EMPTY im rc c0 Hk Hv Hc0 Him HE Hn Hn0.
  pose proof (validate_wf_root _ rc Hk Hv) as Hwf. destruct (proj1 (im_validate_spec EMPTY im HE) Him) as [Hr [Hi Ho]].
  destruct (add_back_spec _ (HnL F) EMPTY im rc c0 Hwf Hc0 Hr Hi Hn) as [rc' [c0' [H1 [H2 [H3 [H4 [H5 [H6 [H7 [H8 H9]]]]]]]]]].
  exists rc', c0'. split; auto. split; auto. split; auto. split; auto. split; auto. split; auto. intros ins Hl.
  destruct (map_inputs_spec EMPTY f0 im ins Hr Hl) as [ins' [M1 _]]. exists ins'. split; auto. split; [intros; apply H9; auto|].
  intros hint pub Hz Hs.
  assert (Hwf' : wf_root _ rc') by (apply H8; auto).
  assert (Hs' : all_solvable (length pub) rc').
  { intros id c i Hc Hin. unfold add_back_removed_inputs in H1. rewrite Hc0 in H1. cbn [obind] in H1. apply obind_some in H1. destruct H1 as [cx [K1 K2]]. injection K2 as <-. cbn [circuits] in Hc.
    rewrite set_circuit_lookup in Hc. destruct (Nat.eqb_spec id 0) as [->|Hne].
    - injection Hc as <-. unfold add_back1 in K1. apply obind_some in K1. destruct K1 as [ids [K1 K3]]. destruct (rn_insns _ _ _ _) as [is' vm] eqn:Ern. injection K3 as <-. cbn [instructions] in Hin.
      assert (G : forall is vm new is' vm' j, rn_insns (HnI F) is vm new = (is', vm') -> In j is' -> exists i0 f, In i0 is /\ j = h_replace F f i0).
      { clear. induction is as [|i is IH]; intros vm new is' vm' j H Hj; cbn [rn_insns] in H; [injection H as <- <-; destruct Hj|].
        destruct (rn_insns (HnI F) is _ _) as [is1 vm1] eqn:E1. injection H as <- <-. destruct Hj as [<-|Hj]; [exists i, (vmap vm); split; [left|]; auto|]. destruct (IH _ _ _ _ _ E1 Hj) as [i0 [f [A B]]]. exists i0, f. split; [right|]; auto. }
      destruct (G _ _ _ _ _ _ Ern Hin) as [i0 [f [A ->]]]. apply solvable_replace. eapply Hs; eauto.
    - eapply Hs; eauto. }
  assert (Hz' : expected_num_output_zeroes rc' = 0%nat) by congruence.
  intros w. split; intros Hw.
  - destruct (eval_safe_run hint rc' pub (fun _ _ => f0) (fun _ => False) ins w Hwf' Hz' Hw) as [b Hb]. exact (run_eval_safe hint rc pub (fun _ _ => f0) (fun _ => False) ins' w b Hwf Hz Hs (proj1 (H9 _ ins ins' w b M1) Hb)).
  - destruct (eval_safe_run hint rc pub (fun _ _ => f0) (fun _ => False) ins' w Hwf Hz Hw) as [b Hb]. exact (run_eval_safe hint rc' pub (fun _ _ => f0) (fun _ => False) ins w b Hwf' Hz' Hs' (proj2 (H9 _ ins ins' w b M1) Hb)).
Qed.
Print Assumptions C13_added_inputs_are_ignored.

(* every mapping made by removing unreachable inputs validates; removing and adding back leaves a circuit on the full input
   list with the behaviour of the original *)
Theorem C13_remove_then_add_back : forall F EMPTY (rc : RootCircuit (HnI F)) c0,
  NoDup (keys (circuits rc)) -> validate _ rc = true -> lookup 0 (circuits rc) = Some c0 -> (num_inputs c0 <= EMPTY)%nat ->
  exists rc1 im rc2 c2, remove_unreachable _ EMPTY rc = Some (rc1, im) /\ im_validate EMPTY im = true /\
    add_back_removed_inputs _ EMPTY im rc1 = Some rc2 /\ lookup 0 (circuits rc2) = Some c2 /\
    num_inputs c2 = num_inputs c0 /\ length (outputs c2) = length (outputs c0) /\
    forall E ins outs verdict, (root_run _ E rc ins outs verdict -> root_run _ E rc2 ins outs verdict) /\
      (env_answers HintNormalized E -> root_run _ E rc2 ins outs verdict -> root_run _ E rc ins outs verdict).
Proof.
  intros F EMPTY rc c0 Hk Hv Hc0 HE. pose proof (validate_wf_root _ rc Hk Hv) as Hwf.
  destruct (ru_pass_tied EMPTY (HnL F) (env_answers HintNormalized) rc Hwf) as [rc1 [im [H1 [H2 [[_ H3] [H4 [_ H5]]]]]]].
  { intros c Hc. rewrite Hc0 in Hc. injection Hc as <-. auto. }
  { intros E HA. apply (stage_total F HintNormalized E rc); [discriminate|auto]. }
  destruct H5 as [[Hr [Hi Ho]] [c0' [c1 [S1 [S2 [S3 [S4 S5]]]]]] S6 S7]. rewrite Hc0 in S1. injection S1 as <-.
  destruct (add_back_spec _ (HnL F) EMPTY im rc1 c1 H2 S2 Hr Hi S4) as [rc2 [c2 [K1 [K2 [K3 [K4 [K5 [K6 [K7 [K8 K9]]]]]]]]]].
  destruct (remove_unreachable_spec _ (HnL F) EMPTY rc Hwf) as [rc1' [im' [G1 [_ [_ [_ [_ G2]]]]]]]. unfold ru_pass in H1. rewrite H1 in G1. injection G1 as <- <-.
  destruct (G2 c0 Hc0) as [[c1' [G3 [_ G4]]] _]. rewrite S2 in G3. injection G3 as <-.
  exists rc1, im, rc2, c2. split; auto. split; [apply im_validate_spec; [apply Hr|auto]|]. split; auto. split; auto. split; [congruence|]. split; [congruence|].
  intros E ins outs v.
  assert (Hm : forall rc' : RootCircuit (HnI F), (exists c, lookup 0 (circuits rc') = Some c /\ num_inputs c = num_inputs c0) -> root_run _ E rc' ins outs v -> exists ins', map_inputs EMPTY f0 im ins = Some ins').
  { intros rc' [c [Hc Hn]] Hrun. destruct (root_run_len _ _ _ _ _ _ Hrun) as [c' [Hc' Hl]]. rewrite Hc in Hc'. injection Hc' as <-.
    destruct (map_inputs_spec EMPTY f0 im ins Hr) as [ins' [M _]]; [congruence|eauto]. }
  split.
  - intros Hrun. destruct (Hm rc) as [ins' M]; eauto. apply (K9 _ _ _ _ _ M). apply (S7 _ _ M); auto.
  - intros HA Hrun. destruct (Hm rc2) as [ins' M]; [exists c2; split; auto; congruence|auto|]. apply (S7 _ _ M); auto. apply (K9 _ _ _ _ _ M); auto.
Qed.
Print Assumptions C13_remove_then_add_back.
Example C13_instance : exists rc1 im rc2, remove_unreachable _ 99 c04_hn = Some (rc1, im) /\ mapping im = [0; 99; 1]%nat /\
  add_back_removed_inputs (irc_of F7 HintNormalized) 99 im rc1 = Some rc2 /\
  resz (eval_root _ o7 rc1 [fz 3; fz 3]) = Ok ([4]%Z, true) /\ resz (eval_root _ o7 rc2 [fz 3; fz 5; fz 3]) = Ok ([4]%Z, true).
Proof.
  eexists _, _, _. split; [reflexivity|]. split; [vm_compute; reflexivity|]. split; [reflexivity|]. split; vm_compute; reflexivity.
Qed.

(* ======================= C25 ======================= *)
(* a scalar witness file: n records of nin private and npub public values; record i *)
Definition record_of {F : Fld} (w : @Witness F) (vs : list F) (i : nat) : list F * list F :=
  let m := (nin w + npub w)%nat in (firstn (nin w) (skipn (i * m) vs), firstn (npub w) (skipn (i * m + nin w) vs)).
Theorem C25_scalar_iterator : forall F P (w : @Witness F) vs, values w = Scalar vs -> length vs = (num_witnesses w * (nin w + npub w))%nat ->
  iter_scalar P w = Some (map (record_of w vs) (seq 0 (num_witnesses w))).
Proof. intros F P w vs Hv Hl. unfold iter_scalar. rewrite (sc_items_scalar P w vs Hv) by lia. reflexivity. Qed.
Print Assumptions C25_scalar_iterator.
(* packing into blocks of P lanes: ceil(n/P) blocks; lane j of block k is record k*P+j, or the last record past the end *)
Theorem C25_simd_iterator : forall F P (w : @Witness F) vs, values w = Scalar vs -> (0 < P)%nat -> (0 < nin w + npub w)%nat ->
  length vs = (num_witnesses w * (nin w + npub w))%nat ->
  exists blocks, iter_simd P w = Some blocks /\ length blocks = num_blocks P (num_witnesses w) /\
    forall k x y, nth_error blocks k = Some (x, y) ->
      Forall (fun v => length v = P) x /\ Forall (fun v => length v = P) y /\
      forall j, (j < P)%nat -> (map (lane j) x, map (lane j) y) = record_of w vs (Nat.min (k * P + j) (num_witnesses w - 1)).
Proof.
  intros F P w vs Hv HP Hm Hl. set (n := num_witnesses w) in *. set (m := (nin w + npub w)%nat) in *.
  assert (Hblk : forall k, (k < num_blocks P n)%nat -> exists x y, pack_block P (skipn (k * P * m) vs) (nin w) (npub w) = Some (x, y) /\
     Forall (fun v => length v = P) x /\ Forall (fun v => length v = P) y /\
     forall j, (j < P)%nat -> (map (lane j) x, map (lane j) y) = record_of w vs (Nat.min (k * P + j) (n - 1))).
  { intros k Hk. destruct (block_lane P w vs k 0 Hv HP Hm Hl Hk HP (nin w) (npub w) eq_refl) as [x [y [H1 [_ [_ [H2 [H3 _]]]]]]].
    exists x, y. split; auto. split; auto. split; auto. intros j Hj.
    destruct (block_lane P w vs k j Hv HP Hm Hl Hk Hj (nin w) (npub w) eq_refl) as [x' [y' [H1' [_ [_ [_ [_ H4]]]]]]]. rewrite H1 in H1'. injection H1' as <- <-. exact H4. }
  assert (Hgen : forall cnt idx, (num_blocks P n <= idx + cnt)%nat -> exists bl, simd_items P w cnt idx = Some bl /\ length bl = (num_blocks P n - idx)%nat /\
     forall k x y, nth_error bl k = Some (x, y) -> pack_block P (skipn ((idx + k) * P * m) vs) (nin w) (npub w) = Some (x, y) /\ (idx + k < num_blocks P n)%nat).
  { induction cnt as [|cnt IH]; intros idx Hc; cbn [simd_items].
    - exists []. split; auto. split; [cbn; lia|]. intros [|k] x y H; discriminate.
    - fold n. destruct (Nat.leb_spec n (idx * P)) as [Hge|Hlt].
      + exists []. split; auto. split.
        * cbn. destruct (Nat.le_gt_cases (num_blocks P n) idx); [lia|]. pose proof (num_blocks_inv P n idx HP H). lia.
        * intros [|k] x y H; discriminate.
      + assert (Hk : (idx < num_blocks P n)%nat). { pose proof (num_blocks_bound P n (idx * P) HP Hlt) as G. rewrite Nat.div_mul in G by lia. auto. }
        rewrite Hv. unfold from. fold m. rewrite (proj2 (Nat.leb_le _ _)) by (rewrite Hl; nia). cbn [obind].
        destruct (Hblk idx Hk) as [x0 [y0 [B1 _]]]. rewrite B1. cbn [obind]. destruct (IH (S idx) ltac:(lia)) as [bl [I1 [I2 I3]]]. rewrite I1. cbn [obind].
        eexists. split; [reflexivity|]. split; [cbn [length]; lia|]. intros [|k] x y H.
        * cbn in H. injection H as <- <-. rewrite Nat.add_0_r. auto.
        * cbn in H. replace (idx + S k)%nat with (S idx + k)%nat by lia. apply (I3 k); auto. }
  destruct (Hgen n 0%nat) as [bl [G1 [G2 G3]]].
  { cbn. destruct (Nat.le_gt_cases (num_blocks P n) n) as [|H]; auto. destruct (num_blocks P n) as [|k] eqn:E; [lia|].
    pose proof (num_blocks_inv P n n HP ltac:(lia)). nia. }
  exists bl. split; [exact G1|]. split; [lia|]. intros k x y Hk. destruct (G3 k x y Hk) as [A B]. cbn [Nat.add] in A, B.
  destruct (Hblk k B) as [x' [y' [C1 [C2 [C3 C4]]]]]. rewrite A in C1. injection C1 as <- <-. auto.
Qed.
Print Assumptions C25_simd_iterator.
Theorem C25_convert_to_simd_keeps_everything : forall F P (w : @Witness F) vs, values w = Scalar vs -> (0 < P)%nat -> (0 < nin w + npub w)%nat ->
  length vs = (num_witnesses w * (nin w + npub w))%nat ->
  exists w', convert_to_simd P w = Some w' /\ num_witnesses w' = num_witnesses w /\ nin w' = nin w /\ npub w' = npub w /\
    (exists vs', values w' = SimdV vs') /\ iter_scalar P w' = Some (map (record_of w vs) (seq 0 (num_witnesses w))) /\ iter_simd P w' = iter_simd P w.
Proof.
  intros F P w vs Hv HP Hm Hl. destruct (convert_spec P w vs Hv HP Hm Hl) as [w' [H1 [H2 [H3 [H4 [H5 [H6 [vs' [H7 _]]]]]]]]].
  exists w'. split; auto. split; auto. split; auto. split; auto. split; eauto. split; auto. rewrite H5. apply C25_scalar_iterator; auto.
Qed.
Print Assumptions C25_convert_to_simd_keeps_everything.
(* the batch solver: witness i of the produced (packed) file is exactly what the scalar solver computes for input i, for any
   number of inputs, and it fails only if some input fails *)
Theorem C25_batch_solver : forall F P hint (rc : RootCircuit (HnI F)) c0 n f, (0 < P)%nat -> lookup 0 (circuits rc) = Some c0 ->
  (forall i, (i < n)%nat -> length (fst (f i)) = num_inputs c0 /\ length (snd (f i)) = num_public_inputs rc) ->
  (forall w, solve_witnesses P hint rc n f = Ok w -> num_witnesses w = n /\
     exists items, iter_scalar P w = Some items /\ length items = n /\
       forall i, (i < n)%nat -> exists o, eval_safe hint rc (snd (f i)) (fst (f i)) = Ok o /\ nth_error items i = Some (o, snd (f i))) /\
  ((forall i, (i < n)%nat -> exists o, eval_safe hint rc (snd (f i)) (fst (f i)) = Ok o) -> exists w, solve_witnesses P hint rc n f = Ok w).
Proof.
  intros F P hint rc c0 n f HP Hc Hf. destruct (solve_witnesses_spec P hint rc c0 n f HP Hc Hf) as [A B]. split; auto.
  intros w Hw. destruct (A w Hw) as [A1 [_ [_ A2]]]. auto.
Qed.
Print Assumptions C25_batch_solver.
Definition w7 : @Witness F7 := {| num_witnesses := 3; nin := 2; npub := 1; values := Scalar (map fz [1; 2; 3; 4; 5; 6; 0; 1; 2]%Z) |}.
Definition itz {F : Fld} (l : list (list F * list F)) : list (list Z * list Z) := map (fun p => (zs (fst p), zs (snd p))) l.
Example C25_instance :
  option_map itz (iter_scalar 2 w7) = Some [([1; 2], [3]); ([4; 5], [6]); ([0; 1], [2])]%Z /\
  (exists w', convert_to_simd 2 w7 = Some w' /\ option_map itz (iter_scalar 2 w') = Some [([1; 2], [3]); ([4; 5], [6]); ([0; 1], [2])]%Z) /\
  option_map (map (fun b => (map zs (fst b), map zs (snd b)))) (iter_simd 2 w7) = Some [([[1; 4]; [2; 5]], [[3; 6]]); ([[0; 0]; [1; 1]], [[2; 2]])]%Z /\
  (exists w, solve_witnesses 2 dbl7 c12_rc 3 (fun i => ([fz (Z.of_nat i); fz 2], [])) = Ok w /\
     option_map itz (iter_scalar 2 w) = Some [([0], []); ([1], []); ([2], [])]%Z).
Proof.
  split; [vm_compute; reflexivity|]. split; [eexists; split; [reflexivity|vm_compute; reflexivity]|]. split; [vm_compute; reflexivity|].
  eexists. split; [reflexivity|vm_compute; reflexivity].
Qed.

(* ======================= C26 ======================= *)
(* agreement of a packed run with the scalar runs of its lanes: the packed run succeeds exactly when every lane does, and then
   lane j of every output is the scalar output on lane j *)
Theorem C26_solver_is_lanewise : forall F hint P (rc : RootCircuit (HnI F)) pub ins, (0 < P)%nat ->
  Forall (fun v => length v = P) pub -> Forall (fun v => length v = P) ins ->
  (forall outs, eval_safe_simd hint P rc pub ins = Ok outs ->
     forall j, (j < P)%nat -> eval_safe hint rc (map (lane j) pub) (map (lane j) ins) = Ok (map (lane j) outs)) /\
  ((forall j, (j < P)%nat -> exists outs, eval_safe hint rc (map (lane j) pub) (map (lane j) ins) = Ok outs) ->
     exists outs, eval_safe_simd hint P rc pub ins = Ok outs).
Proof.
  intros F hint P rc pub ins HP H1 H2. destruct (eval_safe_simd_lane hint P rc pub ins HP H1 H2) as [A B]. split; auto.
  intros outs Ho. apply (A outs Ho).
Qed.
Print Assumptions C26_solver_is_lanewise.
Example C26_instance : match eval_safe_simd dbl7 2 c12_rc [] [[fz 3; fz 1]; [fz 2; fz 5]] with Ok o => map zs o | _ => [] end = [[3; 6]]%Z /\
  resl (eval_safe dbl7 c12_rc [] [fz 3; fz 2]) = Ok [3]%Z /\ resl (eval_safe dbl7 c12_rc [] [fz 1; fz 5]) = Ok [6]%Z.
Proof. split; [|split]; vm_compute; reflexivity. Qed.

(* ======================= C40 ======================= *)
(* the optimisation loop of the compiler, with the pass "remove unreachable, then reassign duplicate outputs": whatever number
   of rounds it makes, its result is a fixed point of the pass (up to the order of the circuit table, which the code keeps in a
   hash map) and behaves like the circuit it was given, on the inputs mapped by the composed mapping *)
Theorem C40_result_is_a_fixed_point : forall F s EMPTY (eqb : RootCircuit (irc_of F s) -> RootCircuit (irc_of F s) -> bool) fuel (rc rc' : RootCircuit (irc_of F s)) im c0,
  (forall x y, eqb x y = true <-> same_root _ x y) ->
  NoDup (keys (circuits rc)) -> validate _ rc = true -> lookup 0 (circuits rc) = Some c0 -> (num_inputs c0 <= EMPTY)%nat ->
  optimize_until_fixed_point EMPTY eqb (opt_pass EMPTY) fuel rc (im_identity (num_inputs c0)) = Some (rc', im) ->
  (exists y z imz, same_root _ y rc' /\ opt_pass EMPTY y = Some (z, imz) /\ same_root _ z rc') /\
  im_validate EMPTY im = true /\
  forall ins, length ins = num_inputs c0 -> exists ins', map_inputs EMPTY f0 im ins = Some ins' /\
    forall E outs verdict, (root_run _ E rc ins outs verdict -> root_run _ E rc' ins' outs verdict) /\
      (s <> Source -> env_answers s E -> root_run _ E rc' ins' outs verdict -> root_run _ E rc ins outs verdict).
Proof.
  intros F s EMPTY eqb fuel rc rc' im c0 He Hk Hv Hc0 HE H.
  set (Q := fun E : Env F => s <> Source /\ env_answers s E).
  set (Inv := fun (x : RootCircuit (irc_of F s)) (im : InputMapping) => wf_root _ x /\ small EMPTY x /\ tied EMPTY Q rc x im).
  assert (HQ : forall (x : RootCircuit (irc_of F s)) E, Q E -> total _ E (circuits x)) by (intros x E [Hs HA]; apply (stage_total F s E x); auto).
  destruct (optimize_inv EMPTY eqb (opt_pass EMPTY) Inv (same_root _)) with (fuel := fuel) (x := rc) (im := im_identity (num_inputs c0)) (y := rc') (im' := im) as [[Hwf [_ Ht]] [y [z [imz [S1 [S2 S3]]]]]]; auto.
  - intros x y Hxy. apply He; auto.
  - intros x. repeat split.
  - intros x im0 y [W [Hsm T]] [imy Hf] Hxy. destruct (opt_pass_tied EMPTY (irc_laws F s) Q x W Hsm (HQ x)) as [y' [imy' [P1 [P2 P3]]]]. rewrite Hf in P1. injection P1 as <- <-.
    split; auto. split; [eapply small_next; eauto|]. destruct T as [T1 [ca [cb [T2 [T3 [T4 [T5 T6]]]]]] T7 T8]. destruct Hxy as [X1 [X2 X3]]. split; auto.
    + exists ca, cb. rewrite <- X3, <- X2. auto 10.
    + congruence.
    + intros ins ins' Hm E outs b. destruct (T8 ins ins' Hm E outs b) as [U1 U2]. split.
      * intros Hr. eapply same_run; [|apply U1; auto]. repeat split; auto.
      * intros HQE Hr. apply U2; auto. eapply same_run; [|exact Hr]. apply same_sym. repeat split; auto.
  - intros x im0 y imy im' [W [Hsm T]] Hf Hcm. destruct (opt_pass_tied EMPTY (irc_laws F s) Q x W Hsm (HQ x)) as [y' [imy' [P1 [P2 P3]]]]. rewrite Hf in P1. injection P1 as <- <-.
    split; auto. split; [eapply small_next; eauto|]. destruct (tied_trans EMPTY Q rc x y im0 imy T P3) as [im2 [C1 C2]]. rewrite Hcm in C1. injection C1 as <-. auto.
  - split; [apply validate_wf_root; auto|]. assert (Hsm : small EMPTY rc) by (intros c Hc; rewrite Hc0 in Hc; injection Hc as <-; auto). split; auto. apply tied_refl; auto.
  - split; [exists y, z, imz; split; auto; split; auto; destruct S1 as [A1 [A2 A3]], S3 as [B1 [B2 B3]]; repeat split; congruence|].
    destruct Ht as [[T1 [T1' T1'']] [ca [cb [T2 [T3 [T4 [T5 T6]]]]]] T7 T8]. split; [apply im_validate_spec; [apply T1|auto]|].
    intros ins Hl. rewrite Hc0 in T2. injection T2 as <-. destruct (map_inputs_spec EMPTY f0 im ins T1) as [ins' [M _]]; [congruence|]. exists ins'. split; auto.
    intros E outs v. destruct (T8 ins ins' M E outs v) as [U1 U2]. split; auto. intros Hs HA. apply U2. split; auto.
Qed.
Print Assumptions C40_result_is_a_fixed_point.
