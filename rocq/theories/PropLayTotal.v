(* C42: layering a valid dest circuit never panics. *)
From Verif Require Import Prelude Field Zp Sorting Expr Topo Ir IrInst InputMapping Layered SolveDuplicates LayeredFacts LayeredOpt LayeredOptFacts LayeredExpand LayeredCommon IrFacts Sim Layering LaySem LaySched LayInst LayLayout LayOwn LayRoot LayBlock LayTotA LayTotB LayMerge LayGroups LaySolve LayConn PropIr PropLayering.
Open Scope nat_scope.

Lemma calls_insn {F : Fld} l : forall (is : list (DInsn F)) cur, In l (calls_from is cur) -> In (DCall (cl_sub l) (cl_ins l) (length (cl_outs l))) is.
Proof.
  induction is as [|[e|id ins n|c] is IH]; intros cur H; cbn [calls_from] in H; try (right; eapply IH; exact H); [destruct H|]. destruct H as [<-|H]; [left; cbn; rewrite seq_length; auto|right; eapply IH; exact H].
Qed.
Lemma strict_nodup {F : Fld} (rc : RootCircuit (DestI F true)) id c : validate _ rc = true -> lookup id (circuits rc) = Some c -> NoDup (outputs c) /\ forall l, In l (calls_of c) -> NoDup (cl_ins l).
Proof.
  intros H Hc. unfold validate in H. destruct (lookup 0 (circuits rc)) as [c0|]; [|discriminate]. apply andb_true_iff in H. destruct H as [H _]. apply andb_true_iff in H. destruct H as [H _]. rewrite forallb_forall in H. specialize (H (id, c) (lookup_In _ _ _ Hc)). cbn [snd] in H.
  unfold validate_variable_references in H. destruct (validate_insns _ _ _) as [m|] eqn:Em; [|discriminate]. rewrite !andb_true_iff in H. destruct H as [_ H]. cbn [dup_outs DestI orb] in H. split; [apply nodupb_iff; exact H|].
  apply validate_insns_spec in Em. destruct Em as [_ [_ [_ Hd]]]. rewrite Forall_forall in Hd. intros l Hl. apply calls_insn in Hl. apply (Hd _ Hl _ _ _ eq_refl eq_refl).
Qed.

(* every circuit that passes the checks done before layering: valid with distinct arguments and outputs, and every circuit has an input *)
Theorem C42_layering_total : forall (F : Fld) (cross : bool) (EMPTY : nat) (reorder : bool) (rc : RootCircuit (DestI F true)),
  NoDup (keys (circuits rc)) -> validate _ rc = true -> (forall id c, lookup id (circuits rc) = Some c -> num_inputs c <> 0) ->
  exists lc im, layer_compile cross EMPTY reorder rc = Some (lc, im).
Proof.
  intros F cross EMPTY reorder rc Hk Hv Hne. destruct (validate_wf (DestI F true) rc Hk Hv) as [Hwf [[rank [Hrank Hrl]] [c0 [Hc0 _]]]]. pose proof (fun id c => strict_nodup rc id c Hv) as Hnd.
  assert (H0 : In 0 (keys (circuits rc))) by (apply lookup_keys; eauto). unfold layer_compile. set (fuel := S (length (circuits rc))).
  destruct (contexts_total cross (circuits rc) Hwf rank Hrank Hrl Hnd Hne H0) as [order [ctxs0 [has [ctxs [E1 [E2 [E3 [[X HX] Htot]]]]]]]]. fold fuel in E1. rewrite E1. cbn [obind]. rewrite E2. cbn [obind fst snd]. rewrite E3. cbn [obind]. rewrite HX. cbn [obind].
  destruct (layers_ok cross (circuits rc) Hwf rank Hrank _ _ _ _ _ E1 E2 E3) as [Hok _]. pose proof (Hok _ _ HX) as K. pose proof (ok_out _ _ _ _ _ K) as Ho.
  assert (Hnd1 : forall id c, lookup id (circuits rc) = Some c -> NoDup (outputs c)) by (intros id c Hc; apply (Hnd id c Hc)).
  assert (Hnd2 : forall id c l, lookup id (circuits rc) = Some c -> In l (calls_of c) -> NoDup (cl_ins l)) by (intros id c l Hc; apply (proj2 (Hnd id c Hc))).
  assert (Hr0 : rank 0 < fuel) by (pose proof (Hrl 0 H0); unfold fuel; lia).
  pose proof (solve_total cross (circuits rc) ctxs Hwf rank Hrank Hnd1 Hok Htot reorder fuel 0) as Hsol.
  destruct (omap_total (solve fuel reorder ctxs 0) (seq 0 (S (x_out X)))) as [layouts Hl].
  { intros i Hi. apply in_seq in Hi. destruct (Hsol i X Hr0 HX ltac:(lia)) as [L [A _]]. eauto. }
  rewrite Hl. cbn [obind]. assert (Hlen : length layouts = S (x_out X)) by (rewrite (omap_length _ _ _ Hl), seq_length; auto).
  assert (Hat : forall i L, nth_error layouts i = Some L -> okl ctxs L /\ lok ctxs L /\ ly_circ L = 0 /\ ly_layer L = i /\ (i = 0 -> full X 0 0 L)).
  { intros i L HL. pose proof (nth_error_Some_lt _ _ _ HL) as Hlt. destruct (nth_from _ _ _ _ i Hl ltac:(lia)) as [L' [A B]]. assert (L' = L) by congruence. subst L'. cbn [Nat.add] in B. destruct (Hsol i X Hr0 HX ltac:(lia)) as [L' [A' [P1 [P2 [P3 P4]]]]]. assert (L' = L) by congruence. subst L'.
    split; auto. split; [apply (solve_lok cross (circuits rc) ctxs Hok _ _ _ _ _ B)|]. split; auto. split; auto. intros ->. apply P4. auto. }
  assert (Hat' : forall i L, nth_error layouts i = Some L -> okl ctxs L /\ lok ctxs L /\ ly_circ L = 0 /\ ly_layer L = i) by (intros i L HL; destruct (Hat i L HL) as [A [B [D [E _]]]]; auto).
  destruct (connect_total cross (circuits rc) ctxs Hwf rank Hrank Hnd1 Hnd2 Hok Htot fuel 0 X layouts [] Hr0 HX Hlen Hat') as [segs [ids [Hc Hids]]]. rewrite Hc. cbn [obind fst snd].
  destruct (nth_error_Some_ex (x_lcs X) 0) as [C HC]; [rewrite (ok_lcs _ _ _ _ _ K); lia|]. rewrite HC. cbn [obind]. destruct (nth_error_Some_ex layouts 0) as [L0 HL0]; [lia|]. rewrite HL0. cbn [obind].
  destruct (Hat _ _ HL0) as [_ [_ [Hc0' [_ Hf]]]]. destruct (Hf eq_refl) as [C' [p [HC' [-> [_ Hp]]]]]. assert (C' = C) by congruence. subst C'.
  unfold input_order. match goal with |- context [omap ?f (layout_slots (LDense 0 0 p))] => destruct (omap_total f (layout_slots (LDense 0 0 p))) as [io Hio] end.
  { intros [s v] Hs. apply (in_map snd) in Hs. rewrite dense_snd in Hs. cbn [snd fst] in *. eapply Permutation_in in Hs; [|exact Hp]. apply in_seq in Hs. destruct (nth_error_Some_ex (lc_vars C) v ltac:(lia)) as [x Hx]. rewrite Hx. cbn [obind]. eauto. }
  rewrite Hio. cbn [obind]. destruct (nth_error_Some_ex ids 0) as [sid Hsid]; [lia|]. rewrite Hsid. cbn [obind].
  assert (Hh : hd_error layouts = Some (LDense 0 0 p)) by (destruct layouts; auto).
  destruct (connect_sizes cross (circuits rc) ctxs Hok fuel layouts [] segs ids _ X Hc Hh HX 1 sid ltac:(lia) Hsid) as [s [L [A [_ [_ B]]]]]. rewrite A. cbn [obind]. rewrite (B eq_refl). cbn [obind]. eauto.
Qed.

Example C42_instance : NoDup (keys (circuits c19_rc)) /\ validate _ c19_rc = true /\ (forall id c, lookup id (circuits c19_rc) = Some c -> num_inputs c <> 0).
Proof.
  split; [repeat constructor; cbn; intuition discriminate|]. split; [vm_compute; reflexivity|]. intros id c H. cbn [circuits c19_rc lookup] in H. destruct (0 =? id); [apply Some_inj in H; subst; discriminate|]. destruct (1 =? id); [apply Some_inj in H; subst; discriminate|discriminate].
Qed.
(* the condition on inputs is needed: a called circuit without inputs makes the layer of the call negative (compile.rs:293-298) *)
Definition c42_rc : RootCircuit DS7 :=
  {| num_public_inputs := 0; expected_num_output_zeroes := 0;
     circuits := [(0, {| instructions := [DCall 1 [] 1; li7 1 1 2 1] : list (Insn DS7); constraints := []; outputs := [3]; num_inputs := 1 |});
                  (1, {| instructions := [DConst (CConst (fz 3)); li7 1 1 1 1; li7 1 1 2 2] : list (Insn DS7); constraints := []; outputs := [3]; num_inputs := 0 |})] |}.
Example C42_no_inputs : validate _ c42_rc = true /\ match layer_compile true 1000 true c42_rc with None => true | Some _ => false end = true.
Proof. split; vm_compute; reflexivity. Qed.
Print Assumptions C42_layering_total.
