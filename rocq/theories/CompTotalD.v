(* The compiler never panics: the solver circuit, and the whole. *)
From Verif Require Import Prelude Field InputMapping Expr Topo Ir IrFacts IrInst Hints Sim RemoveUnreachable ReassignDup AddBack FixedPoint Kinds DetectChains
  Builder HnTrans HnSim HnCirc HintExport FinalBuild FbFacts FbSim MulFanout ExportConstraints SolveDuplicates LocalPass IrSplit SplitRoot Layered LayeredFacts LayeredOpt Layering Compile E2E E2ERun
  PropIr PropPasses PropHn PropFb PropSplit PropLayering E2ESteps Terminate PropTerminate CompTotal SplitTot SplitTotB SplitTotC SplitTotD PropSplitTotal PropLayTotal CompileR CompTotalB CompTotalC.
Open Scope nat_scope.

Section Cur.
  Variable EM : nat.
  Lemma compose_cur a b c : compose_in_place EM a b = Some c -> cur_size c = cur_size a /\ next_size c = next_size b.
  Proof.
    rewrite compose_in_place_eq. intros H. unfold compose in H. apply obind_some in H. destruct H as [ms [Hms E]]. injection E as <-. apply omap_some in Hms. pose proof (Forall2_len _ _ _ Hms) as Hlen.
    unfold cur_size. cbn [mapping next_size]. auto.
  Qed.
  Context {T : Type} (eqb : T -> T -> bool) (f : T -> option (T * InputMapping)).
  Lemma loop_cur fuel x im y im' : optimize_until_fixed_point EM eqb f fuel x im = Some (y, im') -> cur_size im' = cur_size im.
  Proof.
    assert (Hl : forall fuel x im, opt_loop EM eqb f fuel x im = Some (y, im') -> cur_size im' = cur_size im).
    { clear fuel x im. induction fuel as [|fl IH]; intros z imz H; [discriminate|]. cbn [opt_loop] in H. apply obind_some in H. destruct H as [[z1 im1] [H1 H2]]. cbn [fst snd] in H2. destruct (eqb z z1).
      - injection H2 as <- <-. auto.
      - apply obind_some in H2. destruct H2 as [im2 [H2 H3]]. rewrite (IH _ _ H3). apply (compose_cur _ _ _ H2). }
    intros H. unfold optimize_until_fixed_point in H. apply obind_some in H. destruct H as [[z1 im1] [H1 H2]]. cbn [fst snd] in H2. destruct (eqb x z1).
    - injection H2 as <- <-. auto.
    - apply obind_some in H2. destruct H2 as [im2 [H2 H3]]. rewrite (Hl _ _ _ H3). apply (compose_cur _ _ _ H2).
  Qed.
End Cur.
Section Back.
  Context {F : Fld}.
  Variables (K : Config) (o : Options).
  Notation EM := (EMPTY K). Notation SI := (SrcI F). Notation HI := (HnI F). Notation LI := (HlI F). Notation DI := (DestI F false). Notation DS := (DestI F true).
  Notation K' := (with_fuel K).
  Hypothesis Hopt : 1 <= opt_level o.
  Hypothesis Hlim : forall l, mul_fanout_limit o = Some l -> 1 < l.
  Hypothesis Hcost : costs_ok (costs K).
  Notation none := (fun _ : Env F => False).

  Lemma stage_cur {I : IRC F} m eqb (x : RootCircuit I) im y im' : opt_stage (K' m) o eqb x im = Some (y, im') -> cur_size im' = cur_size im.
  Proof.
    unfold opt_stage. destruct (2 <=? opt_level o); [apply loop_cur|]. destruct (1 <=? opt_level o).
    - intros H. apply obind_some in H. destruct H as [r [_ H]]. apply obind_some in H. destruct H as [i [H1 H]]. injection H as _ <-. apply (compose_cur _ _ _ _ H1).
    - intros H. injection H as _ <-. auto.
  Qed.
  Lemma middle_cur m (hl : RootCircuit LI) p2 im2 p3 im3 d imd lc iml cl : r_middle (K' m) o hl = Ok (p2, im2, p3, im3, d, imd, lc, iml) -> lookup 0 (circuits hl) = Some cl -> cur_size imd = num_inputs cl.
  Proof.
    intros H Hcl. unfold r_middle in H. apply bind_ok in H. destruct H as [[a b] [A6 H]]. apply bind_ok in H. destruct H as [[a1 b1] [A7 H]]. apply bind_ok in H. destruct H as [[a2 b2] [A8 H]]. apply bind_ok in H. destruct H as [[a3 b3] [A9 H]]. injection H as -> -> -> -> -> -> -> ->.
    assert (E1 : cur_size im2 = num_inputs cl).
    { unfold r_step_2_build in A6. rewrite Hcl in A6. cbn [unw rbind] in A6. apply bind_ok in A6. destruct A6 as [[x1 i1] [B1 A6]]. apply unw_ok in B1. cbn [fst snd] in A6. apply bind_ok in A6. destruct A6 as [u1 [_ A6]]. apply bind_ok in A6. destruct A6 as [d1 [_ A6]]. apply bind_ok in A6. destruct A6 as [[x2 i2] [B2 A6]]. apply unw_ok in B2. cbn [fst snd] in A6.
      apply bind_ok in A6. destruct A6 as [u2 [_ A6]]. apply bind_ok in A6. destruct A6 as [d2 [_ A6]].
      assert (N1 : cur_size i1 = num_inputs cl). { assert (X : cur_size (im_identity (num_inputs cl)) = num_inputs cl) by (unfold cur_size, im_identity; cbn [mapping]; apply seq_length). destruct (2 <=? opt_level o); [rewrite (loop_cur _ _ _ _ _ _ _ _ B1); auto|injection B1 as _ <-; auto]. }
      pose proof (stage_cur _ _ _ _ _ _ B2) as N2. destruct (random_combination (K' m)); [injection A6 as _ <-; congruence|].
      apply bind_ok in A6. destruct A6 as [r3 [_ A6]]. apply bind_ok in A6. destruct A6 as [r4 [_ A6]]. apply bind_ok in A6. destruct A6 as [r5 [_ A6]]. apply bind_ok in A6. destruct A6 as [i5 [B5 A6]]. apply unw_ok in B5. apply bind_ok in A6. destruct A6 as [u5 [_ A6]]. injection A6 as _ <-.
      destruct (compose_cur _ _ _ _ B5) as [N3 _]. congruence. }
    assert (E2 : cur_size im3 = cur_size im2).
    { unfold r_step_2_single in A7. apply bind_ok in A7. destruct A7 as [[x1 i1] [B1 A7]]. apply bind_ok in A7. destruct A7 as [p [_ A7]]. injection A7 as _ <-. cbn [snd]. destruct (cross_layer (K' m)); [injection B1 as _ <-; auto|].
      apply bind_ok in B1. destruct B1 as [s [_ B1]]. apply bind_ok in B1. destruct B1 as [u [_ B1]]. apply unw_ok in B1. apply (stage_cur _ _ _ _ _ _ B1). }
    unfold r_step_2_dest in A8. apply bind_ok in A8. destruct A8 as [dd [_ A8]]. apply bind_ok in A8. destruct A8 as [[x1 i1] [B1 A8]]. apply unw_ok in B1. apply bind_ok in A8. destruct A8 as [u [_ A8]]. apply bind_ok in A8. destruct A8 as [u2 [_ A8]]. injection A8 as _ <-.
    pose proof (stage_cur _ _ _ _ _ _ B1). congruence.
  Qed.

  (* the mapping of the hint-less circuit's inputs to the layered circuit's *)
  Lemma im_total (d : RootCircuit DS) imd lc iml reorder : fits EM DS d imd -> validate _ d = true -> layer_compile (cross_layer K) EM reorder d = Some (lc, iml) -> next_size iml <= EM ->
    exists im, compose_in_place EM imd iml = Some im /\ in_range EM im /\ injective EM im /\ cur_size im = cur_size imd.
  Proof.
    intros [W [[G1 [G2 G3]] [c' [Hc' Hn]]]] V Hl Hsz.
    destruct (C19_layering F (cross_layer K) EM reorder d lc iml (wf_keys_of _ W) V Hl Hsz) as [_ [_ [[c [X3 X4]] [X5 [X6 _]]]]]. rewrite Hc' in X3. injection X3 as <-.
    assert (Rl : in_range EM iml). { split; auto. eapply Forall_impl; [|exact X6]. cbn. auto. }
    assert (Il : injective EM iml). { intros i j s Hi Hj _. eapply NoDup_nth_error; [exact X5|apply nth_error_Some_lt in Hi; auto|congruence]. }
    destruct (compose_spec EM 0 imd iml (repeat 0 (cur_size imd)) G1 Rl Il ltac:(congruence) (repeat_length _ _)) as [im [_ [_ [Hc _]]]].
    exists im. rewrite compose_in_place_eq. split; auto. pose proof Hc as Hc2. rewrite <- compose_in_place_eq in Hc2. destruct (compose_cur _ _ _ _ Hc2) as [En1 En].
    unfold compose in Hc. apply obind_some in Hc. destruct Hc as [ms [Hms Ems]]. injection Ems as Ems. apply omap_some in Hms. pose proof (Forall2_len _ _ _ Hms) as Hlen.
    assert (Em : mapping im = ms) by (rewrite <- Ems; auto).
    assert (Hback : forall i s, nth_error ms i = Some s -> s <> EM -> exists m, nth_error (mapping imd) i = Some m /\ m <> EM /\ nth_error (mapping iml) m = Some s).
    { intros i s Hi Hs. destruct (nth_error_Some_ex (mapping imd) i) as [m Hm]; [rewrite Hlen; eapply nth_error_Some_lt; eauto|]. destruct (Forall2_nth_error _ _ _ Hms _ _ Hm) as [s' [A B]]. rewrite Hi in A. injection A as <-.
      exists m. split; auto. destruct (Nat.eqb_spec m EM) as [e|n]; [congruence|]. auto. }
    split; [|split; auto].
    - split; [lia|]. rewrite Em, En. apply Forall_forall. intros s Hs. apply In_nth_error in Hs. destruct Hs as [i Hi]. destruct (Nat.eq_dec s EM) as [|Hne]; auto. right. destruct (Hback i s Hi Hne) as [m [_ [_ B]]]. rewrite Forall_forall in X6. apply X6. eapply nth_error_In; eauto.
    - intros i j s Hi Hj Hs. rewrite Em in Hi, Hj. destruct (Hback i s Hi Hs) as [m [A [B C]]]. destruct (Hback j s Hj Hs) as [m' [A' [B' C']]]. assert (m = m') as <- by (eapply Il; eauto). eapply G2; eauto.
  Qed.
  Lemma back_total (x : RootCircuit HI) him imd iml im cx : wf_root HI x -> expected_num_output_zeroes x = 0 -> im_good EM him -> root_inputs x (next_size him) -> lookup 0 (circuits x) = Some cx ->
    compose_in_place EM imd iml = Some im -> in_range EM im -> injective EM im -> length (outputs cx) = cur_size im ->
    ev (fun m => r_back (K' m) o x him imd iml) any.
  Proof.
    intros W Z G R Hcx Hc Hr Hi Hlen. unfold r_back. cbn [with_fuel EMPTY]. rewrite Hc. cbn [unw rbind].
    destruct (map_inputs_spec EM 0 im (outputs cx) Hr Hlen) as [po [Hpo _]].
    destruct (place_outputs K im x) as [pl|] eqn:Hp; [|unfold place_outputs in Hp; rewrite Hcx in Hp; cbn [obind] in Hp; rewrite Hpo in Hp; discriminate].
    assert (Zp : expected_num_output_zeroes pl = 0). { unfold place_outputs in Hp. apply obind_some in Hp. destruct Hp as [a [_ Hp]]. apply obind_some in Hp. destruct Hp as [b [_ Hp]]. injection Hp as <-. auto. }
    destruct (place_outputs_run K im x pl W Hr Hi Hp Z Zp) as [Kp [_ [Ip _]]].
    apply ev_bind with (P := fun p => p = pl); [exists 0, (Ok pl); split; [intros m _; change (place_outputs (K' m) im x) with (place_outputs K im x); rewrite Hp; reflexivity|reflexivity]|]. intros p ->.
    apply ev_bind with (P := fun r => fits EM HI (fst r) (snd r)).
    { unfold r_step_4. eapply ev_bind; [apply ev_chk|]. intros u Hv. cbn beta in Hv. assert (Wp : wf_root HI pl) by (apply validate_wf_root; auto; rewrite Kp; apply wf_keys_of; auto).
      assert (Hf : fits EM HI pl him) by (split; auto; split; auto; apply Ip; auto).
      destruct (2 <=? opt_level o); [|apply ev_ok; auto]. cbn [with_fuel EMPTY fuel]. apply ev_loop.
      - apply (loop_ends EM HI h_eqb (fun a b => proj2 (root_eqb_spec HI h_dec Nat.eq_dec a b)) (fun _ => True) (remove_unreachable HI EM) (ru_shrinks EM HI (HnL F) (hn_id F)) pl him Hf).
      - intros m [y im'] H. cbn [fst snd]. destruct (loop_stage EM none (fun _ => True) (fun _ => True) h_eqb (remove_unreachable HI EM)) with (fuel := m) (x := pl) (im := him) (y := y) (im' := im') as [S _]; auto.
        + intros a b. apply root_eqb_spec.
        + intros z z' imz Wz Sz _ Hz. destruct (ru_stage EM (HnL F) none z z' imz Wz Sz) as [A1 [A2 A3]]; auto; intros E [].
        + destruct (stage_out _ _ _ _ _ _ S) as [A [B _]]. split; [apply (st_wf _ _ _ _ _ _ S)|split; auto]. }
    intros [s sim] [Ws [[B1 [B2 B3]] [cs [Hcs Ncs]]]]. cbn [fst snd] in *.
    destruct (add_back_spec HI (HnL F) EM sim s cs Ws Hcs B1 B2 (eq_sym Ncs)) as [ex' [c' [E1 _]]]. rewrite E1. cbn [unw rbind].
    eapply ev_bind; [apply ev_chk|]. intros u Hv. apply ev_ok. exact Logic.I.
  Qed.
End Back.
