(* The compiler never panics: steps 2 and 4, and the whole. *)
From Verif Require Import Prelude Field InputMapping Expr Topo Ir IrFacts IrInst Hints Sim RemoveUnreachable ReassignDup AddBack FixedPoint Kinds DetectChains
  Builder HnTrans HnSim HnCirc HintExport FinalBuild FbFacts FbSim MulFanout ExportConstraints SolveDuplicates LocalPass IrSplit SplitRoot Layered LayeredFacts LayeredOpt Layering Compile E2E E2ERun
  PropIr PropPasses PropHn PropFb PropSplit PropLayering E2ESteps Terminate PropTerminate CompTotal SplitTot SplitTotB SplitTotC SplitTotD PropSplitTotal PropLayTotal CompileR CompTotalB.
Open Scope nat_scope.

Lemma keys_combine {A} (l : list A) : forall s, keys (combine (seq s (length l)) l) = seq s (length l).
Proof. induction l as [|a l IH]; intros s; cbn; auto. f_equal. apply IH. Qed.
Lemma split_shape {F : Fld} random (rc rc' : RootCircuit (DestI F false)) : split_to_single_layer random rc = Some rc' -> NoDup (keys (circuits rc')) /\
  forall n, root_inputs rc n -> root_inputs rc' n.
Proof.
  unfold split_to_single_layer. intros H. apply obind_some in H. destruct H as [c0 [Hc0 H]]. apply obind_some in H. destruct H as [[[[[[c add] ml] sc] at_] pool] [He H]]. apply obind_some in H. destruct H as [u [_ H]]. injection H as <-. cbn [circuits]. split.
  - cbn [keys map fst]. change (map fst (combine (seq 1 (length pool)) pool)) with (keys (combine (seq 1 (length pool)) pool)). rewrite keys_combine. constructor; [intros Hi; apply in_seq in Hi; lia|apply seq_NoDup].
  - intros n [c1 [Hc1 <-]]. rewrite Hc0 in Hc1. injection Hc1 as <-. eexists. cbn [lookup Nat.eqb]. split; [reflexivity|]. cbn [num_inputs].
    unfold expanded in He. apply obind_some in He. destruct He as [ol [_ He]]. apply obind_some in He. destruct He as [c2 [Hc2 He]]. rewrite Hc0 in Hc2. injection Hc2 as <-. apply obind_some in He. destruct He as [P [_ He]]. apply obind_some in He. destruct He as [cns [_ He]]. apply obind_some in He. destruct He as [outs [_ He]].
    destruct (if random then _ else _) as [[ins ml'] add']. injection He as <- _ _ _ _ _. reflexivity.
Qed.

Section Steps2.
  Context {F : Fld}.
  Variables (K : Config) (o : Options).
  Notation EM := (EMPTY K). Notation SI := (SrcI F). Notation HI := (HnI F). Notation LI := (HlI F). Notation DI := (DestI F false). Notation DS := (DestI F true).
  Notation K' := (with_fuel K).
  Hypothesis Hopt : 1 <= opt_level o.
  Hypothesis Hlim : forall l, mul_fanout_limit o = Some l -> 1 < l.
  Hypothesis Hcost : costs_ok (costs K).
  Notation none := (fun _ : Env F => False).
  Notation PDn := (PD (F := F) False).

  Lemma same_fits {I I' : IRC F} (x : RootCircuit I) (y : RootCircuit I') im c0 c : fits EM I x im -> wf_root I' y -> lookup 0 (circuits x) = Some c0 -> lookup 0 (circuits y) = Some c -> num_inputs c = num_inputs c0 -> fits EM I' y im.
  Proof. intros [W [G [c1 [Hc1 Hn]]]] Wy Hc0 Hc Hi. split; auto. split; auto. exists c. split; auto. congruence. Qed.

  Definition built (r : RootCircuit DI * InputMapping) : Prop :=
    fits EM DI (fst r) (snd r) /\ validate _ (fst r) = true /\ uncalled DI 0 (fst r) /\ (random_combination K = false -> bare DI (fst r)) /\ (2 <= opt_level o -> distinct DI (fst r)).
  Lemma build_total (hl : RootCircuit LI) : wf_root LI hl -> small EM hl -> ev (fun m => r_step_2_build (K' m) o hl) built.
  Proof.
    intros W Sm. destruct (wr_root _ _ W) as [c0 [Hc0 _]]. pose proof (Sm c0 Hc0) as Hn. destruct (good_id K _ Hn) as [G Gn].
    assert (Hf0 : fits EM LI hl (im_identity (num_inputs c0))) by (split; auto; split; auto; exists c0; rewrite Gn; auto).
    unfold r_step_2_build. rewrite Hc0. cbn [unw rbind with_fuel EMPTY fuel costs random_combination].
    apply ev_bind with (P := fun r => fits EM LI (fst r) (snd r)).
    { destruct (2 <=? opt_level o) eqn:E2; [|apply ev_const; exact Hf0]. apply ev_loop.
      - apply (loop_ends EM LI l_eqb (fun a b => proj2 (root_eqb_spec LI l_dec Nat.eq_dec a b)) (neat LI) (opt_pass EM) (op_shrinks EM LI (HlL F) (hl_id F)) hl _ Hf0).
      - intros m [y im] H. cbn [fst snd]. destruct (loop_stage EM none (fun _ => True) (fun _ => True) l_eqb (opt_pass EM)) with (fuel := m) (x := hl) (im := im_identity (num_inputs c0)) (y := y) (im' := im) as [S _]; auto.
        + intros a b. apply root_eqb_spec.
        + intros z z' imz Wz Sz _ Hz. destruct (op_stage EM (HlL F) none z z' imz Wz Sz) as [A1 [A2 A3]]; auto; intros E [].
        + rewrite Gn. apply root_inputs_of. auto.
        + destruct (stage_out _ _ _ _ _ _ S) as [A [B _]]. split; [apply (st_wf _ _ _ _ _ _ S)|split; auto]. }
    intros [h1 im1] Hf1. cbn [fst snd] in *. eapply ev_bind; [apply ev_chk|]. intros u Hv1. cbn beta in Hv1.
    destruct (fb_process_spec (costs K) h1 (proj1 Hf1) (l_validate_insns_valid h1 Hv1)) as [[d [Ed Hr]]|[[Ed _]|[Ed Hx]]]; [| |contradiction]; rewrite Ed; cbn [rbind]; [|apply ev_const; exact Logic.I].
    assert (Hf2 : fits EM DI d im1). { pose proof Hf1 as [_ [_ [c1 [Hc1 _]]]]. destruct (fr_fwd _ _ Hr 0 c1 Hc1) as [c1' [Hc1' [[_ [L1 [L2 _]]] _]]]. eapply same_fits; eauto. apply (fr_wf _ _ Hr). }
    assert (P2 : holds DI PDn d).
    { intros id c' Hc'. assert (Hid : In id (keys (circuits h1))) by (apply (fr_keys _ _ Hr); apply lookup_keys; eauto). apply lookup_keys in Hid. destruct Hid as [c Hc]. destruct (fr_fwd _ _ Hr id c Hc) as [c2 [Hc2 [_ [_ [_ Hp]]]]].
      rewrite Hc' in Hc2. injection Hc2 as <-. eapply PL_PD; [|exact Hp]. apply Forall_forall. intros i _ []. }
    apply ev_bind with (P := fun r => fits EM DI (fst r) (snd r) /\ holds DI PDn (fst r) /\ uncalled DI 0 (fst r) /\ (2 <= opt_level o -> distinct DI (fst r))).
    { apply ev_loop; [apply (opt_total K o Hopt (DestL F false) (dest_id F false)); auto; intros; apply root_eqb_spec|]. intros m [y im'] H. destruct (opt_fits K o Hopt (DestL F false) PDn False (dest_id F false) d_eqb d im1 m y im') as [A [B [_ [C D]]]]; auto; [intros; apply root_eqb_spec|apply PD_ipred|intros []]. }
    intros [d1 im2] [Hf3 [P3 [U3 D3]]]. cbn [fst snd] in *. eapply ev_bind; [apply ev_chk|]. intros u2 Hv2. cbn beta in Hv2.
    apply ev_bind with (P := fun d2 => fits EM DI d2 im2 /\ validate _ d2 = true /\ uncalled DI 0 d2 /\ (2 <= opt_level o -> distinct DI d2)).
    { destruct (mul_fanout_limit o) as [lim|] eqn:El; [|apply ev_ok; auto]. pose proof (Hlim lim eq_refl) as Hl. pose proof (proj1 Hf3) as W3.
      destruct (solve_mul_fanout_spec lim Hl d1 W3) as [d3 [E3 [W4 [Q1 [Q2' [Q3 [Q4 Q5]]]]]]]. { intros id c Hc. eapply Forall_impl; [|apply (P3 id c Hc)]. intros i Hi; apply Hi. } rewrite E3. cbn [unw rbind].
      eapply ev_bind; [apply ev_chk|]. intros u3 Hv3. cbn beta in Hv3. apply ev_ok. destruct (fo_holds False lim d1 d3 W3 E3 P3 U3) as [P4 U4].
      destruct (wr_root _ _ W4) as [c2 [Hc2 _]]. destruct (Q3 0 c2 Hc2) as [_ [c1 [Hc1 [L1 L2]]]]. split; [eapply same_fits; eauto|]. split; auto. split; auto. intros H2. apply (fo_distinct lim d1 d3 W3 E3). auto. }
    intros d2 [Hf4 [V4 [U4 D4]]]. destruct (random_combination K) eqn:Er; [apply ev_ok; split; auto; split; auto; split; auto; split; auto; cbn [fst]; congruence|].
    pose proof (proj1 Hf4) as W4. destruct (export_constraints_spec d2 W4 U4) as [r3 [add [E3 [W5 [X1 [X2 [X3 [X4 [X5 [X6 _]]]]]]]]]]. rewrite E3. cbn [unw rbind].
    destruct (reassign_duplicates_spec DI (DestL F false) false r3 W5) as [r4 [E4 [W6 [_ [_ [_ [K6 _]]]]]]]. rewrite E4. cbn [unw rbind].
    assert (B5 : bare DI r3) by (intros id c Hc; apply (X4 id c Hc)). pose proof (ra_bare DI false r3 r4 E4 B5) as B6.
    destruct (wr_root _ _ W4) as [c2 [Hc2 Hz2]]. destruct (X5 c2 Hc2) as [c3 [Hc3 [L1 L2]]]. destruct (K6 c3 Hc3) as [c4 [Hc4 [L3 L4]]].
    assert (Hf6 : fits EM DI r4 im2) by (eapply (same_fits d2 r4); eauto; congruence).
    destruct (ru_shrinks EM DI (DestL F false) (dest_id F false) r4 W6 (fits_small EM DI _ _ Hf6)) as [r5 [im5 [E5 [W7 [T7 _]]]]]. rewrite E5. cbn [unw rbind fst snd].
    destruct (fits_next EM DI _ _ _ _ Hf6 W7 T7) as [im6 [E6 Hf7]]. rewrite E6. cbn [unw rbind]. eapply ev_bind; [apply ev_chk|]. intros u3 Hv3. cbn beta in Hv3. apply ev_ok. split; auto. split; auto. cbn [fst snd].
    destruct (ru_stage EM (DestL F false) none r4 r5 im5 W6 (fits_small EM DI _ _ Hf6)) as [_ [U7 _]]; auto; [intros E []|]. split; auto. split; [intros _; eapply ru_bare; eauto|]. intros _. eapply neat_ru; [apply (DestL F false)|exact W6|eapply ra_neat; [apply (DestL F false)|exact W5|exact E4]|exact E5].
  Qed.

  Lemma single_total p2 im : built (p2, im) -> ev (fun m => r_step_2_single (K' m) o p2 im) (fun r => fits EM DI (fst r) (snd r) /\ distinct DI (fst r)).
  Proof.
    intros [Hf [V [U [B D]]]]. cbn [fst snd] in *. unfold r_step_2_single. cbn [with_fuel cross_layer random_combination].
    apply ev_bind with (P := fun r => fits EM DI (fst r) (snd r) /\ (2 <= opt_level o -> distinct DI (fst r))).
    { destruct (cross_layer K); [apply ev_ok; auto|]. pose proof (proj1 Hf) as W. destruct (split_total (random_combination K) p2 W U) as [s Es]; [intros Hr id c Hc; apply (B Hr id c Hc)|]. rewrite Es. cbn [unw rbind].
      eapply ev_bind; [apply ev_chk|]. intros u Hv. cbn beta in Hv. destruct (split_shape _ _ _ Es) as [Nk Hi]. pose proof (validate_wf_root _ s Nk Hv) as Ws.
      assert (Hs : fits EM DI s im) by (destruct Hf as [_ [G R]]; split; auto; split; auto; apply Hi; auto).
      apply ev_loop; [apply (opt_total K o Hopt (DestL F false) (dest_id F false)); auto; intros; apply root_eqb_spec|]. intros m [y im'] H. destruct (opt_fits K o Hopt (DestL F false) anyP False (dest_id F false) d_eqb s im m y im') as [A [_ [_ [_ C]]]]; auto; [intros; apply root_eqb_spec|apply anyP_ipred|apply anyP_holds|intros []]. }
    intros [r imr] [Hf2 D2]. cbn [fst snd] in *. destruct (opt_level o =? 1) eqn:E1.
    - destruct (reassign_duplicates_spec DI (DestL F false) true r (proj1 Hf2)) as [r4 [E4 [W6 [_ [_ [_ [K6 [K7 _]]]]]]]]. rewrite E4. cbn [unw rbind]. apply ev_ok. cbn [fst snd]. pose proof Hf2 as [_ [_ [c3 [Hc3 _]]]]. destruct (K6 c3 Hc3) as [c4 [Hc4 [L3 L4]]].
      split; [eapply same_fits; eauto|]. intros id c Hc. apply (K7 id c Hc). apply orb_true_r.
    - cbn [unw rbind]. apply ev_ok. cbn [fst snd]. apply Nat.eqb_neq in E1. split; auto. apply D2. lia.
  Qed.
  Lemma dest_total p3 im : fits EM DI p3 im -> distinct DI p3 -> ev (fun m => r_step_2_dest (K' m) o p3 im) (fun r => fits EM DS (fst r) (snd r) /\ validate _ (fst r) = true /\ has_inputs (fst r) = true).
  Proof.
    intros Hf D. unfold r_step_2_dest. destruct (solve_duplicates_spec p3 (proj1 Hf) D) as [d [E [Wd [_ [_ [Hs _]]]]]]. rewrite E. cbn [unw rbind].
    assert (Hd : fits EM DS d im). { destruct (wr_root _ _ Wd) as [c' [Hc' _]]. destruct (Hs 0 c' Hc') as [_ [c [Hc [Hn _]]]]. eapply same_fits; eauto. }
    apply ev_bind with (P := fun r => fits EM DS (fst r) (snd r)).
    { apply ev_loop; [apply (opt_total K o Hopt (DestL F true) (dest_id F true)); auto; intros; apply root_eqb_spec|]. intros m [y im'] H. destruct (opt_fits K o Hopt (DestL F true) anyP False (dest_id F true) ds_eqb d im m y im') as [A _]; auto; [intros; apply root_eqb_spec|apply anyP_ipred|apply anyP_holds|intros []]. }
    intros [y im'] Hy. eapply ev_bind; [apply ev_chk|]. intros u Hv. cbn beta in Hv. eapply ev_bind; [apply ev_chk|]. intros u2 Hi. cbn beta in Hi. apply ev_ok. auto.
  Qed.
  Lemma middle_total (hl : RootCircuit LI) : wf_root LI hl -> small EM hl -> ev (fun m => r_middle (K' m) o hl) (fun r => let '(_, _, _, _, d, imd, lc, iml) := r in
    fits EM DS d imd /\ validate _ d = true /\ layer_compile (cross_layer K) EM (allow_input_reorder o) d = Some (lc, iml)).
  Proof.
    intros W Sm. unfold r_middle. eapply ev_bind; [apply (build_total hl W Sm)|]. intros [p2 im2] H2. eapply ev_bind; [apply (single_total p2 im2 H2)|]. intros [p3 im3] [H3 D3]. cbn [fst snd] in *.
    eapply ev_bind; [apply (dest_total p3 im3 H3 D3)|]. intros [d imd] [H4 [V4 I4]]. cbn [fst snd] in *.
    destruct (C42_layering_total F (cross_layer K) EM (allow_input_reorder o) d (wf_keys_of _ (proj1 H4)) V4) as [lc [iml E]].
    { intros id c Hc Hz. unfold has_inputs in I4. rewrite forallb_forall in I4. specialize (I4 (id, c) (lookup_In _ _ _ Hc)). cbn [snd] in I4. rewrite Hz in I4. discriminate. }
    cbn [with_fuel cross_layer EMPTY]. rewrite E. cbn [unw rbind]. apply ev_ok. auto.
  Qed.
End Steps2.
