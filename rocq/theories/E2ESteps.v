(* The steps of the compiler (Compile.v), each between the circuits it takes and returns *)
From Verif Require Import Prelude Field InputMapping Expr Topo Ir IrFacts IrInst Hints Sim RemoveUnreachable ReassignDup AddBack FixedPoint Kinds DetectChains
  Builder HnTrans HnSim HnCirc HintExport FinalBuild FbFacts FbSim MulFanout ExportConstraints SolveDuplicates LocalPass IrSplit SplitRoot Layered LayeredOpt Layering Compile E2E
  PropIr PropPasses PropHn PropFb.

(* ------------------------------------------------------------ step 1 *)
Section Step1.
  Context {F : Fld}.
  Variables (K : Config) (o : Options).
  Notation EM := (EMPTY K). Notation SI := (SrcI F). Notation HI := (HnI F).
  Hypothesis Hopt : 1 <= opt_level o.
  Lemma root_inputs_of {I : IRC F} (x : RootCircuit I) c : lookup 0 (circuits x) = Some c -> root_inputs x (num_inputs c).
  Proof. exists c; auto. Qed.
  Lemma good_id n : n <= EM -> im_good EM (im_identity n) /\ next_size (im_identity n) = n.
  Proof. intros H. split; auto. apply im_identity_good; auto. Qed.
  Lemma tied_weaken0 {I0 I : IRC F} (Q : Env F -> Prop) (x : RootCircuit I0) (y : RootCircuit I) im : tied EM (fun _ => True) x y im -> tied EM Q x y im.
  Proof. apply tied_weaken. auto. Qed.
  Lemma dc_stage (Q : Env F -> Prop) (x y : RootCircuit SI) im : wf_root SI x -> im_good EM im -> root_inputs x (next_size im) -> detect_chains x = Some y -> stage EM Q x im y im.
  Proof.
    intros W G Hx H. destruct (detect_chains_spec x W) as [y' [E [Wy [Hp [Hz [_ [Hl Hr]]]]]]]. rewrite H in E. injection E as <-. destruct (wr_root _ _ W) as [c0 [Hc0 _]]. destruct (Hl 0 c0 Hc0) as [c [Hc [_ [_ [Hn [Ho _]]]]]].
    apply (stage_same EM Q x y im c0 c); auto; try congruence. intros E ins outs b. split; intros; apply Hr; auto.
  Qed.
  Lemma src_stage (Q : Env F -> Prop) (P : SInsn F -> Prop) (rc y : RootCircuit SI) im c0 : ipred SI P -> (forall l, P (SLin l)) -> (forall l, P (SMul l)) -> (forall z E, holds SI P z -> Q E -> total SI E (circuits z)) ->
    NoDup (keys (circuits rc)) -> lookup 0 (circuits rc) = Some c0 -> num_inputs c0 <= EM -> holds SI P rc -> step_1_source K o rc = Some (y, im) ->
    stage EM Q rc (im_identity (num_inputs c0)) y im /\ holds SI P y /\ validate _ y = true /\ wf_root SI rc.
  Proof.
    intros HP Hlin Hmul HT Hk Hc0 Hn Hh H. unfold step_1_source in H. apply obind_some in H. destruct H as [u [Hv H]]. apply assert_some in Hv. rewrite Hc0 in H. cbn [obind] in H. apply obind_some in H. destruct H as [[y' im'] [H1 H2]].
    apply obind_some in H2. destruct H2 as [u2 [Hv2 H2]]. apply assert_some in Hv2. injection H2 as -> ->. cbn [fst] in Hv2.
    pose proof (validate_wf_root _ rc Hk Hv) as W. destruct (good_id _ Hn) as [G Gn]. assert (Hx : root_inputs rc (next_size (im_identity (num_inputs c0)))) by (rewrite Gn; apply root_inputs_of; auto).
    cut (stage EM Q rc (im_identity (num_inputs c0)) y im /\ holds SI P y). { intros [A B]. auto. }
    destruct (3 <=? opt_level o) eqn:E3.
    - apply obind_some in H1. destruct H1 as [r1 [Hd H1]]. pose proof (dc_stage Q _ _ _ W G Hx Hd) as S1. destruct (stage_out _ _ _ _ _ _ S1) as [O1 _].
      destruct (loop_stage EM Q (holds SI P) (fun _ => True) s_eqb (src_pass K)) with (fuel := fuel K) (x := r1) (im := im_identity (num_inputs c0)) (y := y) (im' := im) as [S2 [I2 _]]; auto.
      + intros a b. apply root_eqb_spec.
      + intros z z' imz Wz Sz Iz Hz. unfold src_pass in Hz. apply obind_some in Hz. destruct Hz as [[z1 im1] [Z1 Z2]]. cbn [fst snd] in Z2. apply obind_some in Z2. destruct Z2 as [z2 [Z2 Z3]]. injection Z3 as -> ->.
        destruct (op_stage EM (SrcL F) Q z z1 imz Wz Sz (fun E => HT z E Iz) Z1) as [A1 [A2 A3]]. pose proof (op_holds EM (I := SI) P z z1 imz HP Z1 Iz) as A4.
        destruct (stage_out _ _ _ _ _ _ (dc_stage Q z1 z' imz A1 (td_good _ _ _ _ _ A3) (tied_out _ _ _ _ _ A3) Z2)) as [B1 _].
        destruct (dc_stage Q z1 z' imz A1 (td_good _ _ _ _ _ A3) (tied_out _ _ _ _ _ A3) Z2) as [B2 [d [B3 B4]]]. split; auto. split; [apply (dc_holds P Hlin Hmul z1 z' A1 Z2 A4)|]. split; auto.
        destruct (detect_chains_spec z1 A1) as [w [C1 [C2 [C3 [C4 [_ [C6 C7]]]]]]]. rewrite Z2 in C1. injection C1 as <-. destruct A3 as [T1 [ca [cb [T2 [T3 [T4 [T5 T6]]]]]] T7 T8]. destruct (C6 0 cb T3) as [cc [D1 [_ [_ [D2 [D3 _]]]]]]. split; auto.
        * exists ca, cc. repeat (split; auto); congruence.
        * congruence.
        * intros ins ins' Hm E outs b. destruct (T8 ins ins' Hm E outs b) as [U1 U2]. split; [intros; apply C7; auto|intros HQ Hr; apply U2; auto; apply C7; auto].
      + apply (st_wf _ _ _ _ _ _ S1).
      + apply (dc_holds P Hlin Hmul rc r1 W Hd Hh).
      + split; auto. eapply stage_trans; eauto.
    - destruct (1 <=? opt_level o) eqn:E1; [|apply Nat.leb_gt in E1; lia]. apply obind_some in H1. destruct H1 as [r1 [Hd H1]]. apply obind_some in H1. destruct H1 as [[z imz] [H1 H2]]. cbn [fst snd] in H2. apply obind_some in H2. destruct H2 as [im2 [H2 H3]]. injection H3 as -> ->.
      pose proof (dc_stage Q _ _ _ W G Hx Hd) as S1. destruct (stage_out _ _ _ _ _ _ S1) as [O1 _]. pose proof (dc_holds P Hlin Hmul _ _ W Hd Hh) as H1h.
      destruct (ru_stage EM (SrcL F) Q r1 y imz (st_wf _ _ _ _ _ _ S1) (stage_small _ _ _ _ _ _ S1) (fun E => HT r1 E H1h) H1) as [A1 [A2 A3]]. split.
      + eapply stage_trans; eauto. eapply stage_compose; eauto.
      + eapply ru_holds; eauto.
  Qed.
End Step1.

Section Step1b.
  Context {F : Fld}.
  Variables (K : Config) (o : Options).
  Notation EM := (EMPTY K). Notation SI := (SrcI F). Notation HI := (HnI F).
  Hypothesis Hopt : 1 <= opt_level o.
  Definition anyP {I : IRC F} (i : Insn I) : Prop := True.
  Lemma anyP_ipred (I : IRC F) : ipred I (anyP (I := I)).
  Proof. split; intros; exact Logic.I. Qed.
  Lemma anyP_holds {I : IRC F} (x : RootCircuit I) : holds I anyP x.
  Proof. intros id c Hc. apply Forall_forall. intros; exact Logic.I. Qed.
  Definition QH (E : Env F) : Prop := env_answers HintNormalized E.
  Lemma wf_keys_of {I : IRC F} (x : RootCircuit I) : wf_root I x -> NoDup (keys (circuits x)).
  Proof. intros W. apply (wf_keys _ _ (wr_cs _ _ W)). Qed.
  Lemma hn_stage (src : RootCircuit SI) im y im' : wf_root SI src -> validate _ src = true -> im_good EM im -> root_inputs src (next_size im) -> step_1_hints K o src im = Some (y, im') ->
    exists hn, hn_process src = Ok hn /\ (forall n, root_inputs src n <-> root_inputs hn n) /\
      (forall E ins outs b, (forall h n args outs, impl_builtin_hint h n args = Some outs -> e_hint E (builtin_id h) n args outs) -> root_run SI E src ins outs b -> root_run HI E hn ins outs b) /\
      wf_root HI hn /\ stage EM QH hn im y im' /\ uncalled HI 0 y /\ validate _ y = true.
  Proof.
    intros W Hv G Hx H. unfold step_1_hints in H. apply obind_some in H. destruct H as [hn [H1 H]]. apply ok_some in H1. apply obind_some in H. destruct H as [[y1 im1] [H2 H]]. apply obind_some in H. destruct H as [u [Hv2 H]]. apply assert_some in Hv2. cbn [fst] in Hv2. injection H as -> ->.
    exists hn. split; auto. destruct (C07_complete F src (wf_keys_of _ W) Hv) as [[E _]|[hn' [E [Wh [_ [_ [Hk [Hs Hr]]]]]]]]; [congruence|]. rewrite H1 in E. injection E as <-.
    assert (Hin : forall n, root_inputs src n <-> root_inputs hn n).
    { destruct (wr_root _ _ W) as [c0 [Hc0 _]]. destruct (Hs 0 c0 Hc0) as [c [Hc [Hn _]]]. intros n. split; intros [c1 [Hc1 <-]]; [exists c|exists c0]; split; auto; congruence. }
    split; auto. split; auto. split; auto.
    destruct (opt_stage_ok K o (HnL F) QH anyP False h_eqb hn im y im') as [A [_ [_ B]]]; auto.
    - intros a b. apply root_eqb_spec.
    - apply anyP_ipred.
    - intros z E _ HE. apply (stage_total F HintNormalized E z); auto. discriminate.
    - apply Hin. auto.
    - apply anyP_holds.
    - intros [].
  Qed.
End Step1b.

(* ------------------------------------------------------------ step 2, up to r_dest_relaxed_p2 *)
Section Step2.
  Context {F : Fld}.
  Variables (K : Config) (o : Options).
  Notation EM := (EMPTY K). Notation LI := (HlI F). Notation DI := (DestI F false). Notation DS := (DestI F true).
  Hypothesis Hopt : 1 <= opt_level o.
  Hypothesis Hlim : forall l, mul_fanout_limit o = Some l -> 1 < l.
  Variable nr : Prop.
  Definition Qr (E : Env F) : Prop := exists r, e_rnd E r.
  (* whatever is drawn is the same, or nothing is drawn *)
  Definition Q2 (E : Env F) : Prop := Qr E /\ (one_rnd E \/ nr).
  Lemma Qr_total {s} (Hs : s <> Source) (Hh : s <> HintNormalized) E (z : RootCircuit (irc_of F s)) : Qr E -> total _ E (circuits z).
  Proof. intros HE. apply (stage_total F s E z Hs). split; auto. destruct s; auto. contradiction. Qed.
  Lemma PD_quiet E (x : RootCircuit DI) : holds DI (PD nr) x -> (one_rnd E \/ nr) -> forall id c, lookup id (circuits x) = Some c -> Forall (quiet E) (instructions c : list (DInsn F)).
  Proof.
    intros Hh Hq id c Hc. eapply Forall_impl; [|apply (Hh id c Hc)]. intros i [H1 H2]. destruct Hq as [Hq|Hq]; [left; exact Hq|right; split; auto].
  Qed.
  Lemma build_stage (hl : RootCircuit LI) y im : wf_root LI hl -> small EM hl -> holds LI (PL nr) hl -> step_2_build K o hl = Some (y, im) ->
    wf_root DI y /\ tied EM Q2 hl y im /\ holds DI (PD nr) y /\ (random_combination K = false -> bare DI y) /\ uncalled DI 0 y /\ validate _ y = true.
  Proof.
    intros W Sm Hh H. unfold step_2_build in H. apply obind_some in H. destruct H as [c0 [Hc0 H]]. pose proof (Sm c0 Hc0) as Hn. destruct (good_id K _ Hn) as [G Gn].
    assert (Hx : root_inputs hl (next_size (im_identity (num_inputs c0)))) by (rewrite Gn; apply root_inputs_of; auto).
    apply obind_some in H. destruct H as [[h1 im1] [H1 H]]. apply obind_some in H. destruct H as [u1 [Hv1 H]]. apply assert_some in Hv1. cbn [fst snd] in *.
    assert (S1 : stage EM Q2 hl (im_identity (num_inputs c0)) h1 im1 /\ holds LI (PL nr) h1).
    { destruct (2 <=? opt_level o); [|injection H1 as <- <-; split; auto; apply stage_refl; auto].
      destruct (loop_stage EM Q2 (holds LI (PL nr)) (fun _ => True) l_eqb (opt_pass EM)) with (fuel := fuel K) (x := hl) (im := im_identity (num_inputs c0)) (y := h1) (im' := im1) as [S2 [I2 _]]; auto.
      - intros a b. apply root_eqb_spec.
      - intros z z' imz Wz Sz Iz Hz. destruct (op_stage EM (HlL F) Q2 z z' imz Wz Sz) as [A1 [A2 A3]]; auto; [intros E [HE _]; apply (Qr_total (s := HintLess)); auto; discriminate|].
        split; auto. split; auto. apply (op_holds EM (I := LI) (PL nr) z z' imz (PL_ipred nr) Hz Iz). }
    destruct S1 as [S1 P1]. destruct (stage_out _ _ _ _ _ _ S1) as [O1 [G1 N1]].
    apply obind_some in H. destruct H as [d [H2 H]]. apply ok_some in H2. destruct (fb_process_spec (costs K) h1 (st_wf _ _ _ _ _ _ S1) (l_validate_insns_valid h1 Hv1)) as [[d' [Ed Hr]]|[[Ed _]|[Ed _]]]; try congruence. rewrite H2 in Ed. injection Ed as <-.
    assert (S2 : stage EM Q2 h1 im1 d im1).
    { destruct O1 as [c1 [Hc1 Hn1]]. destruct (fr_fwd _ _ Hr 0 c1 Hc1) as [c1' [Hc1' [[_ [L1 [L2 _]]] _]]]. apply (stage_same EM Q2 h1 d im1 c1 c1'); auto.
      - exists c1; auto.
      - apply (fr_wf _ _ Hr).
      - rewrite (fr_zero _ _ Hr). lia.
      - apply (fr_pub _ _ Hr).
      - intros E ins outs b. split; intros; apply (fb_behaviour h1 d E (st_wf _ _ _ _ _ _ S1) Hr ins outs b); auto. }
    assert (P2 : holds DI (PD nr) d).
    { intros id c' Hc'. assert (Hid : In id (keys (circuits h1))) by (apply (fr_keys _ _ Hr); apply lookup_keys; eauto). apply lookup_keys in Hid. destruct Hid as [c Hc]. destruct (fr_fwd _ _ Hr id c Hc) as [c2 [Hc2 [_ [_ [_ Hp]]]]].
      rewrite Hc' in Hc2. injection Hc2 as <-. eapply PL_PD; [apply (P1 id c Hc)|exact Hp]. }
    pose proof (stage_trans _ _ _ _ _ _ _ _ G Hx S1 S2) as S02. destruct (stage_out _ _ _ _ _ _ S02) as [O2 [G2 N2]].
    apply obind_some in H. destruct H as [[d1 im2] [H3 H]]. apply obind_some in H. destruct H as [u2 [Hv2 H]]. apply assert_some in Hv2. cbn [fst snd] in *.
    destruct (opt_stage_ok K o (DestL F false) Q2 (PD nr) False d_eqb d im1 d1 im2) as [S3 [P3 [_ U3]]]; auto.
    { intros a b. apply root_eqb_spec. } { apply PD_ipred. } { intros z E _ [HE _]. apply (Qr_total (s := DestRelaxed)); auto; discriminate. } { apply (st_wf _ _ _ _ _ _ S2). } { intros []. }
    pose proof (stage_trans _ _ _ _ _ _ _ _ G Hx S02 S3) as S03. destruct (stage_out _ _ _ _ _ _ S03) as [O3 [G3 N3]].
    apply obind_some in H. destruct H as [d2 [H4 H]].
    assert (S4 : stage EM Q2 d1 im2 d2 im2 /\ holds DI (PD nr) d2 /\ uncalled DI 0 d2 /\ validate _ d2 = true).
    { destruct (mul_fanout_limit o) as [lim|] eqn:El; [|injection H4 as <-; split; auto; apply stage_refl; auto; apply (st_wf _ _ _ _ _ _ S3)].
      apply obind_some in H4. destruct H4 as [d2' [H4 H5]]. apply obind_some in H5. destruct H5 as [u3 [Hv3 H5]]. apply assert_some in Hv3. injection H5 as ->. pose proof (Hlim lim eq_refl) as Hl.
      pose proof (st_wf _ _ _ _ _ _ S3) as W3. destruct (fo_holds nr lim d1 d2 W3 H4 P3 U3) as [P4 U4]. split; [|auto].
      destruct (solve_mul_fanout_spec lim Hl d1 W3) as [d3 [E3 [W4 [Q1 [Q2' [Q3 [Q4 Q5]]]]]]]. { intros id c Hc. eapply Forall_impl; [|apply (P3 id c Hc)]. intros i Hi; apply Hi. } rewrite H4 in E3. injection E3 as <-.
      destruct (wr_root _ _ W4) as [c2 [Hc2 _]]. destruct (Q3 0 c2 Hc2) as [_ [c1 [Hc1 [L1 L2]]]]. apply (stage_same EM Q2 d1 d2 im2 c1 c2); auto; try (rewrite L2; lia). intros E ins outs b. split; [apply Q4|]. intros [_ HE]. apply Q5. apply (PD_quiet E d1 P3 HE). }
    destruct S4 as [S4 [P4 [U4 V4]]]. pose proof (stage_trans _ _ _ _ _ _ _ _ G Hx S03 S4) as S04. destruct (stage_out _ _ _ _ _ _ S04) as [O4 [G4 N4]].
    destruct (random_combination K) eqn:Er.
    - injection H as <- <-. split; [apply (st_wf _ _ _ _ _ _ S4)|]. split; [eapply stage_id; [|exact Hn|exact S04]; apply root_inputs_of; auto|]. split; auto. split; [discriminate|]. auto.
    - apply obind_some in H. destruct H as [r3 [H5 H]]. apply obind_some in H. destruct H as [r4 [H6 H]]. apply obind_some in H. destruct H as [[r5 im5] [H7 H]]. cbn [fst snd] in H. apply obind_some in H. destruct H as [im6 [H8 H]]. apply obind_some in H. destruct H as [u4 [Hv4 H]]. apply assert_some in Hv4. cbn [fst] in Hv4. injection H as <- <-.
      pose proof (st_wf _ _ _ _ _ _ S4) as W4. destruct (export_constraints_spec d2 W4 U4) as [r3' [add [E3 [W5 [X1 [X2 [X3 [X4 [X5 [X6 _]]]]]]]]]]. rewrite H5 in E3. injection E3 as <-.
      destruct (wr_root _ _ W4) as [c2 [Hc2 Hz2]]. destruct (X5 c2 Hc2) as [c3 [Hc3 [L1 L2]]].
      assert (S5 : stage EM Q2 d2 im2 r3 im2) by (apply (stage_same EM Q2 d2 r3 im2 c2 c3); auto; [rewrite L2, X2; lia|]; intros E ins outs b; split; intros; apply X6; auto).
      pose proof (xc_holds nr d2 r3 H5 P4) as P5. assert (B5 : bare DI r3) by (intros id c Hc; apply (X4 id c Hc)).
      pose proof (stage_trans _ _ _ _ _ _ _ _ G Hx S04 S5) as S05. destruct (stage_out _ _ _ _ _ _ S05) as [O5 [G5 N5]].
      pose proof (ra_stage EM (DestL F false) Q2 false r3 r4 im2 W5 G5 O5 H6) as S6. pose proof (ra_holds DI (PD nr) (PD_ipred nr false) false r3 r4 H6 P5) as P6. pose proof (ra_bare DI false r3 r4 H6 B5) as B6.
      pose proof (stage_trans _ _ _ _ _ _ _ _ G Hx S05 S6) as S06. destruct (stage_out _ _ _ _ _ _ S06) as [O6 [G6 N6]].
      destruct (ru_stage EM (DestL F false) Q2 r4 r5 im5 (st_wf _ _ _ _ _ _ S6) (stage_small _ _ _ _ _ _ S06)) as [W7 [U7 T7]]; auto; [intros E [HE _]; apply (Qr_total (s := DestRelaxed)); auto; discriminate|].
      split; auto. split; [|split; [apply (ru_holds DI (PD nr) (PD_ipred nr false) EM r4 r5 im5 H7 P6)|split; auto; intros _; eapply ru_bare; eauto]].
      eapply stage_id; [apply root_inputs_of; exact Hc0|exact Hn|]. eapply stage_trans; [exact G|exact Hx|exact S06|]. eapply stage_compose; eauto.
  Qed.
End Step2.
