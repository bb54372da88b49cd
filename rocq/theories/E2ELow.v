(* Step 2 after r_dest_relaxed_p2, and layering (Compile.v): circuits that check their constraints by a random combination *)
From Verif Require Import Prelude Field InputMapping Expr Topo Ir IrFacts IrInst Hints Sim RemoveUnreachable ReassignDup AddBack FixedPoint Kinds DetectChains
  Builder HnTrans HnSim HnCirc HintExport FinalBuild FbFacts FbSim MulFanout ExportConstraints SolveDuplicates LocalPass IrSplit SplitRoot Layered LayeredOpt Layering Compile E2E
  PropIr PropPasses PropHn PropFb PropSplit PropLayering PropLayeredOpt Settled E2ESteps.

Section Covers.
  Variables (EMPTY : nat) (rand : bool).
  Context {F : Fld}.
  (* runs related as by the random combination of constraints *)
  Definition comb_at (Q : Env F -> Prop) (E : Env F) (R R' : list F -> bool -> Prop) : Prop := Qr E ->
    (forall outs, R outs true -> R' outs true) /\
    ((rand = true -> forall r, e_rnd E r) -> forall outs, R outs false -> R' outs false) /\
    (Q E -> forall outs sat, R' outs sat -> exists b, R outs b /\ (b = true -> sat = true)).
  Definition comb (Q : Env F -> Prop) (R R' : Env F -> list F -> bool -> Prop) : Prop := forall E, comb_at Q E (R E) (R' E).
  Lemma comb_at_trans Q E R R1 R2 : comb_at Q E R R1 -> comb_at Q E R1 R2 -> comb_at Q E R R2.
  Proof.
    intros H1 H2 HE. destruct (H1 HE) as [A1 [A2 A3]], (H2 HE) as [B1 [B2 B3]]. split; [auto|]. split; [auto|]. intros HQ outs sat H. destruct (B3 HQ _ _ H) as [b [X Y]]. destruct (A3 HQ _ _ X) as [b' [X' Y']]. eauto.
  Qed.
  Lemma comb_trans Q R R1 R2 : comb Q R R1 -> comb Q R1 R2 -> comb Q R R2.
  Proof.
    intros H1 H2 E HE. destruct (H1 E HE) as [A1 [A2 A3]], (H2 E HE) as [B1 [B2 B3]]. split; [auto|]. split; [auto|]. intros HQ outs sat H. destruct (B3 HQ _ _ H) as [b [X Y]]. destruct (A3 HQ _ _ X) as [b' [X' Y']]. eauto.
  Qed.
  Lemma comb_iff (Q : Env F -> Prop) (R R' : Env F -> list F -> bool -> Prop) : (forall E outs b, Qr E -> (R E outs b -> R' E outs b) /\ (Q E -> R' E outs b -> R E outs b)) -> comb Q R R'.
  Proof. intros H E HE. split; [intros; apply H; auto|]. split; [intros; apply H; auto|]. intros HQ outs sat Hr. exists sat. split; auto. apply H; auto. Qed.
  Record covers {I I' : IRC F} (Q : Env F -> Prop) (x : RootCircuit I) (y : RootCircuit I') (im : InputMapping) : Prop := {
    cv_wf : wf_root I' y;
    cv_good : im_good EMPTY im;
    cv_in : root_inputs x (cur_size im);
    cv_out : root_inputs y (next_size im);
    cv_pub : num_public_inputs y = num_public_inputs x;
    cv_runs : forall ins ins', map_inputs EMPTY f0 im ins = Some ins' -> comb Q (fun E => root_run I E x ins) (fun E => root_run I' E y ins') }.
  Lemma tied_covers {I I' : IRC F} (Q : Env F -> Prop) (x : RootCircuit I) (y : RootCircuit I') im : wf_root I' y -> tied EMPTY Q x y im -> covers Q x y im.
  Proof.
    intros W [T1 [c0 [c [T2 [T3 [T4 [T5 T6]]]]]] T7 T8]. split; auto.
    - exists c0. auto.
    - exists c. auto.
    - intros ins ins' Hm. apply comb_iff. intros E outs b _. apply T8; auto.
  Qed.
  Lemma covers_weaken {I I' : IRC F} (Q Q' : Env F -> Prop) (x : RootCircuit I) (y : RootCircuit I') im : (forall E, Q' E -> Q E) -> covers Q x y im -> covers Q' x y im.
  Proof. intros H [A B C D E G]. split; auto. intros ins ins' Hm E0 HE. destruct (G ins ins' Hm E0 HE) as [X [Y Z]]. split; auto. Qed.
  Lemma covers_stage {I0 I I' : IRC F} (Q : Env F -> Prop) (x : RootCircuit I0) (y : RootCircuit I) (z : RootCircuit I') im im' : covers Q x y im -> stage EMPTY Q y im z im' -> covers Q x z im'.
  Proof.
    intros [A B C D E G] S. destruct (stage_out _ _ _ _ _ _ S) as [O1 [O2 O3]]. destruct S as [W [d [T [R1 [R2 [R3 R4]]]]]]. split; auto.
    - rewrite O3. auto.
    - destruct T as [_ _ T _]. congruence.
    - intros ins ins' Hm. destruct (im_ext EMPTY f0 im ins B) as [mid [M1 M2]]. { rewrite <- O3. eapply map_inputs_len; eauto. }
      rewrite (R4 _ _ _ _ M1) in Hm. apply (comb_trans Q _ _ _ (G ins mid M1)). apply comb_iff. intros E0 outs b _. apply T; auto.
  Qed.
  (* a pass that keeps the inputs *)
  Lemma covers_same {I0 I I' : IRC F} (Q : Env F -> Prop) (x : RootCircuit I0) (y : RootCircuit I) (z : RootCircuit I') im : covers Q x y im -> wf_root I' z -> root_inputs z (next_size im) -> num_public_inputs z = num_public_inputs y ->
    (forall ins, comb Q (fun E => root_run I E y ins) (fun E => root_run I' E z ins)) -> covers Q x z im.
  Proof.
    intros [A B C D E G] W Hn Hp Hr. split; auto; [congruence|]. intros ins ins' Hm. apply (comb_trans Q _ _ _ (G ins ins' Hm)). apply Hr.
  Qed.
End Covers.

Section Low.
  Context {F : Fld}.
  Variables (K : Config) (o : Options).
  Notation EM := (EMPTY K). Notation LI := (HlI F). Notation DI := (DestI F false). Notation DS := (DestI F true). Notation rand := (random_combination K).
  Hypothesis Hopt : 1 <= opt_level o.
  Variable nr : Prop.
  (* all draws are equal, or nothing is drawn before constraints are combined *)
  Definition Q3 (E : Env F) : Prop := Qr E /\ (one_rnd E \/ nr).
  Definition stl (x : RootCircuit DI) : Prop := nr -> settled DI nodraw nocall x.
  Lemma PD_nodraw : nr -> forall i : DInsn F, PD nr i -> nodraw i. Proof. intros Hn i [A B]. split; auto. Qed.
  Lemma PD_stl (x : RootCircuit DI) : holds DI (PD nr) x -> stl x.
  Proof. intros H Hn id c Hc. apply two_P. eapply Forall_impl; [|apply (H id c Hc)]. apply PD_nodraw; auto. Qed.
  Lemma stl_calm (x : RootCircuit DI) E : stl x -> one_rnd E \/ nr -> forall id c, lookup id (circuits x) = Some c -> calm E (instructions c : list (DInsn F)).
  Proof.
    intros Hs [H1|Hn] id c Hc; [apply quiet_calm, Forall_forall; intros i _; left; exact H1|]. destruct (Hs Hn id c Hc) as [a [b [E1 [A B]]]]. exists a, b. split; [exact E1|]. split; [|exact B]. eapply Forall_impl; [|exact A]. intros i Hi. right. exact Hi.
  Qed.
  Lemma single_covers (hl : RootCircuit LI) (p2 p3 : RootCircuit DI) im im' : covers EM rand Q3 hl p2 im -> validate _ p2 = true -> holds DI (PD nr) p2 -> (rand = false -> bare DI p2) -> uncalled DI 0 p2 ->
    (cross_layer K = false -> (forall id c, lookup id (circuits p2) = Some c -> (Z.of_nat (length (constraints c)) < fmod F)%Z) /\ (rand = true -> constrained (circuits p2) 0)) ->
    step_2_single K o p2 im = Some (p3, im') -> covers EM rand Q3 hl p3 im' /\ stl p3 /\ (rand = false -> bare DI p3).
  Proof.
    intros CV Hv HP HB HU Hcx H. unfold step_2_single in H. apply obind_some in H. destruct H as [[r im1] [H1 H]]. cbn [fst snd] in H. apply obind_some in H. destruct H as [r2 [H2 H]]. injection H as -> ->.
    assert (S1 : covers EM rand Q3 hl r im' /\ stl r /\ (rand = false -> bare DI r)).
    { destruct (cross_layer K) eqn:Ec; [injection H1 as <- <-; split; auto; split; auto; apply PD_stl; auto|]. destruct (Hcx eq_refl) as [Hfew Hcon]. apply obind_some in H1. destruct H1 as [s [Hs H1]]. apply obind_some in H1. destruct H1 as [u [_ H1]].
      assert (Hc1 : if rand then constrained (circuits p2) 0 else unconstrained p2) by (destruct rand; [auto|intros id c Hc; apply (HB eq_refl id c Hc)]).
      destruct (C18_split_to_single_layer F rand p2 s (wf_keys_of _ (cv_wf _ _ _ _ _ _ CV)) Hv Hs Hfew Hc1) as [X1 [X2 [X3 X4]]].
      assert (Hin : root_inputs s (next_size im)).
      { destruct (split_spec rand p2 s (cv_wf _ _ _ _ _ _ CV) Hs Hfew) as [P1 P2 P3 P4 [c0 [c0' [k [Hc0 [Hc0' [Hn _]]]]]]]. { intros Er id c Hc. apply (HB Er id c Hc). }
        { intros E. rewrite E in Hc1. clear -Hc1. induction Hc1 as [id c Q1 Q2|id c o' Q1 Q2 Q3 IH]; [eapply RC_own; eauto|eapply RC_call; eauto]. }
        destruct (cv_out _ _ _ _ _ _ CV) as [c1 [Hc1' <-]]. exists c0'. split; auto. congruence. }
      assert (C2 : covers EM rand Q3 hl s im).
      { apply (covers_same EM rand Q3 hl p2 s im CV); auto. intros ins E HE. destruct (X4 E ins HE) as [Y1 [Y2 [Y3 Y4]]]. split; auto. split; [|auto]. intros Hr outs Hf. destruct rand; [auto|]. apply Y4; auto. }
      destruct (opt_stage_ok K o (DestL F false) Q3 anyP (rand = false) d_eqb s im r im') as [S3 [_ [B3 U3]]]; auto.
      - intros a b. apply root_eqb_spec.
      - apply anyP_ipred.
      - intros z E _ [HE _]. apply (Qr_total (s := DestRelaxed)); auto; discriminate.
      - apply (cv_good _ _ _ _ _ _ CV).
      - apply anyP_holds.
      - split; [eapply covers_stage; eauto|]. split; [|auto]. intros Hn. eapply (opt_stage_settled DI nodraw nocall (nodraw_ipred false) (nocall_ipred false) K o); eauto. apply (split_settled rand p2 s Hs). intros id c Hc. eapply Forall_impl; [|apply (HP id c Hc)]. apply PD_nodraw; auto. }
    destruct S1 as [C1 [P1 B1]]. destruct (opt_level o =? 1); [|injection H2 as <-; auto].
    split; [|split].
    - eapply covers_stage; [exact C1|]. apply (ra_stage EM (DestL F false) Q3 true r p3 im'); auto; [apply C1|apply C1|apply C1].
    - intros Hn. apply (ra_settled DI nodraw nocall (nodraw_ipred false) (nocall_ipred false) true r p3 H2 (P1 Hn)).
    - intros Hr. apply (ra_bare DI true r p3 H2 (B1 Hr)).
  Qed.
  Lemma sd_inv (x : RootCircuit DI) (y : RootCircuit DS) : wf_root DI x -> solve_duplicates x = Some y ->
    (forall id c, lookup id (circuits x) = Some c -> NoDup (outputs c)) /\ (bare DI x -> bare DS y).
  Proof.
    intros W H. unfold solve_duplicates, local_pass in H. apply obind_some in H. destruct H as [cs' [H H2]]. injection H2 as <-. cbn [circuits]. unfold local_circuits in H.
    assert (G : forall (l : list (nat * Circuit DI)) (l' : list (nat * Circuit DS)), omap (fun p => let* c' := sd_circuit (snd p) in Some (fst p, c')) l = Some l' -> forall p, In p l -> exists c', sd_circuit (snd p) = Some c' /\ In (fst p, c') l').
    { induction l as [|p l IH]; intros l' Hl q Hq; [destruct Hq|]. cbn [omap] in Hl. apply obind_some in Hl. destruct Hl as [a [Ha Hl]]. apply obind_some in Hl. destruct Hl as [l1 [Hl1 Hl]]. injection Hl as <-. apply obind_some in Ha. destruct Ha as [c1 [Hs Ha]]. injection Ha as <-.
      destruct Hq as [<-|Hq]; [exists c1; split; auto; left; auto|]. destruct (IH l1 Hl1 q Hq) as [c' [A B]]. exists c'. split; auto. right; auto. }
    assert (Gb : forall (l : list (nat * Circuit DI)) (l' : list (nat * Circuit DS)), omap (fun p => let* c' := sd_circuit (snd p) in Some (fst p, c')) l = Some l' -> forall p, In p l' -> exists c, sd_circuit c = Some (snd p) /\ In (fst p, c) l).
    { induction l as [|p l IH]; intros l' Hl q Hq; cbn [omap] in Hl; [injection Hl as <-; destruct Hq|]. apply obind_some in Hl. destruct Hl as [a [Ha Hl]]. apply obind_some in Hl. destruct Hl as [l1 [Hl1 Hl]]. injection Hl as <-. apply obind_some in Ha. destruct Ha as [c1 [Hs Ha]]. injection Ha as <-.
      destruct Hq as [<-|Hq]; [exists (snd p); split; auto; left; destruct p; auto|]. destruct (IH l1 Hl1 q Hq) as [c' [A B]]. exists c'. split; auto. right; auto. }
    split.
    - intros id c Hc. apply lookup_In in Hc. destruct (G _ _ H _ Hc) as [c' [Hs _]]. unfold sd_circuit in Hs. cbn [snd] in Hs. destruct (sd_insns _ _ _ _). destruct (nodupb (outputs c)) eqn:En; [|discriminate]. apply nodupb_iff; auto.
    - intros HB id c' Hc'. apply lookup_In in Hc'. destruct (Gb _ _ H _ Hc') as [c [Hs Hc]]. cbn [fst snd] in *. apply In_lookup in Hc; [|apply (wf_keys_of _ W)]. pose proof (HB id c Hc) as Hb. unfold sd_circuit in Hs. destruct (sd_insns _ _ _ _). destruct (nodupb (outputs c)); [|discriminate]. injection Hs as <-.
      cbn [constraints]. change (Con DI) with nat in Hb. rewrite Hb. reflexivity.
  Qed.
  Lemma dest_covers (hl : RootCircuit LI) (p3 : RootCircuit DI) (d : RootCircuit DS) im im' : covers EM rand Q3 hl p3 im -> stl p3 -> (rand = false -> bare DI p3) ->
    step_2_dest K o p3 im = Some (d, im') -> covers EM rand Q3 hl d im' /\ (rand = false -> bare DS d) /\ validate _ d = true.
  Proof.
    intros CV HP HB H. unfold step_2_dest in H. apply obind_some in H. destruct H as [s [Hs H]]. apply obind_some in H. destruct H as [[d1 im1] [H1 H]]. cbn [fst snd] in H. apply obind_some in H. destruct H as [u1 [Hv H]]. apply assert_some in Hv. apply obind_some in H. destruct H as [u2 [_ H]]. injection H as -> ->.
    pose proof (cv_wf _ _ _ _ _ _ CV) as W. destruct (sd_inv p3 s W Hs) as [N1 N2]. destruct (solve_duplicates_spec p3 W N1) as [s' [E [Ws [X1 [X2 [X3 [X4 X5]]]]]]]. rewrite Hs in E. injection E as <-.
    assert (Hin : root_inputs s (next_size im)). { destruct (cv_out _ _ _ _ _ _ CV) as [c0 [Hc0 <-]]. destruct (wr_root _ _ Ws) as [c1 [Hc1 _]]. destruct (X3 0 c1 Hc1) as [_ [c [Hc [Hn _]]]]. exists c1. split; auto. congruence. }
    assert (C2 : covers EM rand Q3 hl s im).
    { apply (covers_same EM rand Q3 hl p3 s im CV); auto. intros ins. apply comb_iff. intros E outs b _. split; [apply X4|]. intros [_ HQ]. apply X5. intros id c Hc. eapply stl_calm; eauto. }
    destruct (opt_stage_ok K o (DestL F true) Q3 anyP (rand = false) ds_eqb s im d im') as [S3 [_ [B3 U3]]]; auto.
    - intros a b. apply root_eqb_spec.
    - apply anyP_ipred.
    - intros z E _ [HE _]. apply (Qr_total (s := Dest)); auto; discriminate.
    - apply (cv_good _ _ _ _ _ _ CV).
    - apply anyP_holds.
    - split; [eapply covers_stage; eauto|]. split; auto.
  Qed.
End Low.
