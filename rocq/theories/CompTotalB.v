(* The compiler never panics: outcomes of the steps of Compile.v, with errors told from panics. *)
From Verif Require Import Prelude Field InputMapping Expr Topo Ir IrFacts IrInst Hints Sim RemoveUnreachable ReassignDup AddBack FixedPoint Kinds DetectChains
  Builder HnTrans HnSim HnCirc HintExport FinalBuild FbFacts FbSim MulFanout ExportConstraints SolveDuplicates LocalPass IrSplit SplitRoot Layered LayeredFacts LayeredOpt Layering Compile E2E E2ERun
  PropIr PropPasses PropHn PropFb PropSplit PropLayering E2ESteps Terminate PropTerminate CompTotal SplitTot SplitTotB SplitTotC SplitTotD PropSplitTotal PropLayTotal CompileR.
Open Scope nat_scope.

(* ------------------------------------------------------------ what the loop of optimisations leaves has distinct outputs *)
Section LoopDistinct.
  Variable EMPTY : nat.
  Context {F : Fld} (I : IRC F) (L : IRC_laws I) (KI : IRC_id I).
  Variable eqb : RootCircuit I -> RootCircuit I -> bool.
  Hypothesis Heq : forall x y, eqb x y = true <-> same_root I x y.
  Lemma distinct_same (x y : RootCircuit I) : same_root I x y -> distinct I x -> distinct I y.
  Proof. intros [_ [_ H]] D id c Hc. rewrite <- H in Hc. eauto. Qed.
  Lemma fixed_distinct (u z : RootCircuit I) imz : wf_root I u -> small EMPTY u -> opt_pass EMPTY u = Some (z, imz) -> same_root I u z -> distinct I z.
  Proof.
    intros W S H E. destruct (op_shrinks EMPTY I L KI u W S) as [z' [im' [H1 [_ [_ [N _]]]]]]. rewrite H in H1. injection H1 as <- <-.
    assert (Nu : neat I u) by (eapply neat_same; [apply same_sym; exact E|exact N]). destruct (op_parts I L EMPTY u z imz W Nu H) as [A _]. eapply neat_ru; eauto.
  Qed.
  Lemma loop_distinct fuel x im y im' : fits EMPTY I x im -> optimize_until_fixed_point EMPTY eqb (opt_pass EMPTY) fuel x im = Some (y, im') -> distinct I y.
  Proof.
    assert (Hl : forall fuel x im, fits EMPTY I x im -> opt_loop EMPTY eqb (opt_pass EMPTY) fuel x im = Some (y, im') -> distinct I y).
    { clear fuel x im. induction fuel as [|fl IH]; intros z imz Hz H; [discriminate|]. cbn [opt_loop] in H. apply obind_some in H. destruct H as [[z1 im1] [H1 H2]]. cbn [fst snd] in H2. destruct (eqb z z1) eqn:E.
      - injection H2 as <- <-. apply Heq in E. eapply distinct_same; [apply same_sym; exact E|]. eapply fixed_distinct; eauto; [apply Hz|eapply fits_small; eauto].
      - apply obind_some in H2. destruct H2 as [im2 [H2 H3]]. destruct (op_shrinks EMPTY I L KI z (proj1 Hz) (fits_small EMPTY I _ _ Hz)) as [z' [i' [X1 [X2 [X3 _]]]]]. rewrite H1 in X1. injection X1 as <- <-.
        destruct (fits_next EMPTY I _ _ _ _ Hz X2 X3) as [im3 [Y1 Y2]]. rewrite H2 in Y1. injection Y1 as <-. eauto. }
    intros Hz H. unfold optimize_until_fixed_point in H. apply obind_some in H. destruct H as [[z1 im1] [H1 H2]]. cbn [fst snd] in H2. destruct (eqb x z1) eqn:E.
    - injection H2 as <- <-. apply Heq in E. eapply fixed_distinct; eauto; [apply Hz|eapply fits_small; eauto].
    - apply obind_some in H2. destruct H2 as [im2 [H2 H3]]. destruct (op_shrinks EMPTY I L KI x (proj1 Hz) (fits_small EMPTY I _ _ Hz)) as [z' [i' [X1 [X2 [X3 _]]]]]. rewrite H1 in X1. injection X1 as <- <-.
      destruct (fits_next EMPTY I _ _ _ _ Hz X2 X3) as [im3 [Y1 Y2]]. rewrite H2 in Y1. injection Y1 as <-. eauto.
  Qed.
End LoopDistinct.

(* ------------------------------------------------------------ outcomes *)
(* the outcome is the same for all large enough fuel, and neither a panic nor out of fuel; if it is a value, it satisfies P *)
Definition fine {A} (r : Res A) (P : A -> Prop) : Prop := match r with Ok a => P a | Err => True | _ => False end.
Definition ev {A} (r : nat -> Res A) (P : A -> Prop) : Prop := exists n v, (forall m, n <= m -> r m = v) /\ fine v P.
Lemma ev_bind {A B} (r : nat -> Res A) (k : nat -> A -> Res B) (P : A -> Prop) (Q : B -> Prop) : ev r P -> (forall a, P a -> ev (fun m => k m a) Q) -> ev (fun m => rbind (r m) (k m)) Q.
Proof.
  intros [n [v [H1 H2]]] H. destruct v as [a| | |]; try contradiction.
  - destruct (H a H2) as [n2 [v2 [A1 A2]]]. exists (Nat.max n n2), v2. split; auto. intros m Hm. rewrite H1 by lia. cbn. apply A1. lia.
  - exists n, Err. split; [|exact I]. intros m Hm. rewrite H1 by auto. reflexivity.
Qed.
Lemma ev_const {A} (r : Res A) (P : A -> Prop) : fine r P -> ev (fun _ => r) P.
Proof. intros H. exists 0, r. auto. Qed.
Lemma ev_ok {A} (a : A) (P : A -> Prop) : P a -> ev (fun _ => Ok a) P.
Proof. intros H. apply ev_const. exact H. Qed.
Lemma ev_chk b : ev (fun _ => chk b) (fun _ => b = true).
Proof. apply ev_const. destruct b; cbn; auto. Qed.
Lemma ev_unw {A} (o : option A) (P : A -> Prop) : (exists a, o = Some a /\ P a) -> ev (fun _ => unw o) P.
Proof. intros [a [-> H]]. apply ev_const. exact H. Qed.
Lemma ev_loop {A} (o : nat -> option A) (P : A -> Prop) : (exists n r, forall m, n <= m -> o m = Some r) -> (forall m r, o m = Some r -> P r) -> ev (fun m => unw (o m)) P.
Proof. intros [n [r H]] HP. exists n, (Ok r). split; [intros m Hm; rewrite H; auto|]. cbn. apply (HP n). apply H. auto. Qed.
Lemma ev_impl {A} (r : nat -> Res A) (P Q : A -> Prop) : (forall a, P a -> Q a) -> ev r P -> ev r Q.
Proof. intros H [n [v [A1 A2]]]. exists n, v. split; auto. destruct v; cbn in *; auto. Qed.
Lemma ev_post {A} (r : nat -> Res A) (P Q : A -> Prop) : ev r Q -> (forall m a, r m = Ok a -> P a) -> ev r P.
Proof. intros [n [v [A1 A2]]] H. exists n, v. split; auto. destruct v; cbn in *; auto. apply (H n). apply A1. auto. Qed.
Definition any {A} (a : A) : Prop := True.

(* ------------------------------------------------------------ the steps *)
Section Steps.
  Context {F : Fld}.
  Variables (K : Config) (o : Options).
  Notation EM := (EMPTY K). Notation SI := (SrcI F). Notation HI := (HnI F). Notation LI := (HlI F). Notation DI := (DestI F false). Notation DS := (DestI F true).
  Notation K' := (with_fuel K).
  Hypothesis Hopt : 1 <= opt_level o.
  Hypothesis Hlim : forall l, mul_fanout_limit o = Some l -> 1 < l.
  Hypothesis Hcost : costs_ok (costs K).
  Notation none := (fun _ : Env F => False).

  Lemma opt_total {I : IRC F} (L : IRC_laws I) (KI : IRC_id I) eqb (x : RootCircuit I) im : (forall x y, eqb x y = true <-> same_root I x y) -> fits EM I x im ->
    exists n r, forall m, n <= m -> opt_stage (K' m) o eqb x im = Some r.
  Proof.
    intros He Hf. unfold opt_stage. cbn [with_fuel EMPTY fuel]. destruct (2 <=? opt_level o) eqn:E2.
    - apply (loop_ends EM I eqb (fun a b => proj2 (He a b)) (neat I) (opt_pass EM) (op_shrinks EM I L KI) x im Hf).
    - destruct (1 <=? opt_level o) eqn:E1; [|apply Nat.leb_gt in E1; lia].
      destruct (ru_shrinks EM I L KI x (proj1 Hf) (fits_small EM I _ _ Hf)) as [y [imy [A1 [A2 [A3 _]]]]]. destruct (fits_next EM I _ _ _ _ Hf A2 A3) as [im' [B1 B2]]. rewrite A1. cbn [obind fst snd]. rewrite B1. cbn [obind]. exists 0. eauto.
  Qed.
  Lemma opt_fits {I : IRC F} (L : IRC_laws I) (P : Insn I -> Prop) (B : Prop) (KI : IRC_id I) eqb (x : RootCircuit I) im m y im' : (forall x y, eqb x y = true <-> same_root I x y) -> ipred I P -> fits EM I x im -> holds I P x -> (B -> bare I x) ->
    opt_stage (K' m) o eqb x im = Some (y, im') -> fits EM I y im' /\ holds I P y /\ (B -> bare I y) /\ uncalled I 0 y /\ (2 <= opt_level o -> distinct I y).
  Proof.
    intros He HP Hf Hh Hb H. pose proof Hf as [W [G R]]. destruct (opt_stage_ok (K' m) o L none P B eqb x im y im') as [S [A1 [A2 A3]]]; auto; try (apply He); [intros z E _ []|].
    destruct (stage_out _ _ _ _ _ _ S) as [B1 [B2 _]]. split; [split; [apply (st_wf _ _ _ _ _ _ S)|split; auto]|]. split; auto. split; auto. split; auto.
    intros H2. unfold opt_stage in H. rewrite (proj2 (Nat.leb_le 2 (opt_level o)) H2) in H. eapply loop_distinct; eauto.
  Qed.

  (* ---------- step 1 *)
  Lemma source_total (rc : RootCircuit SI) c0 : NoDup (keys (circuits rc)) -> lookup 0 (circuits rc) = Some c0 -> num_inputs c0 <= EM ->
    ev (fun m => r_step_1_source (K' m) o rc) (fun r => fits EM SI (fst r) (snd r) /\ validate _ (fst r) = true).
  Proof.
    intros Hk Hc0 Hn. apply (ev_post _ _ any).
    - unfold r_step_1_source. apply ev_bind with (P := fun _ => validate _ rc = true); [apply ev_chk|]. intros _ Hv. pose proof (validate_wf_root _ rc Hk Hv) as W.
      rewrite Hc0. cbn [unw rbind with_fuel EMPTY fuel]. destruct (good_id K _ Hn) as [G Gn]. assert (Hx : root_inputs rc (next_size (im_identity (num_inputs c0)))) by (rewrite Gn; apply root_inputs_of; auto).
      destruct (detect_chains_spec rc W) as [r1 [Hd _]]. pose proof (dc_stage K none rc r1 _ W G Hx Hd) as S1. destruct (stage_out _ _ _ _ _ _ S1) as [O1 _].
      assert (Hf : fits EM SI r1 (im_identity (num_inputs c0))) by (split; [apply (st_wf _ _ _ _ _ _ S1)|split; auto]).
      apply ev_bind with (P := any).
      + apply ev_loop; [|intros; exact Logic.I]. rewrite Hd. cbn [obind]. destruct (3 <=? opt_level o) eqn:E3.
        * apply (loop_ends EM SI s_eqb (fun a b => proj2 (root_eqb_spec SI s_dec con_dec a b)) (neat SI) (src_pass K) (src_shrinks K) r1 _ Hf).
        * destruct (1 <=? opt_level o) eqn:E1; [|apply Nat.leb_gt in E1; lia]. destruct (ru_shrinks EM SI (SrcL F) (src_id F) r1 (proj1 Hf) (fits_small EM SI _ _ Hf)) as [y [imy [A1 [A2 [A3 _]]]]]. destruct (fits_next EM SI _ _ _ _ Hf A2 A3) as [im' [B1 B2]].
          rewrite A1. cbn [obind fst snd]. rewrite B1. cbn [obind]. exists 0. eauto.
      + intros [y im] _. apply ev_bind with (P := any); [eapply ev_impl; [|apply ev_chk]; intros; exact Logic.I|]. intros _ _. apply ev_ok. exact Logic.I.
    - intros m [y im] H. apply (f_equal ok) in H. rewrite source_agrees in H. cbn [ok] in H. cbn [fst snd].
      destruct (src_stage (K' m) o Hopt none (fun _ => True) rc y im c0) as [S [_ [V _]]]; auto; [split; auto|intros z E _ []|intros id c Hc; apply Forall_forall; auto|].
      destruct (stage_out _ _ _ _ _ _ S) as [A [B _]]. split; auto. split; [apply (st_wf _ _ _ _ _ _ S)|split; auto].
  Qed.
  Lemma hints_total (src : RootCircuit SI) im : fits EM SI src im -> validate _ src = true ->
    ev (fun m => r_step_1_hints (K' m) o src im) (fun r => fits EM HI (fst r) (snd r) /\ uncalled HI 0 (fst r)).
  Proof.
    intros Hf Hv. pose proof Hf as [W [G R]]. unfold r_step_1_hints. destruct (C07_complete F src (wf_keys_of _ W) Hv) as [[E _]|[hn [E [Wh [_ [_ [Hk [Hs Hr]]]]]]]]; rewrite E.
    - cbn [rbind]. apply ev_const. exact Logic.I.
    - cbn [rbind]. assert (Hh : fits EM HI hn im). { split; auto. split; auto. destruct R as [c0 [Hc0 Hn]]. destruct (Hs 0 c0 Hc0) as [c [Hc [Hn' _]]]. exists c. split; auto. congruence. }
      apply ev_bind with (P := fun r => fits EM HI (fst r) (snd r) /\ uncalled HI 0 (fst r)).
      + apply ev_loop; [apply (opt_total (HnL F) (hn_id F)); auto; intros; apply root_eqb_spec|]. intros m [y im'] H. destruct (opt_fits (HnL F) anyP False (hn_id F) h_eqb hn im m y im') as [A [_ [_ [B _]]]]; auto; [intros; apply root_eqb_spec|apply anyP_ipred|apply anyP_holds|intros []].
      + intros [y im'] [A B]. apply ev_bind with (P := any); [eapply ev_impl; [|apply ev_chk]; intros; exact Logic.I|]. intros _ _. apply ev_ok. auto.
  Qed.
  Lemma export_total (rc : RootCircuit HI) : wf_root HI rc -> exists hl ex, remove_and_export_hints rc = Some (hl, ex).
  Proof.
    intros Hwf. pose proof Hwf as [W _ _]. destruct (hint_sizes_ok rc Hwf) as [sz [Hs1 Hsz]]. unfold remove_and_export_hints. rewrite Hs1. cbn [obind].
    destruct (omap_assoc (fun p => remove_hints sz (fst p) (snd p)) (circuits rc)) as [cs' [G1 _]]; [|apply W|].
    { intros id c Hc. destruct (remove_hints_static (circuits rc) W sz Hsz id c Hc) as [c' [t [X _]]]. eauto. }
    destruct (omap_assoc (fun p => export_hints (fst p =? 0) sz (snd p)) (circuits rc)) as [csx [X1 _]]; [|apply W|].
    { intros id c Hc. destruct (export_hints_ok (circuits rc) W sz Hsz (id =? 0) id c Hc) as [c' [X _]]; eauto. }
    rewrite G1. cbn [obind]. rewrite X1. cbn [obind]. eauto.
  Qed.
  (* what reaches step 2 *)
  Lemma front_total (rc : RootCircuit SI) c0 : options_ok o = true -> NoDup (keys (circuits rc)) -> lookup 0 (circuits rc) = Some c0 -> num_inputs c0 <= EM ->
    ev (fun m => r_front (K' m) o rc) (fun r => let '(_, _, h, him, hl, x) := r in wf_root LI hl /\ wf_root HI x /\ expected_num_output_zeroes x = 0 /\ im_good EM him /\ root_inputs x (next_size him) /\
      exists cx cl, lookup 0 (circuits x) = Some cx /\ lookup 0 (circuits hl) = Some cl /\ length (outputs cx) = num_inputs cl).
  Proof.
    intros Ho Hk Hc0 Hn. unfold r_front. rewrite Ho. cbn [chk rbind]. eapply ev_bind; [apply (source_total rc c0 Hk Hc0 Hn)|]. intros [s sim] [S1 S2]. cbn [fst snd] in *.
    eapply ev_bind; [apply (hints_total s sim S1 S2)|]. intros [h him] [H1 H2]. cbn [fst snd] in *. pose proof H1 as [W [G [c [Hc Nc]]]]. destruct (export_total h W) as [hl [x Hx]]. rewrite Hx. cbn [unw rbind].
    eapply ev_bind; [apply ev_chk|]. intros u Hv. apply ev_ok.
    destruct (remove_and_export_hints_spec' h c W Hc) as [hl' [ex0 [nh [E1 [W1 [W2 [P1 [P2 [P3 [P4 [[cl [L1 [L2 L3]]] [[cx [X1 [X2 X3]]] R]]]]]]]]]]]]; auto.
    { intros hl0 ex0 cx Hre. pose proof Hre as Hre'. rewrite Hx in Hre'. injection Hre' as <- <-. apply (exported_variable _ _ _ c cx W Hc Hre Hv). }
    rewrite Hx in E1. injection E1 as <- <-. split; auto. split; auto. split; auto. split; auto. split; [exists cx; split; auto; congruence|]. exists cx, cl. split; auto. split; auto. lia.
  Qed.
End Steps.
