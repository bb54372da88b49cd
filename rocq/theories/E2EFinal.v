(* The whole compiler (Compile.v): from the source circuit to the solver circuit and the layered circuit *)
From Verif Require Import Prelude Field InputMapping Expr Topo Ir IrFacts IrInst Hints Sim RemoveUnreachable ReassignDup AddBack FixedPoint Kinds DetectChains
  Builder HnTrans HnSim HnCirc HintExport FinalBuild FbFacts FbSim MulFanout ExportConstraints SolveDuplicates LocalPass IrSplit SplitRoot Layered LayeredFacts LayeredOpt LayeredOptFacts LayeredOptSim Layering LayRoot LayFit Compile E2E E2ERun
  PropIr PropPasses PropHn PropFb PropSplit PropLayering PropLayeredOpt E2ESteps E2ELow.

(* runs of a layered circuit under other coins *)
Section Coins.
  Context {F : Fld}.
  Lemma lrun_more (E E' : Env F) (c : LCircuit F) ins outs sat : e_pub E = e_pub E' -> e_gate E = e_gate E' -> (forall r, e_rnd E r -> e_rnd E' r) -> lrun E c ins outs sat -> lrun E' c ins outs sat.
  Proof.
    intros Hp Hg Hr [cur [out [A [B R]]]]. exists cur, out. split; auto. split; auto. clear -Hp Hg Hr B. induction B as [|id ids cur nxt cur' [s [cs [S1 [S2 S3]]]] B IH]; [apply LSNil|]. econstructor; [|exact IH]. exists s, cs. split; auto. split; auto.
    clear -Hp Hg Hr S2. induction S2 as [|g ov l l' [C1 [k [C2 C3]]] S2 IH]; constructor; auto. split; auto. exists k. split.
    - destruct (g_coef g); cbn [coef_sem] in *; auto. rewrite <- Hp. auto.
    - rewrite C3. unfold kindv. rewrite Hg. auto.
  Qed.
  Lemma lrun_some (E E' : Env F) (c : LCircuit F) ins outs sat : (exists r, e_rnd E' r) -> lrun E c ins outs sat -> exists outs' sat', lrun E' c ins outs' sat'.
  Proof.
    intros [r Hr] [cur [out [A [B [C [D _]]]]]].
    assert (Hc : forall cur (l : list (UG F)), exists cs, Forall2 (contrib E' cur) l cs).
    { intros cur0. induction l as [|g l [cs IH]]; [exists []; constructor|]. assert (Hk : exists k, coef_sem E' (g_coef g) k) by (destruct (g_coef g); cbn [coef_sem]; eauto). destruct Hk as [k Hk].
      exists ((g_out g, fmul (kindv E' cur0 (g_in g)) k) :: cs). constructor; auto. split; auto. exists k. auto. }
    assert (Hl : forall ids cur0 cur out, layers_sem E (l_segs c) ids cur0 cur -> hd_error cur = Some out -> forall cur1 out1, hd_error cur1 = Some out1 -> (forall o, hd_error cur0 = Some o -> length o = length out1) ->
       exists cur2 out2, layers_sem E' (l_segs c) ids cur1 cur2 /\ hd_error cur2 = Some out2 /\ length out2 = length out).
    { clear -Hc. intros ids cur0 cur out L. revert out. induction L as [cur|id ids cur nxt cur' [s [cs [S1 [S2 S3]]]] B IH]; intros out Ho cur1 out1 H1 Hlen.
      - exists cur1, out1. split; [apply LSNil|]. split; auto. symmetry. auto.
      - destruct (Hc cur1 (flat (length (l_segs c)) (l_segs c) id)) as [cs1 Hcs1]. destruct (IH out Ho (map (fun o => at_out o cs1) (seq 0 (s_outs s)) :: cur1) _ eq_refl) as [cur2 [out2 [X1 [X2 X3]]]].
        + intros o Eo. cbn in Eo. injection Eo as <-. subst nxt. rewrite !map_length. auto.
        + exists cur2, out2. split; auto. econstructor; [|exact X1]. exists s, cs1. auto. }
    destruct (Hl _ _ _ _ B C [ins] ins eq_refl) as [cur2 [out2 [X1 [X2 X3]]]]; [intros o Eo; cbn in Eo; injection Eo as <-; auto|].
    eexists _, _. exists cur2, out2. split; auto. split; auto. split; auto. split; [rewrite X3; auto|]. split; reflexivity.
  Qed.
End Coins.

Section Final.
  Context {F : Fld}.
  Variables (K : Config) (o : Options) (rc : RootCircuit (SrcI F)) (t : Trace (F := F)) (ex : RootCircuit (HnI F)) (lc : LCircuit F).
  Notation EM := (EMPTY K). Notation SI := (SrcI F). Notation HI := (HnI F). Notation LI := (HlI F). Notation DS := (DestI F true). Notation rand := (random_combination K).
  Hypothesis H : compiles K o rc t ex lc.
  Hypothesis Hk : NoDup (keys (circuits rc)).
  Variable c0 : Circuit SI.
  Hypothesis Hc0 : lookup 0 (circuits rc) = Some c0.
  (* nothing is larger than usize::MAX *)
  Hypothesis Hsz : num_inputs c0 <= EM.
  Hypothesis Hszl : small EM (t_hl t).
  Hypothesis Hszc : next_size (t_lc_im t) <= EM.
  (* the layered circuit is built from few enough constraints to be combined at random, and from one at least *)
  Hypothesis Hcx : cross_layer K = false -> (forall id c, lookup id (circuits (t_p2 t)) = Some c -> (Z.of_nat (length (constraints c)) < fmod F)%Z) /\ (rand = true -> constrained (circuits (t_p2 t)) 0).
  (* the circuit draws nothing itself *)
  Variable nr : Prop.
  Hypothesis Hnr : nr -> holds LI (fun i => i <> LConst CRandom) (t_hl t).

  Lemma opts : 1 <= opt_level o /\ forall l, mul_fanout_limit o = Some l -> 1 < l.
  Proof.
    pose proof (c_options _ _ _ _ _ _ H) as Ho. unfold options_ok in Ho. apply andb_true_iff in Ho. destruct Ho as [A B]. apply andb_true_iff in B. destruct B as [B _]. apply Nat.leb_le in B. split; auto. intros l El. rewrite El in A. apply Nat.ltb_lt in A. auto.
  Qed.
  (* what is kept of the source circuit: [Q] may be chosen *)
  Lemma src_ok (Q : Env F -> Prop) (P : SInsn F -> Prop) : ipred SI P -> (forall l, P (SLin l)) -> (forall l, P (SMul l)) -> (forall z E, holds SI P z -> Q E -> total SI E (circuits z)) -> holds SI P rc ->
    stage EM Q rc (im_identity (num_inputs c0)) (t_src t) (t_src_im t) /\ holds SI P (t_src t).
  Proof.
    intros HP Hl Hm HT Hh. destruct (src_stage K o (proj1 opts) Q P rc (t_src t) (t_src_im t) c0 HP Hl Hm HT Hk Hc0 Hsz Hh (c_src _ _ _ _ _ _ H)) as [A [B _]]. auto.
  Qed.
  Lemma src_any : stage EM (fun _ => False) rc (im_identity (num_inputs c0)) (t_src t) (t_src_im t).
  Proof. apply (src_ok (fun _ => False) (fun _ => True)); auto; [split; auto|intros z E _ []|]. intros id c Hc. apply Forall_forall. auto. Qed.
  Lemma src_valid : validate _ (t_src t) = true.
  Proof.
    destruct (src_stage K o (proj1 opts) (fun _ => False) (fun _ => True) rc (t_src t) (t_src_im t) c0) as [_ [_ [A _]]]; auto; [split; auto|intros z E _ []|intros id c Hc; apply Forall_forall; auto|apply (c_src _ _ _ _ _ _ H)].
  Qed.
  Lemma hn_ok : exists hn, hn_process (t_src t) = Ok hn /\ (forall n, root_inputs (t_src t) n <-> root_inputs hn n) /\
      (forall E ins outs b, (forall h n args outs, impl_builtin_hint h n args = Some outs -> e_hint E (builtin_id h) n args outs) -> root_run SI E (t_src t) ins outs b -> root_run HI E hn ins outs b) /\
      wf_root HI hn /\ stage EM QH hn (t_src_im t) (t_hn t) (t_hn_im t) /\ uncalled HI 0 (t_hn t) /\ validate _ (t_hn t) = true.
  Proof.
    destruct (stage_out _ _ _ _ _ _ src_any) as [A [B C]]. apply (hn_stage K o (proj1 opts)); auto; [apply (st_wf _ _ _ _ _ _ src_any)|apply src_valid|apply (c_hn _ _ _ _ _ _ H)].
  Qed.
  Lemma hn_im : root_inputs (t_hn t) (next_size (t_hn_im t)) /\ im_good EM (t_hn_im t) /\ cur_size (t_hn_im t) = num_inputs c0.
  Proof.
    destruct hn_ok as [hn [_ [_ [_ [_ [S _]]]]]]. destruct (stage_out _ _ _ _ _ _ S) as [A [B C]]. split; auto. split; auto. rewrite C. destruct (stage_out _ _ _ _ _ _ src_any) as [_ [_ C']]. rewrite C'. unfold cur_size, im_identity. cbn. apply seq_length.
  Qed.
  (* the hint-less circuit and the exported circuit *)
  Lemma split_facts : exists nh, wf_root LI (t_hl t) /\ wf_root HI (t_ex t) /\ num_public_inputs (t_hl t) = num_public_inputs (t_hn t) /\ num_public_inputs (t_ex t) = num_public_inputs (t_hn t) /\ expected_num_output_zeroes (t_ex t) = 0 /\
    root_inputs (t_hl t) (next_size (t_hn_im t) + nh) /\ root_inputs (t_ex t) (next_size (t_hn_im t)) /\
    (forall E mid, length mid = next_size (t_hn_im t) ->
        (forall outs b, root_run _ (adv E) (t_hn t) mid outs b <-> exists hv, length hv = nh /\ root_run _ E (t_hl t) (mid ++ hv) outs b) /\
        (forall outs b, root_run _ E (t_hn t) mid outs b -> exists hv b', length hv = nh /\ root_run _ E (t_ex t) mid (mid ++ hv) b' /\ root_run _ E (t_hl t) (mid ++ hv) outs b) /\
        (one_rnd E -> forall w b' outs b, root_run _ E (t_ex t) mid w b' -> root_run _ E (t_hl t) w outs b -> root_run _ E (t_hn t) mid outs b)).
  Proof.
    clear Hszc Hcx Hszl Hnr. destruct hn_ok as [hn [_ [_ [_ [_ [S [U V]]]]]]]. pose proof (st_wf _ _ _ _ _ _ S) as W. destruct hn_im as [[c [Hc Hn]] _].
    destruct (remove_and_export_hints_spec' (t_hn t) c W Hc) as [hl [ex0 [nh [E1 [W1 [W2 [P1 [P2 [P3 [P4 [[cl [L1 [L2 L3]]] [[cx [X1 [X2 X3]]] R]]]]]]]]]]]]; auto.
    { intros hl0 ex0 cx Hre. pose proof Hre as Hre'. rewrite (c_split _ _ _ _ _ _ H) in Hre'. injection Hre' as <- <-. apply (exported_variable _ _ _ c cx W Hc Hre (c_ex _ _ _ _ _ _ H)). }
    rewrite (c_split _ _ _ _ _ _ H) in E1. injection E1 as <- <-. exists nh. split; auto. split; auto. split; auto. split; auto. split; auto.
    split; [exists cl; split; auto; lia|]. split; [exists cx; split; auto; lia|]. intros E mid Hm. rewrite <- Hn in Hm. destruct (R E mid Hm) as [R1 [R2 [R3 R4]]]. auto.
  Qed.
  Lemma low_ok : covers EM rand (Q3 nr) (t_hl t) (t_dest t) (t_dest_im t) /\ (rand = false -> bare DS (t_dest t)) /\ validate _ (t_dest t) = true.
  Proof.
    destruct split_facts as [nh [W1 _]]. destruct opts as [O1 O2].
    assert (Hh : holds LI (PL nr) (t_hl t)). { intros id c Hc. apply Forall_forall. intros i Hi N. pose proof (Hnr N id c Hc) as Hf. rewrite Forall_forall in Hf. auto. }
    destruct (build_stage K o O1 O2 nr (t_hl t) (t_p2 t) (t_p2_im t) W1 Hszl Hh (c_p2 _ _ _ _ _ _ H)) as [W2 [T2 [P2 [B2 [U2 V2]]]]].
    assert (C2 : covers EM rand (Q3 nr) (t_hl t) (t_p2 t) (t_p2_im t)). { apply tied_covers; auto. }
    destruct (single_covers K o O1 nr (t_hl t) (t_p2 t) (t_p3 t) (t_p2_im t) (t_p3_im t) C2 V2 P2 B2 U2 Hcx (c_p3 _ _ _ _ _ _ H)) as [C3 [P3 B3]].
    apply (dest_covers K o O1 nr (t_hl t) (t_p3 t) (t_dest t) (t_p3_im t) (t_dest_im t) C3 P3 B3 (c_dest _ _ _ _ _ _ H)).
  Qed.
  (* at level 3 gates with coins that add up may be merged: that needs all coins to be possible *)
  Definition coins_ok (E : Env F) : Prop := 3 <= opt_level o -> forall r, e_rnd E r.
  Lemma step3_ok : input_size lc = input_size (t_lc t) /\ l_pub lc = l_pub (t_lc t) /\ forall E ins outs sat, coins_ok E -> lrun E (t_lc t) ins outs sat <-> lrun E lc ins outs sat.
  Proof.
    destruct low_ok as [CV [_ HvD]]. pose proof (c_step3 _ _ _ _ _ _ H) as S. assert (Hv : l_validate (t_lc t) = true) by apply S. destruct (Nat.le_gt_cases 3 (opt_level o)) as [Hle|Hlt].
    - destruct (layer_fit _ _ _ _ _ _ (wf_keys_of _ (cv_wf _ _ _ _ _ _ CV)) HvD (c_lc _ _ _ _ _ _ H)) as [A B].
      destruct (C21_all_layered_optimisations_preserve_drawn F (opt_level o) (t_lc t) lc Hv A B S) as [[S1 [S2 [_ [_ [_ S3]]]]] _]. split; [exact S1|]. split; [exact S2|]. intros E ins outs sat HE. apply S3. exact (HE Hle).
    - destruct S as [_ [c1 [L [V Elc]]]]. rewrite Elc. rewrite (proj2 (Nat.leb_gt 3 (opt_level o)) Hlt) in L. rewrite (proj2 (Nat.leb_le 1 (opt_level o)) (proj1 opts)) in L. subst c1.
      destruct (LayeredOptSim.local_pass_ok (MD := false) seg_dedup (t_lc t) dedup_local Hv) as [D1 [D2 _]]. destruct (LayeredOptSim.local_pass_ok (MD := false) seg_sort (l_dedup (t_lc t)) sort_local V) as [S1 [S2 _]].
      assert (SL : same_layered (t_lc t) (sort_everything (l_dedup (t_lc t)))) by (apply same_of; auto; eapply lequiv_trans; [exact D1|exact S1]). destruct SL as [X1 [X2 [_ [_ [_ X3]]]]]. auto.
  Qed.
  (* from the hint-less circuit to the layered circuit *)
  Lemma lay_ok : in_range EM (t_im t) /\ injective EM (t_im t) /\ root_inputs (t_hl t) (cur_size (t_im t)) /\ input_size lc = Some (next_size (t_im t)) /\ l_pub lc = num_public_inputs (t_hl t) /\
    forall ins v, placed K (t_im t) ins v -> forall E, coins_ok E -> comb_at rand (Q3 nr) E (root_run LI E (t_hl t) ins) (lrun E lc v).
  Proof.
    destruct low_ok as [CV [HB Hv]]. destruct step3_ok as [SI1 [SI2 SL]].
    destruct (C19_layering F (cross_layer K) EM (allow_input_reorder o) (t_dest t) (t_lc t) (t_lc_im t) (wf_keys_of _ (cv_wf _ _ _ _ _ _ CV)) Hv (c_lc _ _ _ _ _ _ H) Hszc) as [X1 [X2 [[c [X3 X4]] [X5 [X6 [X7 X8]]]]]].
    destruct (cv_out _ _ _ _ _ _ CV) as [c' [Hc' Hn]]. rewrite X3 in Hc'. injection Hc' as <-. pose proof (cv_good _ _ _ _ _ _ CV) as [G1 [G2 G3]].
    assert (Rl : in_range EM (t_lc_im t)). { split; auto. eapply Forall_impl; [|exact X6]. cbn. auto. }
    assert (Il : injective EM (t_lc_im t)). { intros i j s Hi Hj _. eapply NoDup_nth_error; [exact X5|apply nth_error_Some_lt in Hi; auto|congruence]. }
    assert (Hcs : cur_size (t_lc_im t) = next_size (t_dest_im t)) by lia.
    pose proof (c_im _ _ _ _ _ _ H) as Hc. rewrite compose_in_place_eq in Hc. pose proof Hc as Hc'. unfold compose in Hc'. apply obind_some in Hc'. destruct Hc' as [ms [Hms Ems]]. injection Ems as Ems. apply omap_some in Hms. pose proof (Forall2_len _ _ _ Hms) as Hlen.
    assert (Em : mapping (t_im t) = ms /\ next_size (t_im t) = next_size (t_lc_im t)) by (rewrite <- Ems; auto). destruct Em as [Em En].
    assert (Hnth : forall i m, nth_error (mapping (t_dest_im t)) i = Some m -> exists s, nth_error ms i = Some s /\ (m = EM -> s = EM) /\ (m <> EM -> nth_error (mapping (t_lc_im t)) m = Some s)).
    { intros i m Hi. destruct (Forall2_nth_error _ _ _ Hms _ _ Hi) as [s [A B]]. exists s. split; auto. destruct (Nat.eqb_spec m EM); split; intros; congruence || auto. }
    assert (Hback : forall i s, nth_error ms i = Some s -> s <> EM -> exists m, nth_error (mapping (t_dest_im t)) i = Some m /\ m <> EM /\ nth_error (mapping (t_lc_im t)) m = Some s).
    { intros i s Hi Hs. destruct (nth_error_Some_ex (mapping (t_dest_im t)) i) as [m Hm]; [rewrite Hlen; eapply nth_error_Some_lt; eauto|]. destruct (Hnth i m Hm) as [s' [A [B C]]]. rewrite Hi in A. injection A as <-.
      exists m. split; auto. destruct (Nat.eq_dec m EM) as [e|n]; [exfalso; auto|]. auto. }
    split; [|split; [|split; [|split; [|split]]]].
    - split; [lia|]. rewrite Em, En. apply Forall_forall. intros s Hs. apply In_nth_error in Hs. destruct Hs as [i Hi]. destruct (Nat.eq_dec s EM) as [|Hne]; auto. right. destruct (Hback i s Hi Hne) as [m [_ [_ B]]]. rewrite Forall_forall in X6. apply X6. eapply nth_error_In; eauto.
    - intros i j s Hi Hj Hs. rewrite Em in Hi, Hj. destruct (Hback i s Hi Hs) as [m [A [B C]]]. destruct (Hback j s Hj Hs) as [m' [A' [B' C']]]. assert (m = m') as <- by (eapply Il; eauto). eapply G2; eauto.
    - replace (cur_size (t_im t)) with (cur_size (t_dest_im t)) by (unfold cur_size; rewrite Em; auto). apply CV.
    - rewrite SI1, X2, En. auto.
    - rewrite SI2, X1. apply CV.
    - intros ins v [P1 [P2 P3]]. unfold cur_size in P1. rewrite Em, <- Hlen in P1. destruct (im_ext EM f0 (t_dest_im t) ins (conj G1 (conj G2 G3)) P1) as [mid [M1 M2]].
      intros E Hco. apply (comb_at_trans _ _ _ _ _ _ (cv_runs _ _ _ _ _ _ CV ins mid M1 E)).
      assert (Hfed : fed (t_lc_im t) mid v).
      { split; [congruence|]. split; [congruence|]. intros m s Hm. assert (Hlt : m < next_size (t_dest_im t)) by (apply nth_error_Some_lt in Hm; unfold cur_size in Hcs; lia).
        specialize (G3 m Hlt). apply In_nth_error in G3. destruct G3 as [i Hi]. assert (Hme : m <> EM) by (destruct G1; lia). destruct (Hnth i m Hi) as [s' [A [_ B]]]. specialize (B Hme). rewrite Hm in B. injection B as <-.
        assert (Hse : s <> EM). { rewrite Forall_forall in X6. specialize (X6 s (nth_error_In _ _ Hm)). lia. }
        rewrite <- Em in A. rewrite (P3 i s A Hse). destruct (map_inputs_delivers EM f0 (t_dest_im t) ins mid i m G1 G2 M1 Hi Hme) as [D _]. auto. }
      intros HE. destruct (X8 E mid v HE Hfed) as [Y1 [Y2 [Y3 Y4]]]. split; [intros outs Hr; apply SL; auto|]. split.
      + intros Hall outs Hr. apply (SL E v outs false Hco). destruct rand eqn:Er; [apply Y3; auto|]. apply Y4; auto. intros id c1 Hc1. exact (HB eq_refl id c1 Hc1).
      + intros _ outs sat Hr. apply SL in Hr; auto.
  Qed.

  (* ------------------------------------------------------------ the solver circuit *)
  Lemma place_zeroes im (r r' : RootCircuit HI) : place_outputs K im r = Some r' -> expected_num_output_zeroes r' = expected_num_output_zeroes r.
  Proof. unfold place_outputs. intros X. apply obind_some in X. destruct X as [a [_ X]]. apply obind_some in X. destruct X as [b [_ X]]. injection X as <-. reflexivity. Qed.
  Lemma solver_ok : wf_root HI ex /\ expected_num_output_zeroes ex = 0 /\ num_public_inputs ex = num_public_inputs (t_hn t) /\ root_inputs ex (num_inputs c0) /\
    forall E ins mid w b, map_inputs EM f0 (t_hn_im t) ins = Some mid -> root_run HI E (t_ex t) mid w b -> exists v, root_run HI E ex ins v b /\ placed K (t_im t) w v.
  Proof.
    destruct split_facts as [nh [_ [Wx [_ [Px [Zx [_ [Ix _]]]]]]]]. destruct lay_ok as [L1 [L2 _]]. destruct hn_im as [_ [G Gc]].
    pose proof (place_zeroes _ _ _ (c_placed _ _ _ _ _ _ H)) as Zp. rewrite Zx in Zp.
    destruct (place_outputs_run K (t_im t) (t_ex t) (t_placed t) Wx L1 L2 (c_placed _ _ _ _ _ _ H) Zx Zp) as [Kp [Pp [Ip Rp]]].
    pose proof (c_solver _ _ _ _ _ _ H) as S. unfold step_4 in S. apply obind_some in S. destruct S as [u [Vp S]]. apply assert_some in Vp.
    assert (Wp : wf_root HI (t_placed t)) by (apply validate_wf_root; auto; rewrite Kp; apply wf_keys_of; auto).
    assert (S4 : stage EM (fun _ => False) (t_placed t) (t_hn_im t) (t_solver t) (t_solver_im t) /\ expected_num_output_zeroes (t_solver t) = 0).
    { destruct (2 <=? opt_level o); [|injection S as <- <-; split; auto; apply stage_refl; auto].
      destruct (loop_stage EM (fun _ => False) (fun z : RootCircuit HI => expected_num_output_zeroes z = 0) (fun _ => True) h_eqb (remove_unreachable HI EM)) with (fuel := fuel K) (x := t_placed t) (im := t_hn_im t) (y := t_solver t) (im' := t_solver_im t) as [S2 [I2 _]]; auto.
      - intros a b. apply root_eqb_spec.
      - intros z z' imz Wz Sz Iz Hz. destruct (ru_stage EM (HnL F) (fun _ => False) z z' imz Wz Sz) as [A1 [A2 A3]]; auto; [intros E []|]. split; auto. split; auto.
        destruct (remove_unreachable_spec HI (HnL F) EM z Wz) as [z1 [im1 [E1 [_ [_ [E2 _]]]]]]. rewrite Hz in E1. injection E1 as <- <-. congruence. }
    destruct S4 as [S4 Zs]. destruct (stage_out _ _ _ _ _ _ S4) as [[cs [Hcs Ncs]] [[B1 [B2 B3]] B4]].
    destruct (add_back_spec HI (HnL F) EM (t_solver_im t) (t_solver t) cs (st_wf _ _ _ _ _ _ S4) Hcs B1 B2 (eq_sym Ncs)) as [ex' [c' [E1 [A1 [A2 [A3 [A4 [A5 [A6 [A7 A8]]]]]]]]]].
    rewrite (c_back _ _ _ _ _ _ H) in E1. injection E1 as <-. destruct S4 as [Ws [d [T [_ [_ [_ R]]]]]].
    assert (Ps : num_public_inputs (t_solver t) = num_public_inputs (t_placed t)) by apply T.
    split; [apply validate_wf_root; [rewrite A3; apply wf_keys_of; auto|apply (c_valid _ _ _ _ _ _ H)]|]. split; [congruence|]. split; [congruence|]. split; [exists c'; split; auto; congruence|].
    intros E ins mid w b Hm Hr. destruct (Rp E mid w b Vp Hr) as [v [Hv Pv]]. exists v. split; auto.
    destruct (im_ext EM f0 (t_solver_im t) ins (conj B1 (conj B2 B3))) as [m2 [M1 M2]]; [rewrite B4; apply (map_inputs_len EM f0 _ _ _ Hm)|].
    apply (A8 E ins m2 v b M1). destruct T as [_ _ _ T]. apply (T mid m2); auto. rewrite <- (R F f0 ins mid Hm). auto.
  Qed.
  (* the places of the inputs of the source circuit in the input of the layered circuit *)
  Definition place_of : nat -> option nat := fun i =>
    match nth_error (mapping (t_hn_im t)) i with
    | Some j => if j =? EM then None else match nth_error (mapping (t_im t)) j with Some s => if s =? EM then None else Some s | None => None end
    | None => None
    end.
  Lemma place_of_spec i s : place_of i = Some s <-> exists j, nth_error (mapping (t_hn_im t)) i = Some j /\ j <> EM /\ nth_error (mapping (t_im t)) j = Some s /\ s <> EM.
  Proof.
    unfold place_of. split.
    - destruct (nth_error (mapping (t_hn_im t)) i) as [j|]; [|discriminate]. destruct (Nat.eqb_spec j EM); [discriminate|]. destruct (nth_error (mapping (t_im t)) j) as [s'|] eqn:Es; [|discriminate]. destruct (Nat.eqb_spec s' EM); [discriminate|]. intros X. injection X as <-. eauto.
    - intros [j [-> [Hj [Hs Hs']]]]. destruct (Nat.eqb_spec j EM); [contradiction|]. rewrite Hs. destruct (Nat.eqb_spec s EM); congruence.
  Qed.
  Lemma place_of_inj i i' s : place_of i = Some s -> place_of i' = Some s -> i = i'.
  Proof.
    intros A B. apply place_of_spec in A, B. destruct A as [j [A1 [A2 [A3 A4]]]], B as [j' [B1 [B2 [B3 B4]]]]. destruct lay_ok as [_ [L2 _]]. destruct hn_im as [_ [[_ [G2 _]] _]].
    assert (j = j') as <- by (eapply L2; eauto). eapply G2; eauto.
  Qed.
  Lemma place_of_bound i s n : place_of i = Some s -> input_size lc = Some n -> i < num_inputs c0 /\ s < n.
  Proof.
    intros A B. apply place_of_spec in A. destruct A as [j [A1 [A2 [A3 A4]]]]. destruct lay_ok as [[_ L1] [_ [_ [L3 _]]]]. rewrite B in L3. injection L3 as ->. destruct hn_im as [_ [_ G]]. split.
    - rewrite <- G. eapply nth_error_Some_lt; eauto.
    - rewrite Forall_forall in L1. destruct (L1 s (nth_error_In _ _ A3)); [contradiction|auto].
  Qed.
  (* all of the source circuit's runs that reach the hint-less circuit *)
  Lemma forward E ins outs b : (forall h n args outs, impl_builtin_hint h n args = Some outs -> e_hint E (builtin_id h) n args outs) -> root_run SI E rc ins outs b ->
    exists mid hv v b', map_inputs EM f0 (t_hn_im t) ins = Some mid /\ root_run HI E ex ins v b' /\ placed K (t_im t) (mid ++ hv) v /\ root_run LI E (t_hl t) (mid ++ hv) outs b.
  Proof.
    intros Hh Hr. destruct solver_ok as [_ [_ [_ [_ So]]]]. destruct hn_im as [_ [G Gc]]. destruct split_facts as [nh [_ [_ [_ [_ [_ [_ [_ Sf]]]]]]]]. destruct hn_ok as [hn [_ [Hin [Hf [_ [S _]]]]]].
    assert (Hlen : length ins = num_inputs c0) by (destruct Hr as [c [all [b0 [A1 [A2 _]]]]]; congruence).
    destruct (im_ext EM f0 (t_hn_im t) ins G ltac:(congruence)) as [mid [M1 M2]]. exists mid.
    destruct src_any as [_ [d1 [T1 [G1 [_ [_ R1]]]]]]. destruct S as [_ [d2 [T2 [G2 [C2 [_ R2]]]]]].
    destruct (im_ext EM f0 (t_src_im t) ins G1 ltac:(congruence)) as [m1 [N1 N2]].
    assert (Hid : map_inputs EM f0 (im_identity (num_inputs c0)) ins = Some ins) by (rewrite <- Hlen; apply map_inputs_identity; congruence).
    pose proof (R1 F f0 ins ins Hid) as X1. rewrite N1 in X1. symmetry in X1. destruct T1 as [_ _ _ T1]. destruct (T1 ins m1 X1 E outs b) as [F1 _]. specialize (F1 Hr).
    pose proof (R2 F f0 ins m1 N1) as X2. rewrite M1 in X2. symmetry in X2. destruct T2 as [_ _ _ T2]. destruct (T2 m1 mid X2 E outs b) as [F2 _]. specialize (F2 (Hf E m1 outs b Hh F1)).
    destruct (Sf E mid M2) as [_ [Sf2 _]]. destruct (Sf2 outs b F2) as [hv [b' [_ [Y1 Y2]]]]. destruct (So E ins mid _ _ M1 Y1) as [v [Z1 Z2]]. exists hv, v, b'. auto.
  Qed.
  (* the values of the inputs of the hint-less circuit read off the input of the layered circuit *)
  Lemma read_back (ins v : list F) : length ins = num_inputs c0 -> input_size lc = Some (length v) -> (forall i s, place_of i = Some s -> nth_error v s = nth_error ins i) ->
    exists mid hv, map_inputs EM f0 (t_hn_im t) ins = Some mid /\ length mid = next_size (t_hn_im t) /\ placed K (t_im t) (mid ++ hv) v.
  Proof.
    intros Hl Hv Hp. destruct hn_im as [Hni [[G1 [G2 G3]] Gc]]. destruct lay_ok as [[L0 L1] [L2 [L3 [L4 _]]]]. rewrite Hv in L4. injection L4 as L4. destruct split_facts as [nh [_ [_ [_ [_ [_ [Ni _]]]]]]].
    destruct (im_ext EM f0 (t_hn_im t) ins (conj G1 (conj G2 G3)) ltac:(congruence)) as [mid [M1 M2]]. exists mid, (map (fun s => nth s v f0) (skipn (length mid) (mapping (t_im t)))). split; auto. split; auto.
    assert (Hc : cur_size (t_im t) = next_size (t_hn_im t) + nh) by (destruct Ni as [c [A B]], L3 as [c' [A' B']]; rewrite A in A'; injection A' as <-; congruence).
    split; [rewrite app_length, map_length, skipn_length; unfold cur_size in *; lia|]. split; auto. intros i s Hi Hs. assert (Hsv : s < length v). { rewrite Forall_forall in L1. destruct (L1 s (nth_error_In _ _ Hi)); [contradiction|lia]. }
    destruct (Nat.lt_ge_cases i (length mid)) as [Hlt|Hge].
    - rewrite nth_error_app1 by auto. rewrite M2 in Hlt. specialize (G3 i Hlt). apply In_nth_error in G3. destruct G3 as [k Hkk]. assert (Hi' : i <> EM) by (destruct G1; lia).
      destruct (map_inputs_delivers EM f0 (t_hn_im t) ins mid k i G1 G2 M1 Hkk Hi') as [D _]. rewrite D. apply Hp. apply place_of_spec. eauto.
    - rewrite nth_error_app2 by auto. rewrite nth_error_map, LayRoot.ne_skipn. replace (length mid + (i - length mid)) with i by lia. rewrite Hi. cbn. apply nth_error_nth'. auto.
  Qed.
  (* an input of the layered circuit accepted by every run comes from a satisfied source circuit, the optimised one *)
  Lemma backward (E : Env F) ins v : (forall r, e_rnd E r) -> length ins = num_inputs c0 -> input_size lc = Some (length v) -> (forall i s, place_of i = Some s -> nth_error v s = nth_error ins i) ->
    (forall outs sat, lrun E lc v outs sat -> sat = true) ->
    exists hn m1 outs, hn_process (t_src t) = Ok hn /\ map_inputs EM f0 (t_src_im t) ins = Some m1 /\ lrun E lc v outs true /\ root_run HI (adv E) hn m1 outs true.
  Proof.
    intros Hall Hl Hv Hp Hacc. assert (HE : Qr E) by (exists f0; apply Hall). destruct (read_back ins v Hl Hv Hp) as [mid [hv [M1 [M2 M3]]]]. destruct split_facts as [nh [Wl [_ [_ [_ [_ [Ni [_ Sf]]]]]]]]. destruct lay_ok as [_ [_ [Li [_ [_ Lr]]]]].
    assert (Hcur : length (mid ++ hv) = cur_size (t_im t)) by apply M3. destruct Li as [cl [Hcl Ncl]]. destruct Wl as [Wl1 [rank R] [cl' [Hcl' Zl]]]. rewrite Hcl in Hcl'. injection Hcl' as <-.
    destruct (total_run LI (HlL F) E (circuits (t_hl t)) rank (Qr_total (s := HintLess) ltac:(discriminate) ltac:(discriminate) E (t_hl t) HE) Wl1 R 0 cl (mid ++ hv) Hcl ltac:(congruence)) as [all [b0 Hrun]].
    assert (Hz : expected_num_output_zeroes (t_hl t) <= length all).
    { apply run_iff in Hrun. destruct Hrun as [c1 [vals [b1 [B1 [_ [_ [_ [-> _]]]]]]]]. rewrite Hcl in B1. injection B1 as <-. rewrite map_length. auto. }
    set (outs := skipn (expected_num_output_zeroes (t_hl t)) all). set (b := b0 && forallb (is0 F) (firstn (expected_num_output_zeroes (t_hl t)) all)).
    assert (Hroot : root_run LI E (t_hl t) (mid ++ hv) outs b). { exists cl, all, b0. split; auto. split; [congruence|]. split; auto. }
    destruct (Lr (mid ++ hv) v M3 E (fun _ => Hall) HE) as [X1 [X2 _]].
    assert (Hb : b = true). { destruct b eqn:Eb; auto. exfalso. specialize (X2 (fun _ => Hall) outs Hroot). specialize (Hacc _ _ X2). discriminate. }
    rewrite Hb in Hroot. specialize (X1 outs Hroot).
    destruct hn_ok as [hn [E1 [Hin [_ [_ [S _]]]]]]. destruct hn_im as [_ [G Gc]]. destruct src_any as [_ [d1 [_ [G1 [C1 _]]]]]. destruct S as [_ [d2 [T2 [_ [C2 [_ R2]]]]]].
    destruct (im_ext EM f0 (t_src_im t) ins G1) as [m1 [N1 N2]]; [congruence|]. exists hn, m1, outs. split; auto. split; auto. split; auto.
    assert (Hadv : root_run HI (adv E) (t_hn t) mid outs true).
    { destruct (Sf E mid M2) as [Sf1 _]. apply Sf1. exists hv. split; auto. destruct Ni as [c [A B]]. rewrite Hcl in A. injection A as <-. rewrite app_length in Hcur. lia. }
    pose proof (R2 F f0 ins m1 N1) as X3. rewrite M1 in X3. symmetry in X3. destruct T2 as [_ _ _ T2]. destruct (T2 m1 mid X3 (adv E) outs true) as [_ F2]. apply F2; auto.
    split; [exact HE|]. intros h n args. exists (repeat f0 n). split; [apply repeat_length|exact Logic.I].
  Qed.
End Final.
