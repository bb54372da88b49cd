(* The stages of the compiler, composed (Compile.v): what each one keeps, and how the input mappings it accumulates follow. *)
From Verif Require Import Prelude Field InputMapping Expr Topo Ir IrFacts IrInst Hints Sim RemoveUnreachable ReassignDup AddBack FixedPoint Kinds DetectChains
  Builder HnTrans HnSim HnCirc HintExport FinalBuild FbFacts FbSim MulFanout ExportConstraints SolveDuplicates LocalPass IrSplit SplitRoot Layered LayeredOpt Layering Compile.

Lemma assert_some b u : Compile.assert b = Some u -> b = true.
Proof. destruct b; cbn; congruence. Qed.
Lemma ok_some {A} (r : Res A) a : ok r = Some a -> r = Ok a.
Proof. destruct r; cbn; congruence. Qed.

(* ------------------------------------------------------------ the accumulated mapping follows the mapping of a stage *)
Section Tracks.
  Variable EMPTY : nat.
  Definition tracks (im imD im' : InputMapping) : Prop :=
    im_good EMPTY im' /\ cur_size im' = cur_size im /\ next_size im' = next_size imD /\
    forall T (d : T) ins mid, map_inputs EMPTY d im ins = Some mid -> map_inputs EMPTY d im' ins = map_inputs EMPTY d imD mid.
  Lemma map_inputs_len {T} (d : T) im ins mid : map_inputs EMPTY d im ins = Some mid -> length ins = cur_size im.
  Proof. unfold map_inputs. destruct (Nat.eqb_spec (length ins) (length (mapping im))); [auto|discriminate]. Qed.
  Lemma map_inputs_out {T} (d : T) im ins mid : im_good EMPTY im -> map_inputs EMPTY d im ins = Some mid -> length mid = next_size im.
  Proof. intros G H. destruct (im_ext EMPTY d im ins G (map_inputs_len _ _ _ _ H)) as [r [H1 H2]]. congruence. Qed.
  Lemma tracks_refl im : im_good EMPTY im -> tracks im (im_identity (next_size im)) im.
  Proof.
    intros G. split; auto. split; auto. split; auto. intros T d ins mid H. rewrite H. symmetry. pose proof (map_inputs_out _ _ _ _ G H) as L. rewrite <- L. apply map_inputs_identity. rewrite L. apply G.
  Qed.
  Lemma tracks_compose im imD im' : im_good EMPTY im -> im_good EMPTY imD -> cur_size imD = next_size im -> compose_in_place EMPTY im imD = Some im' -> tracks im imD im'.
  Proof.
    intros G1 G2 Hs H. destruct (compose_good EMPTY im imD G1 G2 Hs) as [c [H1 [H2 [H3 [H4 H5]]]]]. rewrite H in H1. injection H1 as <-. split; auto. split; auto. split; auto.
    intros T d ins mid Hm. destruct (H5 T d ins (map_inputs_len _ _ _ _ Hm)) as [mid' [r [A [B C]]]]. rewrite Hm in A. injection A as <-. congruence.
  Qed.
  Lemma tracks_trans im a im1 b im2 c : tracks im a im1 -> tracks im1 b im2 -> im_good EMPTY a -> im_good EMPTY b -> cur_size a = next_size im -> im_good EMPTY im -> compose_in_place EMPTY a b = Some c -> cur_size b = next_size a -> tracks im c im2.
  Proof.
    intros [A1 [A2 [A3 A4]]] [B1 [B2 [B3 B4]]] Ga Gb Hca Gi Hc Hcb. destruct (compose_good EMPTY a b Ga Gb Hcb) as [c' [H1 [H2 [H3 [H4 H5]]]]]. rewrite Hc in H1. injection H1 as <-.
    split; auto. split; [congruence|]. split; [congruence|]. intros T d ins mid Hm.
    destruct (im_ext EMPTY d im1 ins A1) as [m1 [M1 M2]]; [rewrite A2; eapply map_inputs_len; eauto|]. rewrite (B4 T d ins m1 M1). pose proof (A4 T d ins mid Hm) as M3. rewrite M1 in M3. symmetry in M3.
    destruct (H5 T d mid) as [x [r [X1 [X2 X3]]]]; [rewrite Hca; eapply map_inputs_out; eauto|]. rewrite M3 in X1. injection X1 as <-. congruence.
  Qed.
End Tracks.

(* ------------------------------------------------------------ a stage between two circuits *)
Section Stage.
  Variable EMPTY : nat.
  Context {F : Fld}.
  Definition root_inputs {I : IRC F} (rc : RootCircuit I) (n : nat) : Prop := exists c, lookup 0 (circuits rc) = Some c /\ num_inputs c = n.
  Record stage {I I' : IRC F} (Q : Env F -> Prop) (x : RootCircuit I) (im : InputMapping) (y : RootCircuit I') (im' : InputMapping) : Prop := {
    st_wf : wf_root I' y;
    st_tied : exists imD, tied EMPTY Q x y imD /\ tracks EMPTY im imD im' }.
  Lemma tied_in {I I' : IRC F} (Q : Env F -> Prop) (x : RootCircuit I) (y : RootCircuit I') im n : tied EMPTY Q x y im -> root_inputs x n -> cur_size im = n.
  Proof. intros [_ [c0 [c [A [_ [B _]]]]] _ _] [c' [Hc <-]]. congruence. Qed.
  Lemma tied_out {I I' : IRC F} (Q : Env F -> Prop) (x : RootCircuit I) (y : RootCircuit I') im : tied EMPTY Q x y im -> root_inputs y (next_size im).
  Proof. intros [_ [c0 [c [_ [A [_ [B _]]]]]] _ _]. exists c. auto. Qed.
  Lemma stage_out {I I' : IRC F} (Q : Env F -> Prop) (x : RootCircuit I) (y : RootCircuit I') im im' : stage Q x im y im' -> root_inputs y (next_size im') /\ im_good EMPTY im' /\ cur_size im' = cur_size im.
  Proof. intros [_ [imD [T [A [B [C _]]]]]]. split; [|auto]. rewrite C. eapply tied_out; eauto. Qed.
  Lemma stage_small {I I' : IRC F} (Q : Env F -> Prop) (x : RootCircuit I) (y : RootCircuit I') im im' : stage Q x im y im' -> small EMPTY y.
  Proof. intros [_ [imD [T _]]]. eapply small_next; eauto. Qed.
  Lemma stage_trans {I0 I1 I2 : IRC F} (Q : Env F -> Prop) (x : RootCircuit I0) (y : RootCircuit I1) (z : RootCircuit I2) im im1 im2 :
    im_good EMPTY im -> root_inputs x (next_size im) -> stage Q x im y im1 -> stage Q y im1 z im2 -> stage Q x im z im2.
  Proof.
    intros G Hx S1 S2. destruct (stage_out _ _ _ _ _ S1) as [O1 [O2 O3]]. destruct S1 as [W1 [d1 [T1 R1]]], S2 as [W2 [d2 [T2 R2]]]. split; auto.
    destruct (tied_trans EMPTY Q x y z d1 d2 T1 T2) as [c [Hc Tc]]. exists c. split; auto.
    pose proof (tied_in _ _ _ _ _ T1 Hx) as E1. pose proof (tied_in _ _ _ _ _ T2 O1) as E2. destruct R1 as [A1 [A2 [A3 A4]]].
    eapply (tracks_trans EMPTY im d1 im1 d2 im2 c); eauto; [split; auto|apply T1|apply T2|congruence].
  Qed.
  Lemma stage_refl {I : IRC F} (Q : Env F -> Prop) (x : RootCircuit I) im : wf_root I x -> im_good EMPTY im -> root_inputs x (next_size im) -> stage Q x im x im.
  Proof.
    intros W G [c [Hc Hn]]. split; auto. exists (im_identity (next_size im)). split; [|apply tracks_refl; auto]. rewrite <- Hn. apply tied_refl; auto. rewrite Hn. apply G.
  Qed.
  Lemma stage_compose {I I' : IRC F} (Q : Env F -> Prop) (x : RootCircuit I) (y : RootCircuit I') im imD im' : im_good EMPTY im -> root_inputs x (next_size im) -> wf_root I' y -> tied EMPTY Q x y imD -> compose_in_place EMPTY im imD = Some im' -> stage Q x im y im'.
  Proof. intros G Hx W T H. split; auto. exists imD. split; auto. apply tracks_compose; auto; [apply T|]. eapply tied_in; eauto. Qed.
  (* a pass that keeps the inputs *)
  Lemma stage_same {I I' : IRC F} (Q : Env F -> Prop) (x : RootCircuit I) (y : RootCircuit I') im c0 c : im_good EMPTY im -> root_inputs x (next_size im) -> wf_root I' y ->
    lookup 0 (circuits x) = Some c0 -> lookup 0 (circuits y) = Some c -> num_inputs c = num_inputs c0 ->
    (length (outputs c0) - expected_num_output_zeroes x = length (outputs c) - expected_num_output_zeroes y)%nat -> num_public_inputs y = num_public_inputs x ->
    (forall E ins outs b, (root_run I E x ins outs b -> root_run I' E y ins outs b) /\ (Q E -> root_run I' E y ins outs b -> root_run I E x ins outs b)) ->
    stage Q x im y im.
  Proof.
    intros G [c1 [Hc1 Hn]] W Hc0 Hc Hi Ho Hp Hr. rewrite Hc0 in Hc1. injection Hc1 as <-. split; auto. exists (im_identity (next_size im)). split; [|apply tracks_refl; auto]. rewrite <- Hn.
    eapply tied_same; eauto. rewrite Hn. apply G.
  Qed.
  Lemma tied_same_root {I I' : IRC F} (Q : Env F -> Prop) (x : RootCircuit I) (y z : RootCircuit I') im : tied EMPTY Q x y im -> same_root I' y z -> tied EMPTY Q x z im.
  Proof.
    intros [T1 [ca [cb [T2 [T3 [T4 [T5 T6]]]]]] T7 T8] [X1 [X2 X3]]. split; auto.
    - exists ca, cb. rewrite <- X3, <- X2. auto 10.
    - congruence.
    - intros ins ins' Hm E outs b. destruct (T8 ins ins' Hm E outs b) as [U1 U2]. split.
      + intros Hr. eapply same_run; [|apply U1; auto]. repeat split; auto.
      + intros HQE Hr. apply U2; auto. eapply same_run; [|exact Hr]. apply same_sym. repeat split; auto.
  Qed.
  (* the loop *)
  Lemma loop_stage {I : IRC F} (Q : Env F -> Prop) (Inv Post : RootCircuit I -> Prop) eqb f :
    (forall x y, eqb x y = true -> same_root I x y) ->
    (forall x y imy, wf_root I x -> small EMPTY x -> Inv x -> f x = Some (y, imy) -> wf_root I y /\ Inv y /\ Post y /\ tied EMPTY Q x y imy) ->
    forall fuel x im y im', wf_root I x -> im_good EMPTY im -> root_inputs x (next_size im) -> Inv x -> optimize_until_fixed_point EMPTY eqb f fuel x im = Some (y, im') ->
      stage Q x im y im' /\ Inv y /\ Post y.
  Proof.
    intros He Hf fuel x im y im' W G Hx Hi H.
    assert (Hsm : forall (z : RootCircuit I) n, root_inputs z n -> n <= EMPTY -> small EMPTY z) by (intros z n [c [Hc Hn]] Hle c' Hc'; rewrite Hc in Hc'; injection Hc' as <-; lia).
    assert (Hloop : forall fuel z imz, stage Q x im z imz -> Inv z -> Post z -> opt_loop EMPTY eqb f fuel z imz = Some (y, im') -> stage Q x im y im' /\ Inv y /\ Post y).
    { clear H. induction fuel0 as [|fl IH]; intros z imz S Hz Pz H; [discriminate|]. cbn [opt_loop] in H. apply obind_some in H. destruct H as [[z1 im1] [H1 H2]]. cbn [fst snd] in H2.
      destruct (eqb z z1) eqn:E; [injection H2 as <- <-; auto|]. apply obind_some in H2. destruct H2 as [im2 [H2 H3]]. destruct (stage_out _ _ _ _ _ S) as [O1 [O2 O3]].
      destruct (Hf z z1 im1 (st_wf _ _ _ _ _ S) (stage_small _ _ _ _ _ S) Hz H1) as [W1 [I1 [P1 T1]]]. apply (IH z1 im2); auto. eapply stage_trans; eauto. eapply stage_compose; eauto. }
    unfold optimize_until_fixed_point in H. apply obind_some in H. destruct H as [[z imz] [H1 H2]]. cbn [fst snd] in H2.
    destruct (Hf x z imz W (Hsm _ _ Hx (proj1 (proj1 G))) Hi H1) as [W1 [I1 [P1 T1]]]. destruct (eqb x z) eqn:E.
    - injection H2 as <- <-. split; auto. split; auto. apply He in E. destruct Hx as [c [Hc Hn]]. exists (im_identity (next_size im)). split; [|apply tracks_refl; auto].
      eapply tied_same_root; [|exact E]. rewrite <- Hn. apply tied_refl; auto. rewrite Hn. apply G.
    - apply obind_some in H2. destruct H2 as [im2 [H2 H3]]. apply (Hloop fuel z im2); auto. eapply stage_compose; eauto.
  Qed.
  Lemma ru_stage {I : IRC F} (L : IRC_laws I) (Q : Env F -> Prop) (x : RootCircuit I) y imy : wf_root I x -> small EMPTY x -> (forall E, Q E -> total I E (circuits x)) -> remove_unreachable I EMPTY x = Some (y, imy) ->
    wf_root I y /\ uncalled I 0 y /\ tied EMPTY Q x y imy.
  Proof.
    intros W Hs HQ H. destruct (ru_pass_tied EMPTY L Q x W Hs HQ) as [y' [im' [H1 [H2 [[_ H3] [_ [_ H4]]]]]]]. unfold ru_pass in H1. rewrite H in H1. injection H1 as <- <-. auto.
  Qed.
  Lemma op_stage {I : IRC F} (L : IRC_laws I) (Q : Env F -> Prop) (x : RootCircuit I) y imy : wf_root I x -> small EMPTY x -> (forall E, Q E -> total I E (circuits x)) -> opt_pass EMPTY x = Some (y, imy) ->
    wf_root I y /\ uncalled I 0 y /\ tied EMPTY Q x y imy.
  Proof.
    intros W Hs HQ H. destruct (opt_pass_tied EMPTY L Q x W Hs HQ) as [y' [im' [H1 [H2 H4]]]]. rewrite H in H1. injection H1 as <- <-. split; auto. split; auto.
    unfold opt_pass in H. apply obind_some in H. destruct H as [[z imz] [K1 K2]]. cbn [fst snd] in K2. apply obind_some in K2. destruct K2 as [z' [K2 K3]]. injection K3 as <- <-.
    destruct (ru_stage L Q x z imz W Hs HQ K1) as [_ [U _]]. eapply ra_uncalled; eauto.
  Qed.
  Lemma op_holds {I : IRC F} (P : Insn I -> Prop) (x y : RootCircuit I) imy : ipred I P -> opt_pass EMPTY x = Some (y, imy) -> holds I P x -> holds I P y.
  Proof.
    intros HP H Hx. unfold opt_pass in H. apply obind_some in H. destruct H as [[z imz] [K1 K2]]. cbn [fst snd] in K2. apply obind_some in K2. destruct K2 as [z' [K2 K3]]. injection K3 as <- <-.
    eapply ra_holds; eauto. eapply ru_holds; eauto.
  Qed.
  Lemma op_bare {I : IRC F} (x y : RootCircuit I) imy : opt_pass EMPTY x = Some (y, imy) -> bare I x -> bare I y.
  Proof.
    intros H Hx. unfold opt_pass in H. apply obind_some in H. destruct H as [[z imz] [K1 K2]]. cbn [fst snd] in K2. apply obind_some in K2. destruct K2 as [z' [K2 K3]]. injection K3 as <- <-.
    eapply ra_bare; eauto. eapply ru_bare; eauto.
  Qed.
  Lemma ra_stage {I : IRC F} (L : IRC_laws I) (Q : Env F -> Prop) force (x y : RootCircuit I) im : wf_root I x -> im_good EMPTY im -> root_inputs x (next_size im) -> reassign_duplicates I force x = Some y -> stage Q x im y im.
  Proof.
    intros W G Hx H. destruct (reassign_duplicates_spec _ L force x W) as [y' [K1 [K2 [K3 [K4 [K5 [K6 [K7 K8]]]]]]]]. rewrite H in K1. injection K1 as <-.
    destruct (wr_root _ _ W) as [c0 [Hc0 _]]. destruct (K6 c0 Hc0) as [c [A [B C]]]. apply (stage_same Q x y im c0 c); auto; try congruence. intros E ins outs b. destruct (K8 E ins outs b). split; auto.
  Qed.
End Stage.

(* ------------------------------------------------------------ one optimisation stage of the compiler *)
Section OptStage.
  Context {F : Fld}.
  Variables (K : Config) (o : Options).
  Notation EM := (EMPTY K).
  Lemma opt_stage_ok {I : IRC F} (L : IRC_laws I) (Q : Env F -> Prop) (P : Insn I -> Prop) (B : Prop) eqb (x : RootCircuit I) im y im' :
    (forall a b, eqb a b = true -> same_root I a b) -> ipred I P -> (forall z E, holds I P z -> Q E -> total I E (circuits z)) ->
    1 <= opt_level o -> wf_root I x -> im_good EM im -> root_inputs x (next_size im) -> holds I P x -> (B -> bare I x) ->
    opt_stage K o eqb x im = Some (y, im') ->
    stage EM Q x im y im' /\ holds I P y /\ (B -> bare I y) /\ uncalled I 0 y.
  Proof.
    intros He HP HT Ho W G Hx Hh Hb H. unfold opt_stage in H. destruct (2 <=? opt_level o) eqn:E2.
    - destruct (loop_stage EM Q (fun z => holds I P z /\ (B -> bare I z)) (fun z => uncalled I 0 z) eqb (opt_pass EM) He) with (fuel := fuel K) (x := x) (im := im) (y := y) (im' := im') as [S [[U1 U2] U3]]; auto.
      intros z z' imz Wz Sz [Z1 Z2] Hz. destruct (op_stage EM L Q z z' imz Wz Sz (fun E => HT z E Z1) Hz) as [A1 [A2 A3]]. split; auto. split; [split|auto].
      + eapply op_holds; eauto.
      + intros b. eapply op_bare; eauto.
    - destruct (1 <=? opt_level o) eqn:E1; [|apply Nat.leb_gt in E1; lia]. apply obind_some in H. destruct H as [[z imz] [H1 H]]. cbn [fst snd] in H. apply obind_some in H. destruct H as [im2 [H2 H3]]. injection H3 as <- <-.
      assert (Sx : small EM x) by (destruct Hx as [c [Hc Hn]]; intros c' Hc'; rewrite Hc in Hc'; injection Hc' as <-; destruct G as [[G _] _]; lia).
      destruct (ru_stage EM L Q x z imz W Sx (fun E => HT x E Hh) H1) as [A1 [A2 A3]]. split; [eapply stage_compose; eauto|]. split; [eapply ru_holds; eauto|]. split; auto. intros b. eapply ru_bare; eauto.
  Qed.
  Lemma root_inputs_fun {I : IRC F} (x : RootCircuit I) n m : root_inputs x n -> root_inputs x m -> n = m.
  Proof. intros [c [A <-]] [c' [B <-]]. congruence. Qed.
  Lemma stage_weaken {I I' : IRC F} (Q Q' : Env F -> Prop) (x : RootCircuit I) im (y : RootCircuit I') im' : (forall E, Q' E -> Q E) -> stage EM Q x im y im' -> stage EM Q' x im y im'.
  Proof. intros H [W [d [T R]]]. split; auto. exists d. split; auto. eapply tied_weaken; eauto. Qed.
  Lemma stage_id {I I' : IRC F} (Q : Env F -> Prop) (x : RootCircuit I) n (y : RootCircuit I') im' : root_inputs x n -> n <= EM -> stage EM Q x (im_identity n) y im' -> tied EM Q x y im'.
  Proof.
    intros Hx Hn [W [d [T [A1 [A2 [A3 A4]]]]]]. pose proof (tied_in _ _ _ _ _ _ T Hx) as Hd. destruct T as [T1 [c0 [c [T2 [T3 [T4 [T5 T6]]]]]] T7 T8].
    assert (Hc : cur_size im' = n) by (rewrite A2; unfold cur_size, im_identity; cbn; apply seq_length). split; auto.
    - exists c0, c. repeat (split; auto); congruence.
    - intros ins ins' Hm E outs b. pose proof (map_inputs_len EM _ _ _ _ Hm) as Hl. assert (Hid : map_inputs EM f0 (im_identity n) ins = Some ins) by (rewrite <- Hc, <- Hl; apply map_inputs_identity; lia).
      rewrite (A4 _ _ _ _ Hid) in Hm. apply (T8 ins ins' Hm E outs b).
  Qed.
End OptStage.

(* ------------------------------------------------------------ circuits that draw nothing: kept up to solve_duplicates *)
Section Draws.
  Context {F : Fld}.
  Notation DI := (DestI F false).
  Variable nr : Prop.
  (* no random coefficients; no random constants if [nr] *)
  Definition PD (i : DInsn F) : Prop := no_random_term i /\ (nr -> i <> DConst CRandom).
  Definition PL (i : LInsn F) : Prop := nr -> i <> LConst CRandom.
  Lemma PD_replace f (i : DInsn F) : PD i -> PD (d_replace F f i).
  Proof.
    intros [H1 H2]. destruct i as [e|id l n|c]; split; cbn in *; auto; try discriminate.
    unfold no_random, e_replace in *. rewrite Forall_map. eapply Forall_impl; [|exact H1]. cbn. intros t. destruct (vars t); auto.
  Qed.
  Lemma PD_linear k x : PD (DVar (e_linear F k x)).
  Proof. split; [repeat constructor|discriminate]. Qed.
  Lemma PD_call id l n : PD (DCall id l n).
  Proof. split; [exact I|discriminate]. Qed.
  Lemma PD_ipred (s : bool) : ipred (DestI F s) PD.
  Proof.
    split.
    - intros f i H. apply PD_replace. auto.
    - intros x k b. split; [|discriminate]. cbn. apply no_random_from_terms. repeat constructor.
    - intros i id l n l' n' _ _. apply PD_call.
  Qed.
  Lemma PL_ipred : ipred (HlI F) PL.
  Proof.
    split.
    - intros f i H N. specialize (H N). destruct i; cbn; try discriminate. exact H.
    - intros x k b N. discriminate.
    - intros i id l n l' n' _ _ N. discriminate.
  Qed.
  Lemma PL_PD (is : list (LInsn F)) (js : list (DInsn F)) : Forall PL is -> Forall (plain_insn is) js -> Forall PD js.
  Proof.
    intros H1 H2. eapply Forall_impl; [|exact H2]. intros [e|id l n|c] Hp; cbn in Hp; (split; [try exact I; auto|]); try discriminate. intros N Hc. injection Hc as ->. rewrite Forall_forall in H1. exact (H1 _ Hp N eq_refl).
  Qed.
  (* export_constraints *)
  Lemma xc_insns_PD m is : forall vm new is' vm' sub, xc_insns (F := F) m is vm new = Some (is', vm', sub) -> Forall PD is -> Forall PD is'.
  Proof.
    induction is as [|i is IH]; intros vm new is' vm' sub H Hf; cbn [xc_insns] in H; [injection H as <- <- <-; auto|]. inversion Hf as [|? ? Hi Hf']; subst. pose proof (PD_replace (vmap (vm ++ seq (S new) (d_nout F i))) i Hi) as Hr.
    destruct (d_replace F _ i) eqn:Er.
    - apply obind_some in H. destruct H as [[[a b] d] [H1 H2]]. injection H2 as <- <- <-. constructor; eauto.
    - apply obind_some in H. destruct H as [h [_ H]]. apply obind_some in H. destruct H as [[[a b] d] [H1 H2]]. injection H2 as <- <- <-. constructor; eauto. apply PD_call.
    - apply obind_some in H. destruct H as [[[a b] d] [H1 H2]]. injection H2 as <- <- <-. constructor; eauto.
  Qed.
  Lemma xc_holds (rc rc' : RootCircuit DI) : export_constraints rc = Some rc' -> holds DI PD rc -> holds DI PD rc'.
  Proof.
    intros H Hh id c' Hc'. unfold export_constraints in H. apply obind_some in H. destruct H as [q [_ H]]. apply obind_some in H. destruct H as [acc [H1 H2]].
    apply obind_some in H2. destruct H2 as [x0 [_ H2]]. injection H2 as <-. cbn [circuits] in Hc'.
    rewrite (lookup_map_snd (fun _ x => fst x)) in Hc'. destruct (lookup id acc) as [[c1 k]|] eqn:Hl; [|discriminate]. cbn in Hc'. injection Hc' as <-. apply lookup_In in Hl.
    destruct (rev_pass_inv _ _ _ _ _ _ H1 _ _ Hl) as [[]|[m [c [Hc Hx]]]]. unfold xc_circuit in Hx. apply obind_some in Hx. destruct Hx as [[[is' vm] sub] [Hx1 Hx2]]. injection Hx2 as <- _. cbn [instructions].
    eapply xc_insns_PD; [exact Hx1|]. apply (Hh _ _ Hc).
  Qed.
  (* solve_mul_fanout_limit *)
  Lemma fo_relays_PD limit : forall k q new is' q', fo_relays (F := F) limit k q new = (is', q') -> Forall PD is'.
  Proof.
    induction k as [|k IH]; intros q new is' q' H; cbn [fo_relays] in H; [injection H as <- _; auto|]. destruct (q_get q) as [y q1]. destruct (fo_relays limit k _ (S new)) as [a b] eqn:E. injection H as <- _.
    constructor; [apply PD_linear|]. eapply IH; eauto.
  Qed.
  Definition last_PD (l : option (DInsn F)) : Prop := forall j, l = Some j -> PD j.
  Lemma last_PD_app (ks : list (DInsn F)) l : Forall PD ks -> last_PD l -> last_PD (last (map Some ks) l).
  Proof.
    intros H. revert l. induction H as [|k ks Hk H IH]; intros l Hl; auto. destruct ks as [|k2 ks]; [cbn; intros j Hj; injection Hj as <-; auto|]. cbn [map last]. cbn [map] in IH. apply (IH l). auto.
  Qed.
  Lemma fo_pend1_PD limit a r l q new ks q' : fo_pend1 (F := F) limit a r l q new = Some (ks, q') -> last_PD l -> Forall PD ks.
  Proof.
    unfold fo_pend1. intros H Hl. destruct ((a =? 0)%nat && (r =? 0)%nat); [injection H as <- _; auto|]. apply obind_some in H. destruct H as [k1 [H1 H2]]. destruct (fo_relays limit r _ _) as [rs q2] eqn:E. injection H2 as <- _.
    apply Forall_app. split; [|eapply fo_relays_PD; eauto]. destruct a; [injection H1 as <-; auto|]. apply obind_some in H1. destruct H1 as [j [Hj H1]]. injection H1 as <-. pose proof (Hl j Hj). apply Forall_forall. intros x Hx. 
    change (j :: repeat j a) with (repeat j (S a)) in Hx. apply repeat_spec in Hx. subst. auto.
  Qed.
  Lemma fo_pend_PD limit add relay : forall xs nid l new ks nid', fo_pend (F := F) limit add relay xs nid l new = Some (ks, nid') -> last_PD l -> Forall PD ks.
  Proof.
    induction xs as [|x xs IH]; intros nid l new ks nid' H Hl; cbn [fo_pend] in H; [injection H as <- _; auto|]. apply obind_some in H. destruct H as [q [_ H]]. apply obind_some in H. destruct H as [[k1 q1] [H1 H]]. apply obind_some in H. destruct H as [[k2 n2] [H2 H]]. injection H as <- _.
    pose proof (fo_pend1_PD _ _ _ _ _ _ _ _ H1 Hl) as P1. apply Forall_app. split; auto. eapply IH; [exact H2|]. apply last_PD_app; auto.
  Qed.
  Lemma fo_terms_nr : forall ts nid ts' nid', fo_terms (F := F) nid ts = (ts', nid') -> no_random F ts -> no_random F ts'.
  Proof.
    induction ts as [|t ts IH]; intros nid ts' nid' H Hn; cbn [fo_terms] in H; [injection H as <- _; constructor|]. destruct (fo_term nid t) as [t1 n1] eqn:E1. destruct (fo_terms n1 ts) as [ts1 n2] eqn:E2. injection H as <- _.
    inversion Hn as [|? ? Ht Hn']; subst. constructor; [|eapply IH; eauto]. unfold fo_term in E1. destruct (vars t); try destruct Ht; try (injection E1 as <- _; exact I).
    destruct (q_get _) as [x' qx]. destruct (q_get _) as [y' qy]. injection E1 as <- _. exact I.
  Qed.
  Lemma fo_exprs_PD e : no_random F e -> forall k nid is' nid', fo_exprs (F := F) k e nid = (is', nid') -> Forall PD is'.
  Proof.
    intros Hn. induction k as [|k IH]; intros nid is' nid' H; cbn [fo_exprs] in H; [injection H as <- _; auto|]. destruct (fo_terms nid e) as [ts n1] eqn:E1. destruct (fo_exprs k e n1) as [js n2] eqn:E2. injection H as <- _.
    constructor; [|eapply IH; eauto]. split; [|discriminate]. cbn. apply no_random_from_terms. eapply fo_terms_nr; eauto.
  Qed.
  Lemma fo_insns_PD limit add relay : forall is nid l new solved is' nid', fo_insns (F := F) limit add relay is nid l new solved = Some (is', nid') -> last_PD l -> Forall PD is -> Forall PD is'.
  Proof.
    induction is as [|i is IH]; intros nid l new solved is' nid' H Hl Hf; cbn [fo_insns] in H; [injection H as <- _; auto|]. inversion Hf as [|? ? Hi Hf']; subst.
    apply obind_some in H. destruct H as [[ks n1] [H1 H]]. pose proof (fo_pend_PD _ _ _ _ _ _ _ _ _ H1 Hl) as P1. destruct i as [e|id args n|c].
    - destruct (_ || _)%bool; [|discriminate]. destruct (fo_exprs _ e n1) as [es n2] eqn:E2. apply obind_some in H. destruct H as [[js n3] [H2 H]]. injection H as <- _. pose proof (fo_exprs_PD e (proj1 Hi) _ _ _ _ E2) as P2.
      apply Forall_app. split; auto. apply Forall_app. split; auto. eapply IH; [exact H2| |auto]. apply last_PD_app; auto. intros j; discriminate.
    - destruct (forallb _ _); [|discriminate]. apply obind_some in H. destruct H as [[js n3] [H2 H]]. injection H as <- _. apply Forall_app. split; auto. constructor; [apply PD_call|]. eapply IH; [exact H2| |auto]. intros j Hj. injection Hj as <-. apply PD_call.
    - apply obind_some in H. destruct H as [[js n3] [H2 H]]. injection H as <- _. apply Forall_app. split; auto. constructor; auto. eapply IH; [exact H2| |auto]. intros j Hj. injection Hj as <-. auto.
  Qed.
  Lemma fo_holds limit (rc rc' : RootCircuit DI) : wf_root DI rc -> solve_mul_fanout_limit limit rc = Some rc' -> holds DI PD rc -> uncalled DI 0 rc -> holds DI PD rc' /\ uncalled DI 0 rc'.
  Proof.
    intros W H Hh Hu. unfold solve_mul_fanout_limit in H. destruct (limit <=? 1)%nat eqn:El; [discriminate|]. apply Nat.leb_gt in El.
    destruct (local_pass_spec DI DI (fo_circuit limit) rc W) as [rc1 [A [B [C [D [K1 [K2 _]]]]]]].
    { intros id c Hc. destruct (fo_circuit_ok limit El (circuits rc) c) as [c' [X [Y _]]]; eauto; [apply (wr_cs _ _ W) in Hc; auto|]. eapply (wf_calls _ _ (wr_cs _ _ W)); eauto. }
    rewrite H in A. injection A as <-. split; intros id c' Hc'; destruct (K1 id c' Hc') as [c [Hc [X Y]]].
    - unfold fo_circuit in X. destruct (_ =? 1)%nat; [injection X as <-; eauto|]. destruct (fo_plan _ _ _ _ _ _) as [[m1 a1] r1]. apply obind_some in X. destruct X as [[js n1] [X1 X2]]. injection X2 as <-. cbn [instructions].
      eapply fo_insns_PD; [exact X1|intros j; discriminate|apply (Hh id c Hc)].
    - destruct Y as [_ [_ [_ Y]]]. intros Hin. apply calls_in in Hin. destruct Hin as [i [l [n [Hi Ec]]]]. destruct (Y i 0 l n Hi Ec) as [i0 [l0 [Hi0 [Ec0 _]]]]. apply (Hu id c Hc). eapply (in_calls DI); eauto.
  Qed.
End Draws.
