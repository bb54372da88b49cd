(* Recording does not panic on a program that can be run with all its assertions holding. *)
From Verif Require Import Prelude Field Expr Hints Ir IrInst IrFacts Sim ApiSpec Frontend ApiFacts FrontFacts FrontSim.
From Coq Require Import Lia.
Open Scope nat_scope.

Section Prim.
  Context {F : Fld}.
  Notation SI := (SrcI F).
  Variable fsize : nat.
  Variable E : Env F.
  Variable CS : list (nat * Circuit SI).
  Hypothesis HE : Eok E.
  Hypothesis Hsize : size_ok (F := F) fsize.
  Local Notation Bd := (@Bd F).

  (* hints are asked about variables; comparisons need a field size the builder knows *)
  Definition op_sup (o : Op (Arg F)) : Prop :=
    match o with OHint _ l _ => Forall (fun a => exists x, a = AV x) l | OGt _ _ | OGeq _ _ => num_bits fsize <> None | _ => True end.
  Lemma assert_some (b : Bd) t a : (forall c, const_of b a = Some c -> con_fun t c = true) -> exists b', assert_is b t a = Some b'.
  Proof.
    intros H. unfold assert_is. destruct (const_of b a) as [c|].
    - specialize (H c eq_refl). destruct (convert b a). destruct t; cbn [con_fun] in H; try (rewrite H; eauto; fail). unfold boolean in H.
      destruct (is0 F c); cbn [negb andb orb] in *; [eauto|]. rewrite H. cbn. eauto.
    - destruct (convert b a). eauto.
  Qed.
  Lemma const1_some (b : Bd) (c : F) : exists r, const1 b c = Some r. Proof. unfold const1. destruct (convert b (AK c)). eauto. Qed.
  Lemma bin_const_some b o x y w : folds o = true -> bin_fun o x y = Some w -> exists r, bin_const (F := F) b o x y = Some r.
  Proof.
    intros Hf H. destruct o; cbn [bin_const folds bin_fun] in *; try discriminate; try apply const1_some.
    - destruct (is0 F y); [|apply const1_some]. destruct (is0 F x); cbn [andb] in H; [|discriminate]. destruct checked; [discriminate|]. apply const1_some.
    - destruct (boolean F x) eqn:Hx; cbn [andb] in H; [|discriminate]. destruct (boolean F y) eqn:Hy; cbn [andb] in H; [|discriminate].
      destruct (assert_some b TBool (AK x)) as [b1 ->]. { intros c Hc. injection Hc as <-. auto. } cbn [obind].
      destruct (assert_some b1 TBool (AK y)) as [b2 ->]. { intros c Hc. injection Hc as <-. auto. } cbn [obind]. apply const1_some.
  Qed.
  Lemma nonfold_some (b : Bd) o (x y : Arg F) : exists r, (let (b, x) := convert b x in let (b, y) := convert b y in Some (push b (bin_insn o x y) 1)) = Some r.
  Proof. destruct (convert b x) as [b1 xi]. destruct (convert b1 y). eauto. Qed.
  Lemma prim_some b o vals outs : GV b vals -> op_sup o -> derived fsize false 0 o = None -> opsem E o vals outs true -> exists r, bd_prim b o = Some r.
  Proof.
    intros G Hs Hd (o' & Ho & Ha). destruct o as [o x y|x|x|x n|t x| |h l n|x|x|x y|x y|x|x y|x y|l|x y|x y]; cbn [derived] in Hd; try discriminate; cbn [op_map idv obind] in Ho; try (injection Ho as <-); cbn [bd_prim api_sem api_fun] in *.
    - destruct (const_of b x) as [cx|] eqn:Ex; [|apply nonfold_some]. destruct (const_of b y) as [cy|] eqn:Ey; [|apply nonfold_some]. destruct (folds o) eqn:Ef; [|apply nonfold_some].
      rewrite (const_of_ok b vals x cx), (const_of_ok b vals y cy) in Ha; auto. destruct (bin_fun o cx cy) as [w|] eqn:Eb; cbn [obind] in Ha; [|discriminate]. eapply bin_const_some; eauto.
    - destruct (const_of b x); [apply const1_some|]. destruct (convert b x). eauto.
    - destruct (const_of b x); [apply const1_some|]. destruct (convert b x). eauto.
    - destruct (const_of b x) as [cx|] eqn:Ex; [|destruct (convert b x); eauto]. rewrite (const_of_ok b vals x cx) in Ha; auto. rewrite to_binary_fun. destruct (toZ cx <? 2 ^ Z.of_nat n)%Z; [|discriminate]. cbn [obind]. eauto.
    - destruct (assert_some b t x) as [b1 ->]; [|cbn [obind]; eauto]. intros c Hc. rewrite (const_of_ok b vals x c) in Ha; auto. injection Ha as _ ->. auto.
    - eauto.
    - cbn [op_sup] in Hs. assert (exists l', omap (fun a => match a with AV x => Some x | AK _ => None end) l = Some l') as [l' ->]; [|cbn [obind]; eauto].
      clear -Hs. induction Hs as [|a l [x ->] _ IH]; cbn [omap]; eauto. cbn [obind]. destruct IH as [l' ->]. cbn [obind]. eauto.
    - destruct (convert b x). eauto.
    - destruct (convert b x). eauto.
    - destruct (from_bin_ops 0 l). discriminate.
  Qed.
  Definition prim_opb (o : Op (Arg F)) : bool :=
    match o with OInverse _ | OAssertEq _ _ | OAssertDiff _ _ | OFromBin _ | OGt _ _ | OGeq _ _ | OUAdd _ _ | OUMul _ _ | OHint _ _ _ => false | _ => true end.
  Lemma opb_derived H o : prim_opb o = true -> derived fsize false H o = None /\ op_sup o.
  Proof. destruct o; cbn; intros; auto; discriminate. Qed.
  Lemma opb_map (f : Arg F -> option (Arg F)) o o1 : op_map f o = Some o1 -> prim_opb o1 = prim_opb o.
  Proof. intros H. destruct o; cbn [op_map] in H; repeat match type of H with context [obind ?e _] => destruct e; cbn [obind] in H; try discriminate end; injection H as <-; reflexivity. Qed.
  Lemma gt_loop_opb one x0 y0 i : forall H r e, forallb prim_opb (fst (gt_loop (F := F) one x0 y0 i H r e)) = true.
  Proof. induction i as [|i IH]; intros H r e; cbn [gt_loop]; auto. specialize (IH (H + 7) (H + 3) (H + 6)). destruct (gt_loop _ _ _ _ _ _ _). cbn in *. auto. Qed.
  Lemma gt_ops_opb H x y p : gt_ops (F := F) fsize H x y = Some p -> forallb prim_opb (fst p) = true.
  Proof.
    unfold gt_ops. destruct (num_bits fsize) as [n|]; cbn [obind]; [|discriminate].
    pose proof (gt_loop_opb H (H + 3) (H + 3 + n) n (H + 5 + 2 * n) (H + 3 + 2 * n) (H + 4 + 2 * n)) as Hd.
    destruct (gt_loop _ _ _ _ _ _ _) as [ops r]. intros Hp. injection Hp as <-. cbn [fst forallb app prim_opb andb] in *. auto.
  Qed.
  Lemma from_bin_opb xs : forall H r (m : F), forallb prim_opb (fst (from_bin_loop xs H r m)) = true.
  Proof. induction xs as [|x xs IH]; intros H r m; cbn [from_bin_loop]; auto. specialize (IH (H + 2) (H + 1) (fadd m m)). destruct (from_bin_loop _ _ _ _). cbn in *. auto. Qed.
  Lemma derived_opb H o os rs : derived fsize false H o = Some (Some (os, rs)) -> forallb prim_opb os = true.
  Proof.
    destruct o; cbn [derived]; try discriminate; intros Hd; try (injection Hd as <- <-; auto; fail).
    - destruct (gt_ops fsize H x y) as [p|] eqn:Ep; cbn [obind] in Hd; [|discriminate]. injection Hd as <- <-. eapply gt_ops_opb; eauto.
    - destruct (gt_ops fsize H y x) as [p|] eqn:Ep; cbn [obind] in Hd; [|discriminate]. destruct (num_bits fsize); [|discriminate]. injection Hd as <- <-.
      rewrite forallb_app, (gt_ops_opb _ _ _ _ Ep). auto.
    - unfold from_bin_ops in Hd. destruct l as [|x xs]; [injection Hd as <- <-; auto|]. pose proof (from_bin_opb xs (H + 1) H f1) as Hf. destruct (from_bin_loop _ _ _ _) as [ops r]. injection Hd as <- <-. cbn in *. auto.
  Qed.
  Lemma derived_some hs o : op_sup o -> derived (F := F) fsize false hs o <> Some None.
  Proof.
    destruct o; cbn [derived op_sup]; try discriminate; unfold gt_ops.
    - destruct (num_bits fsize) as [n|]; cbn [obind]; [|congruence]. destruct (gt_loop _ _ _ _ _ _ _). intros _ H. discriminate.
    - destruct (num_bits fsize) as [n|]; cbn [obind]; [|congruence]. destruct (gt_loop _ _ _ _ _ _ _). intros _ H. discriminate.
    - destruct (from_bin_ops hs l). discriminate.
  Qed.
  Lemma ids_some (hs : list nat) (hv : list F) o o' : length hv = length hs -> op_map (arg_val hv) o = Some o' -> exists o1, op_map (arg_id hs) o = Some o1.
  Proof.
    intros Hl H. pose proof (op_map_args _ _ _ H) as Ha. assert (HA : forall a, In a (op_args o) -> exists x, arg_id hs a = Some x).
    { clear -Ha Hl. intros a Hin. induction Ha as [|a0 b l l' H0 _ IH]; [destruct Hin|]. destruct Hin as [<-|Hin]; [|auto]. destruct a0 as [h|c]; cbn in *; eauto.
      apply nth_error_Some_lt in H0. rewrite Hl in H0. destruct (nth_error_Some_ex _ _ H0) as [x ->]. cbn [obind]. eauto. }
    clear H Ha. destruct o; cbn [op_map op_args] in *;
    repeat match goal with |- context [arg_id hs ?x] => let z := fresh in let Hz := fresh in destruct (HA x ltac:(cbn; tauto)) as [z Hz]; rewrite Hz; cbn [obind] end; eauto.
    - assert (exists r, omap (arg_id hs) l = Some r) as [r ->]; [|cbn [obind]; eauto]. clear -HA. induction l as [|a l IH]; cbn [omap]; eauto. destruct (HA a (or_introl eq_refl)) as [z ->]. cbn [obind]. destruct IH as [r ->]. intros; apply HA; right; auto. cbn [obind]; eauto.
    - assert (exists r, omap (arg_id hs) l = Some r) as [r ->]; [|cbn [obind]; eauto]. clear -HA. induction l as [|a l IH]; cbn [omap]; eauto. destruct (HA a (or_introl eq_refl)) as [z ->]. cbn [obind]. destruct IH as [r ->]. intros; apply HA; right; auto. cbn [obind]; eauto.
  Qed.
  Lemma sup_map hs o o1 : op_map (arg_id hs) o = Some o1 -> op_sup o -> op_sup o1.
  Proof.
    intros H Hs. pose proof (op_map_args _ _ _ H) as Ha. destruct o; cbn [op_map] in H; repeat match type of H with context [obind ?e _] => destruct e; cbn [obind] in H; try discriminate end; injection H as <-; cbn [op_sup op_args] in *; auto.
    induction Ha as [|a b l l' H0 _ IH]; constructor.
    - inversion Hs as [|? ? [x ->] _]; subst. cbn in H0. destruct (nth_error hs x); [|discriminate]. injection H0 as <-. eauto.
    - apply IH. inversion Hs; auto.
  Qed.
  Lemma der_map hs o o1 : op_map (arg_id (F := F) hs) o = Some o1 -> derived fsize false 0 o = None -> derived fsize false 0 o1 = None.
  Proof. intros H Hd. destruct o; cbn [derived] in Hd; try discriminate; cbn [op_map] in H; repeat match type of H with context [obind ?e _] => destruct e; cbn [obind] in H; try discriminate end; injection H as <-; auto. destruct (from_bin_ops 0 l); discriminate. Qed.
  Lemma step_prim_some b hs ins hv o hv' : Inv E CS b -> hs_ok b hs -> Hrun E CS b hs ins hv true -> stepR E o hv hv' true -> op_sup o -> derived fsize false 0 o = None ->
    exists o1 r, op_map (arg_id hs) o = Some o1 /\ bd_prim b o1 = Some r.
  Proof.
    intros HI Hh (vals & Hb & ->) (outs & (o' & Ho & Ha) & ->) Hs Hd. destruct (ids_some hs _ o o' ltac:(apply map_length) Ho) as [o1 Ho1]. exists o1.
    destruct (prim_some b o1 vals outs) as [r Hr]; eauto.
    - apply (proj2 HI _ _ _ Hb).
    - eapply sup_map; eauto.
    - eapply der_map; eauto.
    - exists o'. split; auto. rewrite (op_map_comp _ _ _ _ Ho1). rewrite <- Ho. apply op_map_ext. intros a _. symmetry. apply arg_id_val.
  Qed.
  Lemma prims_some os : forall b hs ins hv hv', forallb prim_opb os = true -> Inv E CS b -> hs_ok b hs -> Hrun E CS b hs ins hv true -> prims E os hv hv' true -> exists r, bd_prims b hs os = Some r.
  Proof.
    induction os as [|o os IH]; intros b hs ins hv hv' Hp HI Hh HR Hs; cbn [bd_prims forallb prims] in *; eauto. apply andb_true_iff in Hp. destruct Hp as [Hp1 Hp2].
    destruct Hs as (o' & outs & b1 & b2 & H1 & H2 & H3 & Hbb). symmetry in Hbb. apply andb_true_iff in Hbb. destruct Hbb as [-> ->].
    assert (HS : stepR E o hv (hv ++ outs) true) by (exists outs; split; eauto).
    destruct (opb_derived 0 o Hp1) as [D1 D2]. destruct (step_prim_some b hs ins hv o _ HI Hh HR HS D2 D1) as (o1 & [b1 rs] & Ho1 & Hr). rewrite Ho1. cbn [obind]. rewrite Hr. cbn [obind fst snd].
    pose proof (prim_ok E CS HE b hs o o1 b1 rs HI Hh Ho1 Hr) as A. eapply (IH b1 (hs ++ rs) ins (hv ++ outs)); eauto. apply A. apply A. apply A. exists hv, true, true. auto.
  Qed.
  Lemma derived_0 H o : derived (F := F) fsize false H o = None -> derived fsize false 0 o = None.
  Proof. destruct o; cbn; auto; try discriminate. destruct (from_bin_ops H l). discriminate. Qed.
  Lemma bd_op_some b hs ins hv o hv' : Inv E CS b -> hs_ok b hs -> Hrun E CS b hs ins hv true -> stepR E o hv hv' true -> op_sup o -> exists r, bd_op fsize b hs o = Some r.
  Proof.
    intros HI Hh HR HS Hs. unfold bd_op. destruct (derived fsize false (length hs) o) as [d|] eqn:Hd.
    2:{ destruct (step_prim_some b hs ins hv o hv' HI Hh HR HS Hs (derived_0 _ _ Hd)) as (o1 & r & -> & Hr). cbn [obind]. eauto. }
    destruct HS as (outs & (o' & Ho & Ha) & ->). pose proof (Hrun_len _ _ _ _ _ _ _ HR) as Hl. destruct (ids_some hs hv o o' Hl Ho) as [o1 ->]. cbn [obind].
    destruct d as [[os js]|]; [|exfalso; eapply derived_some; eauto]. cbn [obind fst snd].
    destruct (derived_det _ _ _ _ _ _ Hd) as [D1 D2]. apply (det_sem E o o' hv) in Ha; auto.
    pose proof (derived_pf fsize false hv o os js o' Hsize ltac:(rewrite Hl; exact Hd) Ho) as P. rewrite Ha in P. destruct P as (hv' & P1 & P2). apply (prims_pf E os D1) in P1.
    destruct (prims_some os b hs ins hv hv' (derived_opb _ _ _ _ Hd) HI Hh HR P1) as [[b1 hs1] Hb]. rewrite Hb. cbn [obind fst snd].
    destruct (prims_ok E CS HE os b hs b1 hs1 HI Hh Hb) as [A _]. assert (HR2 : Hrun E CS b1 hs1 ins hv' true) by (apply A; exists hv, true, true; auto).
    pose proof (Hrun_len _ _ _ _ _ _ _ HR2) as Hl2.
    assert (exists rs, omap (nth_error hs1) js = Some rs) as [rs ->]; [|cbn [obind]; eauto].
    apply omap_some in P2. clear -P2 Hl2. induction P2 as [|j x js xs Hj _ IH]; cbn [omap]; eauto. apply nth_error_Some_lt in Hj. rewrite Hl2 in Hj. destruct (nth_error_Some_ex _ _ Hj) as [y ->]. cbn [obind]. destruct IH as [r ->]. cbn [obind]. eauto.
  Qed.
End Prim.

Section Progress.
  Context {F : Fld}.
  Notation SI := (SrcI F).
  Variable fsize : nat.
  Variable fns : nat -> nat -> nat -> Prog F.
  Variable hash : nat -> nat -> N.
  Variable low : N -> nat.
  Hypothesis Hsize : size_ok (F := F) fsize.
  (* no two functions share their 64-bit id *)
  Hypothesis low_inj : forall ty n ty' n', low (hash ty n) = low (hash ty' n') -> ty = ty' /\ n = n'.
  Hypothesis no_capture : forall ty cap n, fns ty cap n = fns ty 0 n.
  Lemma hash_inj : forall ty n ty' n', hash ty n = hash ty' n' -> ty = ty' /\ n = n'.
  Proof. intros ty n ty' n' H. apply low_inj. congruence. Qed.
  Local Notation St := (@St F).
  Local Notation StOk := (StOk fns hash low).
  Definition stmt_sup (s : Stmt F) : Prop := match s with SOp o => op_sup fsize o | SFn _ _ _ => True end.
  Definition sup (p : Prog F) : Prop := Forall stmt_sup (p_body p).
  Hypothesis fns_sup : forall ty n, sup (fns ty 0 n).

  (* the nesting depth of calls is below k *)
  Fixpoint dep (k : nat) (p : Prog F) : bool :=
    match k with 0 => false | S k => forallb (fun s => match s with SFn ty _ l => dep k (fns ty 0 (length l)) | SOp _ => true end) (p_body p) end.
  Definition depss (k : nat) (ss : list (Stmt F)) : bool := forallb (fun s => match s with SFn ty _ l => dep k (fns ty 0 (length l)) | SOp _ => true end) ss.
  Lemma dep_mono k : forall p k', k <= k' -> dep k p = true -> dep k' p = true.
  Proof.
    induction k as [|k IH]; intros p k' Hk H; cbn [dep] in H; [discriminate|]. destruct k' as [|k']; [lia|]. cbn [dep]. rewrite forallb_forall in *. intros s Hs. specialize (H s Hs). destruct s as [o|ty cap l]; auto. eapply IH; eauto. lia.
  Qed.
  Lemma depss_mono k k' ss : k <= k' -> depss k ss = true -> depss k' ss = true.
  Proof. unfold depss. intros Hk H. rewrite forallb_forall in *. intros s Hs. specialize (H s Hs). destruct s as [o|ty cap l]; auto. eapply dep_mono; eauto. Qed.
  Lemma prog_dep E p ins outs b : prog fns E p ins outs b -> exists k, dep k p = true.
  Proof.
    apply (prog_mut fns E (fun ss hv hv' b _ => exists k, depss k ss = true) (fun p ins outs b _ => exists k, dep k p = true)); clear p ins outs b.
    - intros hv. exists 0. auto.
    - intros o o' ss hv outs b hv' b' _ _ _ [k H]. exists k. auto.
    - intros ty cap l ins ss hv outs b hv' b' _ _ [k1 H1] _ [k2 H2]. exists (max k1 k2). cbn [depss forallb]. rewrite no_capture in H1. rewrite (dep_mono k1 _ (max k1 k2)) by (auto; lia). apply (depss_mono k2); auto. lia.
    - intros p ins hv b outs _ [k H] _. exists (S k). auto.
  Qed.
  Lemma min_dep k p : dep k p = true -> exists j, j <= k /\ dep j p = true /\ forall i, i < j -> dep i p = false.
  Proof.
    induction k as [k IH] using (well_founded_induction lt_wf). intros H. destruct (existsb (fun i => dep i p) (seq 0 k)) eqn:Ee.
    - apply existsb_exists in Ee. destruct Ee as (i & Hi & Hd). apply in_seq in Hi. destruct (IH i ltac:(lia) Hd) as (j & J1 & J2). exists j. split; [lia|auto].
    - exists k. split; auto. split; auto. intros i Hi. destruct (dep i p) eqn:Ei; auto. rewrite <- Ee. symmetry. apply existsb_exists. exists i. split; auto. apply in_seq. lia.
  Qed.
  Definition IdsOk (st : St) : Prop := forall k h, lookup k (st_ids st) = Some h -> exists ty n, h = hash ty n /\ k = low h.
  (* what st' has beyond st are functions of depth below k *)
  Definition newdep (k : nat) (st st' : St) : Prop := forall id c, lookup id (st_subs st') = Some c -> lookup id (st_subs st) = None -> exists ty n j, id = low (hash ty n) /\ j < k /\ dep j (fns ty 0 n) = true.
  Definition rec_prog (k : nat) (rec : St -> Prog F -> nat -> option (St * Circuit SI)) : Prop :=
    forall j st p E ins outs, j <= k -> dep j p = true -> sup p -> StOk st -> IdsOk st -> Eok E -> prog fns E p ins outs true ->
      exists st' c, rec st p (length ins) = Some (st', c) /\ IdsOk st' /\ newdep j st st'.
  Lemma sub_id_some st ty n : IdsOk st -> exists st', sub_id low st (hash ty n) = Some (st', low (hash ty n)) /\ IdsOk st' /\ st_subs st' = st_subs st.
  Proof.
    intros HI. unfold sub_id. destruct (lookup (low (hash ty n)) (st_ids st)) as [h|] eqn:El.
    - destruct (HI _ _ El) as (ty' & n' & -> & Hk). apply low_inj in Hk. destruct Hk as [-> ->]. rewrite N.eqb_refl. eauto.
    - eexists. split; [reflexivity|]. split; auto. intros k h Hk. cbn [st_ids lookup] in Hk. destruct (Nat.eqb_spec (low (hash ty n)) k) as [<-|]; [injection Hk as <-; eauto|auto].
  Qed.
  Lemma call_some k rec st b ty cap ids E ins outs : rec_ok fns hash low rec -> rec_prog k rec -> StOk st -> IdsOk st -> Eok E ->
    length ins = length ids -> prog fns E (fns ty cap (length ids)) ins outs true -> dep k (fns ty 0 (length ids)) = true ->
    exists st' b' rs, call_fn fns hash low rec st b ty cap ids = Some (st', b', rs) /\ IdsOk st' /\ newdep (S k) st st'.
  Proof.
    intros HR HP HS HI HE Hl Hp Hd. unfold call_fn. destruct (sub_id_some st ty (length ids) HI) as (st1 & Es & I1 & Hsub). rewrite Es. cbn [obind].
    destruct (sub_id_ok _ _ _ _ _ _ _ HS Es) as (S1 & _). set (id := low (hash ty (length ids))) in *.
    destruct (lookup id (st_subs st1)) as [c|] eqn:Ec.
    - cbn [obind]. rewrite Ec. cbn [obind]. eexists _, _, _. split; [reflexivity|]. split; auto. intros id' c' H1 H2. rewrite Hsub in H1. congruence.
    - destruct (min_dep _ _ Hd) as (j & J1 & J2 & J3). rewrite no_capture in Hp. rewrite (no_capture ty cap).
      destruct (HP j st1 (fns ty 0 (length ids)) E ins outs J1 J2 (fns_sup _ _) S1 I1 HE Hp) as (st2 & c & Hr & I2 & N2). rewrite Hl in Hr. rewrite Hr. cbn [obind fst snd].
      destruct (lookup id (st_subs st2)) as [c2|] eqn:Ec2.
      + exfalso. destruct (N2 id c2 Ec2 Ec) as (ty' & n' & i & H1 & H2 & H3). apply low_inj in H1. destruct H1 as [<- <-]. rewrite (J3 i H2) in H3. discriminate.
      + cbn [obind st_subs]. rewrite lookup_app, Ec2. cbn [lookup]. rewrite Nat.eqb_refl. cbn [obind]. eexists _, _, _. split; [reflexivity|]. split; auto.
        intros id' c' H1 H2. cbn [st_subs] in H1. rewrite lookup_app in H1. destruct (lookup id' (st_subs st2)) as [c3|] eqn:E3.
        * rewrite <- Hsub in H2. destruct (N2 id' c3 E3 H2) as (ty' & n' & i & G1 & G2 & G3). exists ty', n', i. split; auto. split; auto. lia.
        * cbn [lookup] in H1. destruct (Nat.eqb_spec id id') as [<-|]; [|discriminate]. exists ty, (length ids), j. split; auto. split; auto. lia.
  Qed.
  Lemma stmts_some k rec ss : rec_ok fns hash low rec -> rec_prog k rec -> forall st b hs E ins hv hv', depss k ss = true -> Forall stmt_sup ss -> StOk st -> IdsOk st -> Eok E -> hs_ok b hs ->
    (forall CS, sub_of st CS -> Inv E CS b /\ Hrun E CS b hs ins hv true) -> stmts fns E ss hv hv' true ->
    exists st' b' hs', rb_stmts fsize fns hash low rec st b hs ss = Some (st', b', hs') /\ IdsOk st' /\ newdep (S k) st st'.
  Proof.
    intros HR HP. induction ss as [|[o|ty cap l] ss IH]; intros st b hs E ins hv hv' Hd Hsup HS HI HE Hh HB Hst; cbn [rb_stmts depss forallb] in *.
    - eexists _, _, _. split; [reflexivity|]. split; auto. intros id c H1 H2. congruence.
    - apply stmts_cons_op in Hst. destruct Hst as (hv1 & wa & wb & H1 & H2 & Hw). symmetry in Hw. apply andb_true_iff in Hw. destruct Hw as [-> ->].
      inversion Hsup as [|? ? Hs1 Hs2]; subst. destruct (HB (st_subs st)) as [B1 B2]. { intros id c H; exact H. }
      destruct (bd_op_some fsize E (st_subs st) HE Hsize b hs ins hv o hv1 B1 Hh B2 H1 Hs1) as [[b1 rs] Hb]. rewrite Hb. cbn [obind fst snd].
      assert (A : forall CS, sub_of st CS -> hseq E CS b hs b1 (hs ++ rs) (stepR E o)) by (intros CS Hc; apply (op_ok fsize E CS HE Hsize); auto; apply (HB CS Hc)).
      eapply (IH st b1 (hs ++ rs) E ins hv1 hv'); eauto. apply (A (st_subs st)). intros id c H; exact H.
      intros CS Hc. destruct (A CS Hc) as [a1 a2 a3 a4 a5]. split; auto. apply a5. exists hv, true, true. split; [apply (HB CS Hc)|auto].
    - apply stmts_cons_fn in Hst. destruct Hst as (hv1 & wa & wb & (outs & (cin & H0 & H1) & ->) & H2 & Hw). symmetry in Hw. apply andb_true_iff in Hw. destruct Hw as [-> ->].
      inversion Hsup as [|? ? Hs1 Hs2]; subst. apply andb_true_iff in Hd. destruct Hd as [Hd1 Hd2]. destruct (HB (st_subs st)) as [B1 B2]. { intros id c H; exact H. }
      pose proof (Hrun_len _ _ _ _ _ _ _ B2) as Hl.
      assert (exists ids, omap (nth_error hs) l = Some ids) as [ids Hids].
      { clear -H0 Hl. apply omap_some in H0. induction H0 as [|j x js xs Hj _ IH]; cbn [omap]; eauto. apply nth_error_Some_lt in Hj. rewrite Hl in Hj. destruct (nth_error_Some_ex _ _ Hj) as [y ->]. cbn [obind]. destruct IH as [r ->]. cbn [obind]. eauto. }
      rewrite Hids. cbn [obind]. pose proof (omap_length _ _ _ Hids) as L1. pose proof (omap_length _ _ _ H0) as L2. rewrite <- L1 in H1, Hd1.
      destruct (call_some k rec st b ty cap ids E cin outs HR HP HS HI HE ltac:(congruence) H1 Hd1) as (st1 & b1 & rs & Hc & I1 & N1). rewrite Hc. cbn [obind].
      destruct (call_fn_ok fns hash low hash_inj no_capture rec st b ty cap ids st1 b1 rs HR HS Hc) as (S1 & G1 & A).
      assert (A' : forall CS, sub_of st1 CS -> hseq E CS b hs b1 (hs ++ rs) (fun hv hv' w => exists outs, (exists ins, omap (nth_error hv) l = Some ins /\ prog fns E (fns ty cap (length l)) ins outs w) /\ hv' = hv ++ outs)).
      { intros CS Hcs. apply A; auto. apply (HB CS). eapply sub_of_mono; eauto. }
      destruct (IH st1 b1 (hs ++ rs) E ins (hv ++ outs) hv') as (st2 & b2 & hs2 & R1 & R2 & R3); auto.
      + apply (A' (st_subs st1)). intros id c H; exact H.
      + intros CS Hcs. destruct (A' CS Hcs) as [a1 a2 a3 a4 a5]. split; auto. apply a5. exists hv, true, true. split; [apply (HB CS); eapply sub_of_mono; eauto|]. split; auto. exists outs. split; auto. exists cin. split; auto. rewrite <- L1. auto.
      + exists st2, b2, hs2. split; auto. split; auto. intros id c E1 E2. destruct (lookup id (st_subs st1)) as [c1|] eqn:E3; [apply (N1 id c1); auto|apply (R3 id c); auto].
  Qed.
  Lemma outs_some E CS b hs ins hv l outs : Hrun (F := F) E CS b hs ins hv true -> omap (nth_error hv) l = Some outs -> exists r, omap (nth_error hs) l = Some r.
  Proof.
    intros HR H. apply Hrun_len in HR. apply omap_some in H. induction H as [|j x js xs Hj _ IH]; cbn [omap]; eauto. apply nth_error_Some_lt in Hj. rewrite HR in Hj. destruct (nth_error_Some_ex _ _ Hj) as [y ->]. cbn [obind]. destruct IH as [r ->]. cbn [obind]. eauto.
  Qed.
  Lemma rb_fn_some k : forall fuel, k <= fuel -> rec_prog k (rb_fn fsize fns hash low fuel).
  Proof.
    induction k as [|k IH]; intros fuel Hf j st p E ins outs Hj Hd Hsup HS HI HE Hp.
    - destruct j; [|lia]. discriminate.
    - destruct fuel as [|fuel]; [lia|]. destruct j as [|j]; [discriminate|]. cbn [rb_fn]. apply prog_iff in Hp. destruct Hp as (hv & H1 & H2).
      assert (B : forall CS, sub_of st CS -> Inv E CS (bd_new (length ins)) /\ Hrun E CS (bd_new (length ins)) (seq 1 (length ins)) ins ins true).
      { intros CS _. rewrite new_pub. split; [apply pub_inv|]. rewrite <- (Nat.add_0_r (length ins)) at 2. apply pub_Hrun. cbn [seq map]. rewrite app_nil_r. auto. }
      assert (Hh : hs_ok (bd_new (F := F) (length ins)) (seq 1 (length ins))) by (rewrite new_pub; rewrite <- (Nat.add_0_r (length ins)) at 2; apply pub_hs).
      assert (HPj : rec_prog j (rb_fn fsize fns hash low fuel)). { intros i st0 p0 E0 ins0 outs0 Hi. apply (IH fuel ltac:(lia)). lia. }
      destruct (stmts_some j _ (p_body p) (rb_fn_ok fsize fns hash low Hsize hash_inj no_capture fuel) HPj st (bd_new (length ins)) (seq 1 (length ins)) E ins ins hv) as (st' & b' & hs' & R1 & R2 & R3); auto.
      rewrite R1. cbn [obind].
      destruct (rb_stmts_ok fsize fns hash low Hsize hash_inj no_capture _ _ (rb_fn_ok fsize fns hash low Hsize hash_inj no_capture fuel) _ _ _ _ _ _ HS R1) as (S1 & G1 & A).
      assert (Hs' : sub_of st' (st_subs st')) by (intros id c H; exact H). destruct (B (st_subs st')) as [B1 B2]. { eapply sub_of_mono; eauto. }
      destruct (A E (st_subs st') HE Hs' B1 Hh) as [a1 a2 a3 a4 a5].
      assert (HR : Hrun E (st_subs st') b' hs' ins hv true) by (apply a5; exists ins, true, true; auto). destruct (outs_some _ _ _ _ _ _ _ _ HR H2) as [r Hr]. rewrite Hr. cbn [obind].
      eexists _, _. split; [reflexivity|]. auto.
  Qed.
  Theorem record_some E n npub p ins outs : Eok E -> sup p -> length ins = n -> main fns E npub p ins outs true ->
    exists fuel0, forall fuel, fuel0 <= fuel -> exists rc, record fsize fns hash low fuel n npub p = Some rc.
  Proof.
    intros HE Hsup Hl Hm. destruct (prog_dep _ _ _ _ _ Hm) as [k Hk]. destruct k as [|k]; [discriminate|]. exists k. intros fuel Hf. unfold main in Hm. apply prog_iff in Hm. destruct Hm as (hv & H1 & H2). unfold record.
    set (st := {| st_subs := []; st_ids := [] |}).
    assert (HS : StOk st). { split; [constructor|intros id c H; discriminate|]. intros pre id c post H. destruct pre; discriminate. }
    assert (B : forall CS, sub_of st CS -> Inv E CS (pub_builder n npub) /\ Hrun E CS (pub_builder n npub) (seq 1 (n + npub)) ins (ins ++ map (e_pub E) (seq 0 npub)) true).
    { intros CS _. split; [apply pub_inv|]. apply pub_Hrun. auto. }
    destruct (stmts_some k _ (p_body p) (rb_fn_ok fsize fns hash low Hsize hash_inj no_capture fuel) (rb_fn_some k fuel Hf) st (pub_builder n npub) (seq 1 (n + npub)) E ins (ins ++ map (e_pub E) (seq 0 npub)) hv) as (st' & b' & hs' & R1 & R2 & R3); auto.
    { intros id h H. discriminate. } { apply pub_hs. }
    rewrite R1. cbn [obind].
    destruct (rb_stmts_ok fsize fns hash low Hsize hash_inj no_capture _ _ (rb_fn_ok fsize fns hash low Hsize hash_inj no_capture fuel) _ _ _ _ _ _ HS R1) as (S1 & G1 & A).
    assert (Hs' : sub_of st' (st_subs st')) by (intros id c H; exact H). destruct (B (st_subs st')) as [B1 B2]. { eapply sub_of_mono; eauto. }
    destruct (A E (st_subs st') HE Hs' B1 (pub_hs _ _)) as [a1 a2 a3 a4 a5].
    assert (HR : Hrun E (st_subs st') b' hs' ins hv true) by (apply a5; exists (ins ++ map (e_pub E) (seq 0 npub)), true, true; auto). destruct (outs_some _ _ _ _ _ _ _ _ HR H2) as [r Hr]. rewrite Hr. cbn [obind]. eauto.
  Qed.
End Progress.
