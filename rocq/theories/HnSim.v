(* Hint normalisation of one circuit: how the builder's state relates to executions of the source circuit (Builder.v). *)
From Verif Require Import Prelude Field Sorting Expr Topo Containers Hints Ir IrFacts IrInst Sim LocalPass Builder BuilderFacts BuilderSim HnTrans.

Section HnSim.
  Context {F : Fld}.
  Add Field Fhs : (fth F).
  Open Scope fld_scope.
  Notation Expr := (list (Term F)).
  Notation Builder := (@Builder F).
  Notation Act := (@Act F).
  Notation HI := (HnI F).

  (* ---------- a sequence of actions without calls ---------- *)
  Definition log_of (t : nat) (acts : list Act) : list (nat * bool * nat) :=
    flat_map (fun a => match a with APush _ => [] | AAssert x => [(t, true, x)] | AMark x => [(t, false, x)] end) acts.
  Definition zl (a : bool) (vals : list F) (lg : list (nat * bool * nat)) : Prop := forall t x, In (t, a, x) lg -> getv vals x = 0.
  Lemma zl_log_true t acts vals : zl true vals (log_of t acts) <-> zeros vals (asserts acts).
  Proof.
    unfold zl, zeros. rewrite Forall_forall. unfold asserts, log_of. split.
    - intros H x Hx. apply in_flat_map in Hx. destruct Hx as [a [Ha Hx]]. destruct a as [i|y|y]; cbn in Hx; try contradiction. destruct Hx as [->|[]].
      apply (H t). apply in_flat_map. exists (AAssert x). split; [auto|left; auto].
    - intros H t' x Hx. apply in_flat_map in Hx. destruct Hx as [a [Ha Hx]]. destruct a as [i|y|y]; cbn in Hx; try contradiction; destruct Hx as [Hx|[]]; [|discriminate].
      injection Hx as -> ->. apply H. apply in_flat_map. exists (AAssert x). split; [auto|left; auto].
  Qed.
  Lemma zl_log_false t acts vals : zl false vals (log_of t acts) <-> zeros vals (marks acts).
  Proof.
    unfold zl, zeros. rewrite Forall_forall. unfold marks, log_of. split.
    - intros H x Hx. apply in_flat_map in Hx. destruct Hx as [a [Ha Hx]]. destruct a as [i|y|y]; cbn in Hx; try contradiction. destruct Hx as [->|[]].
      apply (H t). apply in_flat_map. exists (AMark x). split; [auto|left; auto].
    - intros H t' x Hx. apply in_flat_map in Hx. destruct Hx as [a [Ha Hx]]. destruct a as [i|y|y]; cbn in Hx; try contradiction; destruct Hx as [Hx|[]]; [discriminate|].
      injection Hx as -> ->. apply H. apply in_flat_map. exists (AMark x). split; [auto|left; auto].
  Qed.
  Lemma log_tag t acts p : In p (log_of t acts) -> fst (fst p) = t.
  Proof. unfold log_of. rewrite in_flat_map. intros [a [_ H]]. destruct a; cbn in H; try contradiction; destruct H as [<-|[]]; auto. Qed.
  Lemma acts_bound q acts : forall n, acts_ok q n acts -> forall t a x, In (t, a, x) (log_of t acts) -> (1 <= x < n + acts_n acts)%nat.
  Proof.
    induction acts as [|c acts IH]; intros n H t a x Hin; [contradiction|]. destruct c as [i|y|y]; cbn [acts_ok log_of flat_map app] in *; fold (log_of t acts) in *.
    - destruct H as [_ [_ [_ H]]]. specialize (IH _ H t a x Hin). unfold acts_n in *. cbn [pushes flat_map act_push app nouts]. change (@i_nout F HI i) with (h_nout F i). fold (pushes acts). lia.
    - destruct H as [H1 H2]. destruct Hin as [Hin|Hin]; [injection Hin as <- <-; lia|]. apply (IH _ H2 t a x Hin).
    - destruct H as [H1 H2]. destruct Hin as [Hin|Hin]; [injection Hin as <- <-; lia|]. apply (IH _ H2 t a x Hin).
  Qed.

  Record LInv (B : Builder) : Prop := {
    li_log : forall t a x, In (t, a, x) (b_log B) -> (1 <= x)%nat /\ exists e, nth_error (b_exprs B) x = Some e /\ eget e (b_cons B) <> None;
    li_as : forall e, eget e (b_cons B) = Some Asserted -> exists t x, In (t, true, x) (b_log B) /\ nth_error (b_exprs B) x = Some e;
    li_ma : forall e, eget e (b_cons B) = Some Marked -> exists t x, In (t, false, x) (b_log B) /\ nth_error (b_exprs B) x = Some e
  }.
  Lemma linv_mono B B' : LInv B -> b_cons B' = b_cons B -> b_log B' = b_log B -> (forall x e, nth_error (b_exprs B) x = Some e -> nth_error (b_exprs B') x = Some e) -> LInv B'.
  Proof.
    intros [L1 L2 L3] Hc Hl Hx. split; rewrite ?Hc, ?Hl.
    - intros t a x H. destruct (L1 t a x H) as [A [e [B1 B2]]]. eauto.
    - intros e H. destruct (L2 e H) as [t [x [A B1]]]. eauto.
    - intros e H. destruct (L3 e H) as [t [x [A B1]]]. eauto.
  Qed.
  Lemma linv_assert B x B' : LInv B -> (1 <= x)%nat -> b_assert B x = Some B' -> LInv B'.
  Proof.
    intros [L1 L2 L3] Hx H. unfold b_assert in H. apply obind_some in H. destruct H as [e [He H]]. injection H as <-.
    split; cbn [set_cons b_cons b_log b_exprs].
    - intros t a y Hy. apply in_app_iff in Hy. destruct Hy as [Hy|[Hy|[]]].
      + destruct (L1 t a y Hy) as [A [e1 [B1 B2]]]. split; auto. exists e1. split; auto. rewrite eget_eput_new. destruct (eget e1 (b_cons B)); [discriminate|contradiction].
      + injection Hy as <- <- <-. split; auto. exists e. split; auto. rewrite eget_eput_new. destruct (eget e (b_cons B)); [discriminate|]. rewrite e_eqb_refl. discriminate.
    - intros e1. rewrite eget_eput_new. destruct (eget e1 (b_cons B)) eqn:E1.
      + intros H. injection H as ->. destruct (L2 e1 E1) as [t [y [A B1]]]. exists t, y. rewrite in_app_iff. auto.
      + destruct (e_eqb e e1) eqn:Ee; [|discriminate]. apply e_eqb_spec in Ee. subst. intros _. eexists _, x. rewrite in_app_iff. cbn [In]. split; [right; left; reflexivity|auto].
    - intros e1. rewrite eget_eput_new. destruct (eget e1 (b_cons B)) eqn:E1.
      + intros H. injection H as ->. destruct (L3 e1 E1) as [t [y [A B1]]]. exists t, y. rewrite in_app_iff. auto.
      + destruct (e_eqb e e1); discriminate.
  Qed.
  Lemma linv_mark B x B' : LInv B -> (1 <= x)%nat -> b_mark B x = Some B' -> LInv B'.
  Proof.
    intros [L1 L2 L3] Hx H. unfold b_mark in H. apply obind_some in H. destruct H as [e [He H]]. injection H as <-.
    split; cbn [set_cons b_cons b_log b_exprs].
    - intros t a y Hy. apply in_app_iff in Hy. destruct Hy as [Hy|[Hy|[]]].
      + destruct (L1 t a y Hy) as [A [e1 [B1 B2]]]. split; auto. exists e1. split; auto. rewrite eget_eput. destruct (e_eqb e e1); [discriminate|auto].
      + injection Hy as <- <- <-. split; auto. exists e. split; auto. rewrite eget_eput, e_eqb_refl. discriminate.
    - intros e1. rewrite eget_eput. destruct (e_eqb e e1) eqn:Ee; [discriminate|]. intros E1. destruct (L2 e1 E1) as [t [y [A B1]]]. exists t, y. rewrite in_app_iff. auto.
    - intros e1. rewrite eget_eput. destruct (e_eqb e e1) eqn:Ee.
      + apply e_eqb_spec in Ee. subst. intros _. eexists _, x. rewrite in_app_iff. cbn [In]. split; [right; left; reflexivity|auto].
      + intros E1. destruct (L3 e1 E1) as [t [y [A B1]]]. exists t, y. rewrite in_app_iff. auto.
  Qed.

  Record grown (B B' : Builder) (acts : list Act) (new : list (HInsn F)) : Prop := {
    gr_core : Bcore B';
    gr_insns : b_insns B' = b_insns B ++ new;
    gr_exprs : exists es, b_exprs B' = b_exprs B ++ es /\ length es = acts_n acts;
    gr_nouts : nouts HI new = acts_n acts;
    gr_wf : wf_insns HI new (nvars B - 1);
    gr_call : Forall (fun i => h_call F i = None) new;
    gr_i2o : b_i2o B' = b_i2o B;
    gr_log : b_log B' = b_log B ++ log_of (length (b_i2o B)) acts;
    gr_linv : LInv B -> LInv B';
    gr_exec : forall E cs vals m vals' b, Bv B vals m -> exec HI E cs new vals vals' b <-> b = true /\ prun E acts vals vals';
    gr_val : forall E vals m vals', Bv B vals m -> prun E acts vals vals' -> exists m', Bv B' vals' m'
  }.
  Lemma Bv_set_cons (B : Builder) c g vals m : Bv (set_cons B c g) vals m <-> Bv B vals m.
  Proof. split; intros [A1 A2 A3 A4]; split; auto. Qed.
  Lemma core_cons (B : Builder) c g : Bcore B -> Bcore (set_cons B c g).
  Proof. intros [A1 A2 A3 A4 A5 A6 A7]. split; auto. Qed.
  Lemma do_acts_spec q acts : forall B, Bcore B -> acts_ok q (nvars B) acts -> exists B' new, do_acts B acts = Some B' /\ grown B B' acts new.
  Proof.
    induction acts as [|a acts IH]; intros B C H; cbn [do_acts].
    - exists B, []. split; auto. split; auto.
      + rewrite app_nil_r; auto. + exists []. rewrite app_nil_r. auto. + cbn. rewrite app_nil_r. auto.
      + intros E cs vals m vals' b V. rewrite exec_nil, prun_nil. tauto.
      + intros E vals m vals' V ->. eauto.
    - destruct a as [i|x|x]; cbn [do_act acts_ok] in *.
      + destruct H as [Hb [Hv [Hc H]]]. destruct (push_spec B i C Hb) as [B1 [i' [E1 P]]].
        { intros l ->. cbn [h_validate] in Hv. apply Nat.leb_le in Hv. auto. }
        rewrite E1. cbn [obind]. destruct P as [P1 P2 [es [P3 P3']] [R1 [R2 R3]] P5 P6 P7 P8 P9 P10].
        assert (Hnv : nvars B1 = (nvars B + h_nout F i)%nat) by (unfold nvars; rewrite P3, app_length, P3'; auto). rewrite <- Hnv in H.
        destruct (IH B1 P1 H) as [B' [new [E2 G]]]. exists B', (i' :: new). split; auto.
        destruct G as [G1 G2 [es2 [G3 G3']] G4 G5 G6 G7 G8 G9 G10 G11]. pose proof (nvars_pos _ C) as Hpos. split; auto.
        * rewrite G2, P2, <- app_assoc. auto.
        * exists (es ++ es2). rewrite G3, P3, app_assoc. split; auto. rewrite app_length, P3', G3'. unfold acts_n. cbn [pushes flat_map act_push app nouts]. auto.
        * cbn [nouts]. rewrite G4. unfold acts_n. cbn [pushes flat_map act_push app nouts]. change (@i_nout F HI i') with (h_nout F i'). rewrite P5. auto.
        * cbn [wf_insns]. split; [eapply Forall_impl; [|exact P8]; cbn; intros; lia|]. change (@i_nout F HI i') with (h_nout F i'). rewrite P5. replace (nvars B - 1 + h_nout F i)%nat with (nvars B1 - 1)%nat by lia. auto.
        * constructor; auto. congruence.
        * congruence.
        * rewrite G8, R3. cbn [log_of flat_map app]. rewrite R2. auto.
        * intros L. apply G9. apply (linv_mono B); auto. intros x e Hx. rewrite P3. apply nth_error_app_l; auto.
        * intros E cs vals m vals' b V. rewrite exec_cons. cbn [prun]. pose proof (bv_len _ _ _ V) as Lv. unfold step. change (@i_call F HI i') with (h_call F i'). rewrite P6, Hc. split.
          -- intros [outs [b1 [b2 [[S1 [S2 ->]] [S3 ->]]]]]. cbn [andb]. change (h_sem F E i' (getv vals) outs) in S2. rewrite (P9 E vals m outs V) in S2. pose proof (l_sem_len HI (HnL F) E i _ _ S2) as Sl.
             destruct (P10 E vals m outs V Sl (fun _ => S2)) as [m' [_ V']]. apply (G10 E cs _ m' vals' b2 V') in S3. destruct S3 as [-> S3]. split; eauto.
          -- intros [-> [outs [S2 S3]]]. pose proof (l_sem_len HI (HnL F) E i _ _ S2) as Sl. destruct (P10 E vals m outs V Sl (fun _ => S2)) as [m' [_ V']].
             exists outs, true, true. split; [|split; [apply (G10 E cs _ m' vals' true V'); auto|auto]]. split; [|split; [change (h_sem F E i' (getv vals) outs); apply (P9 E vals m outs V); auto|auto]].
             eapply Forall_impl; [|exact P8]. cbn; unfold inb; intros; lia.
        * intros E vals m vals' V [outs [S2 S3]]. pose proof (l_sem_len HI (HnL F) E i _ _ S2) as Sl. destruct (P10 E vals m outs V Sl (fun _ => S2)) as [m' [_ V']]. eapply G11; eauto.
      + destruct H as [Hx H]. unfold b_assert. destruct (nth_error (b_exprs B) x) as [e|] eqn:Ex; [|apply nth_error_None in Ex; unfold nvars in Hx; lia]. cbn [obind].
        set (B1 := set_cons B (eput_new e Asserted (b_cons B)) (b_log B ++ [(length (b_i2o B), true, x)])).
        destruct (IH B1 (core_cons _ _ _ C) H) as [B' [new [E2 G]]]. exists B', new. split; auto. destruct G as [G1 G2 G3 G4 G5 G6 G7 G8 G9 G10 G11]. split; auto.
        * rewrite G8. cbn [B1 set_cons b_log b_i2o log_of flat_map app]. unfold B1; cbn [set_cons b_log b_i2o]. rewrite <- app_assoc. auto.
        * intros L. apply G9. apply (linv_assert B x); auto; [lia|]. unfold b_assert. rewrite Ex. auto.
        * intros E cs vals m vals' b V. cbn [prun]. apply (G10 E cs vals m). apply Bv_set_cons; auto.
        * intros E vals m vals' V. cbn [prun]. apply (G11 E vals m). apply Bv_set_cons; auto.
      + destruct H as [Hx H]. unfold b_mark. destruct (nth_error (b_exprs B) x) as [e|] eqn:Ex; [|apply nth_error_None in Ex; unfold nvars in Hx; lia]. cbn [obind].
        set (B1 := set_cons B (eput e Marked (b_cons B)) (b_log B ++ [(length (b_i2o B), false, x)])).
        destruct (IH B1 (core_cons _ _ _ C) H) as [B' [new [E2 G]]]. exists B', new. split; auto. destruct G as [G1 G2 G3 G4 G5 G6 G7 G8 G9 G10 G11]. split; auto.
        * rewrite G8. cbn [B1 set_cons b_log b_i2o log_of flat_map app]. unfold B1; cbn [set_cons b_log b_i2o]. rewrite <- app_assoc. auto.
        * intros L. apply G9. apply (linv_mark B x); auto; [lia|]. unfold b_mark. rewrite Ex. auto.
        * intros E cs vals m vals' b V. cbn [prun]. apply (G10 E cs vals m). apply Bv_set_cons; auto.
        * intros E vals m vals' V. cbn [prun]. apply (G11 E vals m). apply Bv_set_cons; auto.
  Qed.
  Lemma do_acts_app (a : list Act) : forall B b, do_acts B (a ++ b) = (let* B1 := do_acts B a in do_acts B1 b).
  Proof. induction a as [|x a IH]; intros B b; cbn [app do_acts]; auto. destruct (do_act B x); cbn [obind]; auto. Qed.

  (* ---------- the whole translation of an instruction that is not a call ---------- *)
  Definition acts2 (acts : list Act) (r : @TRes F) : list Act := match r with TInsn o => acts ++ [APush o] | _ => acts end.
  Definition res_vars (n' : nat) (r : @TRes F) : list nat := match r with TInsn o => seq n' (h_nout F o) | TVars l => l | TErr => [] end.
  Lemma asserts2 acts r : asserts (acts2 acts r) = asserts acts.
  Proof. destruct r; cbn [acts2]; auto. rewrite asserts_app. cbn. apply app_nil_r. Qed.
  Lemma marks2 acts r : marks (acts2 acts r) = marks acts.
  Proof. destruct r; cbn [acts2]; auto. rewrite marks_app. cbn. apply app_nil_r. Qed.
  Lemma getv_seq (vals w : list F) : map (getv (vals ++ w)) (seq (length vals) (length w)) = w.
  Proof.
    apply (nth_ext _ _ 0 0); [rewrite map_length, seq_length; auto|]. intros j Hj. rewrite map_length, seq_length in Hj.
    rewrite (nth_indep _ 0 (getv (vals ++ w) 0)) by (rewrite map_length, seq_length; auto). rewrite map_nth, seq_nth by auto. rewrite getv_app2 by lia. unfold getv. f_equal. lia.
  Qed.
  Lemma zeros_app (vals w : list F) l : Forall (fun x => (x < length vals)%nat) l -> zeros (vals ++ w) l <-> zeros vals l.
  Proof.
    unfold zeros. rewrite !Forall_forall. intros Hb. split; intros H x Hx; specialize (H x Hx); specialize (Hb x Hx).
    - rewrite getv_app1 in H by auto. auto.
    - rewrite getv_app1 by auto. auto.
  Qed.
  Lemma asserts_lt q n (acts : list Act) : acts_ok q n acts -> Forall (fun x => (x < n + acts_n acts)%nat) (asserts acts) /\ Forall (fun x => (x < n + acts_n acts)%nat) (marks acts).
  Proof.
    intros H. split; apply Forall_forall; intros x Hx; unfold asserts, marks in Hx; apply in_flat_map in Hx; destruct Hx as [a [Ha Hx]]; destruct a as [i|y|y]; cbn in Hx; try contradiction; destruct Hx as [->|[]].
    - apply (acts_bound q acts n H 0%nat true x). unfold log_of. apply in_flat_map. exists (AAssert x). split; [auto|left; auto].
    - apply (acts_bound q acts n H 0%nat false x). unfold log_of. apply in_flat_map. exists (AMark x). split; [auto|left; auto].
  Qed.
  Lemma transform2_ok q cv i n : (1 <= n)%nat -> Forall (fun x => (1 <= x < n)%nat) (s_inputs F i) -> s_validate F q i = true -> s_call F i = None ->
    let '(acts, n', r) := transform cv i n in r = TErr \/
      (r <> TErr /\ acts_ok q n (acts2 acts r) /\ Forall (fun x => (1 <= x < n + acts_n (acts2 acts r))%nat) (res_vars n' r) /\ length (res_vars n' r) = s_nout F i).
  Proof.
    intros Hpos Hi Hv Hc. pose proof (transform_ok q cv i n Hi Hv) as H. destruct (transform cv i n) as [[acts n'] r]. destruct H as [H1 [-> H2]].
    destruct r as [o|l|]; [right|right|left; auto]; cbn [acts2 res_vars res_ok] in *.
    - destruct H2 as [A [B [C D]]]. rewrite Hc in D. split; [discriminate|]. split; [|split].
      + apply acts_ok_app. split; auto. cbn [acts_ok]. auto.
      + rewrite acts_n_app. unfold acts_n at 2. cbn [pushes flat_map act_push app nouts]. change (@i_nout F HI o) with (h_nout F o). apply Forall_forall. intros x Hx. apply in_seq in Hx. lia.
      + rewrite seq_length. auto.
    - destruct H2 as [A [B C]]. split; [discriminate|]. auto.
  Qed.

  Lemma transform2_bwd E q cv i vals : (1 <= length vals)%nat -> (forall x c, cv x = Some c -> getv vals x = c) -> Forall (fun x => (1 <= x < length vals)%nat) (s_inputs F i) -> s_validate F q i = true -> s_call F i = None ->
    let '(acts, n', r) := transform cv i (length vals) in r <> TErr ->
    forall vals', prun E (acts2 acts r) vals vals' -> zeros vals' (asserts (acts2 acts r)) -> zeros vals' (marks (acts2 acts r)) /\ rel_sem E i (getv vals) (map (getv vals') (res_vars n' r)).
  Proof.
    intros Hpos Hcv Hi Hv Hc. pose proof (transform_bwd E cv i vals Hcv Hi Hc) as H. pose proof (transform_ok q cv i (length vals) Hi Hv) as Hok.
    destruct (transform cv i (length vals)) as [[acts n'] r]. destruct Hok as [Ho [-> Hr]]. intros Hne vals'. rewrite asserts2, marks2. destruct r as [o|l|]; [| |contradiction]; cbn [acts2 res_vars].
    - intros Hp Hz. apply prun_app in Hp. destruct Hp as [mid [H1 H2]]. cbn [prun] in H2. destruct H2 as [outs [H2 ->]]. pose proof (prun_len E q _ _ _ _ Ho H1) as Hl. destruct (asserts_lt q _ _ Ho) as [B1 B2]. rewrite <- Hl in B1, B2.
      rewrite zeros_app in Hz by auto. destruct (H mid H1 Hz) as [A B]. split; [apply zeros_app; auto|]. cbn [post] in B.
      rewrite <- Hl. pose proof (l_sem_len HI (HnL F) E o _ _ H2) as Sl. cbn in Sl. rewrite <- Sl, getv_seq. auto.
    - intros Hp Hz. apply (H vals' Hp Hz).
  Qed.
  Lemma transform2_fwd E q cv i vals outs : honest E -> (1 <= length vals)%nat -> (forall x c, cv x = Some c -> getv vals x = c) -> Forall (fun x => (1 <= x < length vals)%nat) (s_inputs F i) -> s_validate F q i = true -> s_call F i = None ->
    s_sem F E i (getv vals) outs ->
    let '(acts, n', r) := transform cv i (length vals) in r <> TErr ->
    exists vals', prun E (acts2 acts r) vals vals' /\ zeros vals' (asserts (acts2 acts r)) /\ zeros vals' (marks (acts2 acts r)) /\ map (getv vals') (res_vars n' r) = outs.
  Proof.
    intros Hh Hpos Hcv Hi Hv Hc Hs. pose proof (transform_fwd E cv i vals outs Hh Hcv Hi Hc Hs) as H. pose proof (transform_ok q cv i (length vals) Hi Hv) as Hok.
    destruct (transform cv i (length vals)) as [[acts n'] r]. destruct Hok as [Ho [-> Hr]]. destruct H as [vals' [H1 [H2 [H3 H4]]]]. intros Hne. rewrite asserts2, marks2. destruct r as [o|l|]; [| |contradiction]; cbn [acts2 res_vars fpost] in *.
    - pose proof (prun_len E q _ _ _ _ Ho H1) as Hl. destruct (asserts_lt q _ _ Ho) as [B1 B2]. rewrite <- Hl in B1, B2. exists (vals' ++ outs). split; [|split; [|split]].
      + apply prun_app. exists vals'. split; auto. cbn [prun]. eauto.
      + apply zeros_app; auto.
      + apply zeros_app; auto.
      + rewrite <- Hl. pose proof (l_sem_len HI (HnL F) E o _ _ H4) as Sl. cbn in Sl. rewrite <- Sl. apply getv_seq.
    - exists vals'. auto.
  Qed.

  (* ---------- constraints ---------- *)
  Definition con_acts (c : ConType * nat) (n : nat) : list Act :=
    match fst c with
    | TZero => []
    | TBool => bool_acts (snd c) n
    | TNonZero => [APush (HConst (CConst 1)); APush (HHint (hint_id HDiv) [n; snd c] 1); APush (HMul [snd c; (n + 1)%nat]); APush (lin2 1 (n + 2) (- (1)) n)]
    end.
  Definition con_res (c : ConType * nat) (n : nat) : nat := match fst c with TZero => snd c | TBool => (n + 2)%nat | TNonZero => (n + 3)%nat end.
  Lemma transform_con_acts c n : transform_con c n = (con_acts c n, (n + acts_n (con_acts c n))%nat, con_res c n).
  Proof.
    unfold transform_con, con_acts, con_res. destruct c as [[| |] x]; cbn [fst snd].
    - unfold wret, acts_n. cbn. rewrite Nat.add_0_r. auto.
    - unfold push_const, push_mul, push_sub, push, wbind. cbv beta iota. rewrite ?lin2_nout. cbn [h_nout app]. unfold acts_n; cbn [pushes flat_map act_push app nouts]. cbn [HnI i_nout h_nout lin2].
      repeat match goal with |- context [(n + ?a + ?b)%nat] => let c := eval cbv in (a + b)%nat in replace (n + a + b)%nat with (n + c)%nat by lia end. reflexivity.
    - rewrite bool_cond_acts, bool_acts_n. auto.
  Qed.
  Lemma con_acts_ok q c n : (1 <= snd c < n)%nat -> acts_ok q n (con_acts c n ++ [AAssert (con_res c n)]).
  Proof.
    intros H. apply acts_ok_app. unfold con_acts, con_res. destruct c as [[| |] x]; cbn [fst snd] in *.
    - unfold acts_n; cbn. repeat split; auto; lia.
    - split; [|unfold acts_n; cbn; lia]. cbn [acts_ok h_inputs h_validate h_nout h_call lin2 lc_vars lc_terms map fst coef_validate length Nat.leb].
      do 12 (split; [solve [auto|lia|repeat constructor; lia]|]). repeat split; auto; repeat constructor; lia.
    - split; [apply bool_acts_ok; auto|]. rewrite bool_acts_n. cbn [acts_ok]. lia.
  Qed.
  Lemma con_acts_log t c n : log_of t (con_acts c n ++ [AAssert (con_res c n)]) = [(t, true, con_res c n)].
  Proof. unfold con_acts. destruct c as [[| |] x]; reflexivity. Qed.
  Ltac gv := repeat first [rewrite getv_snoc_eq by (rewrite ?app_length; cbn [length]; lia) | rewrite getv_snoc_lt by (rewrite ?app_length; cbn [length]; lia)].
  Lemma con_bwd E c vals vals' : (1 <= snd c < length vals)%nat -> prun E (con_acts c (length vals)) vals vals' -> getv vals' (con_res c (length vals)) = 0 -> con_verify F c (getv vals (snd c)) = true.
  Proof.
    intros Hb. unfold con_acts, con_res, con_verify. destruct c as [[| |] x]; cbn [fst snd] in *.
    - rewrite prun_nil. intros -> H. apply is0_spec. auto.
    - rewrite prun_const, prun_hint1. intros [v [_ H]]. unfold lin2 in H. rewrite prun_mul, prun_lin, prun_nil, mul2_eval, lin2_eval in H. subst vals'. gv. intros H.
      destruct (is0 F (getv vals x)) eqn:E0; auto. exfalso. apply is0_spec in E0. rewrite E0 in H. apply (f1_neq_f0 F). transitivity (- (0 * v * 1 + 1 * - (1)) : F); [ring|rewrite H; ring].
    - rewrite <- (app_nil_r (bool_acts x (length vals))), prun_bool, prun_nil by lia. intros ->. rewrite bool_vals_res by lia. intros H. apply boolean_spec. apply bool01_poly. auto.
  Qed.
  Lemma con_fwd E c vals : honest E -> (1 <= snd c < length vals)%nat ->
    exists vals', prun E (con_acts c (length vals)) vals vals' /\ (con_verify F c (getv vals (snd c)) = true -> getv vals' (con_res c (length vals)) = 0).
  Proof.
    intros Hh Hb. unfold con_acts, con_res, con_verify. destruct c as [[| |] x]; cbn [fst snd] in *.
    - exists vals. rewrite prun_nil. split; auto. apply is0_spec.
    - eexists. split.
      { rewrite prun_const, prun_hint1. eexists. split; [cbn [map]; apply (honest_div E _ _ Hh)|]. unfold lin2. rewrite prun_mul, prun_lin, prun_nil, mul2_eval, lin2_eval. reflexivity. }
      gv. destruct (is0 F (getv vals x)) eqn:E0; [discriminate|]. intros _. field. intros H. apply is0_spec in H. congruence.
    - exists (bool_vals vals x). rewrite <- (app_nil_r (bool_acts x (length vals))), prun_bool, prun_nil by lia. split; auto. rewrite bool_vals_res by lia. intros H. apply bool01_poly. apply boolean_spec. auto.
  Qed.
End HnSim.
