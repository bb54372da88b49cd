(* Hint normalisation of a circuit and of a root circuit (Builder.v): invariants of the builder along the loop. *)
From Verif Require Import Prelude Field Sorting Expr Topo Containers Hints Ir IrFacts IrInst Sim LocalPass Builder BuilderFacts BuilderSim HnTrans HnSim.

Section HnCirc.
  Context {F : Fld}.
  Add Field Fhc : (fth F).
  Open Scope fld_scope.
  Notation Expr := (list (Term F)).
  Notation Builder := (@Builder F).
  Notation Act := (@Act F).
  Notation HI := (HnI F).
  Notation SI := (SrcI F).

  (* the source language with the relaxed meaning of its instructions; the syntax is unchanged *)
  Definition RelI : IRC F := {|
    Insn := SInsn F; Con := ConType * nat; i_inputs := s_inputs F; i_nout := s_nout F; i_call := s_call F; i_mkcall := SCall;
    i_replace := s_replace F; i_kxb := fun x k b => SLin (lc_kxb x k b); i_validate := s_validate F; i_sem := rel_sem; i_eval := s_eval F;
    c_var := snd; c_replace := fun f c => (fst c, f (snd c)); c_verify := con_verify F;
    dup_ins := true; dup_cons := true; dup_outs := true |}.
  Definition relax (c : Circuit SI) : Circuit RelI :=
    {| instructions := instructions c : list (Insn RelI); constraints := constraints c : list (Con RelI); outputs := outputs c; num_inputs := num_inputs c |}.
  Definition relax_cs (cs : list (nat * Circuit SI)) : list (nat * Circuit RelI) := map (fun p => (fst p, relax (snd p))) cs.
  Definition relax_root (rc : RootCircuit SI) : RootCircuit RelI :=
    {| num_public_inputs := num_public_inputs rc; expected_num_output_zeroes := expected_num_output_zeroes rc; circuits := relax_cs (circuits rc) |}.
  Lemma relax_lookup cs id : lookup id (relax_cs cs) = match lookup id cs with Some c => Some (relax c) | None => None end.
  Proof. unfold relax_cs. induction cs as [|[k c] cs IH]; cbn [map lookup fst snd]; auto. destruct (k =? id)%nat; auto. Qed.
  Lemma rel_repl E f i g outs : rel_sem E (s_replace F f i) g outs -> rel_sem E i (fun x => g (f x)) outs.
  Proof.
    destruct i as [l|l|x y ck|x y op|x|l|h l k|c|id l k|x y op|c t e|gt l|x k].
    1-2,4-5,7-9,12: intros H; apply (l_sem_repl SI (SrcL F) E f); exact H.
    - destruct ck; [intros H; apply (l_sem_repl SI (SrcL F) E f); exact H|]. cbn. auto.
    - cbn. auto.
    - cbn. auto.
    - cbn. auto.
    - cbn. auto.
  Qed.
  Lemma rel_ext E i g g' outs : (forall x, In x (s_inputs F i) -> g x = g' x) -> rel_sem E i g outs -> rel_sem E i g' outs.
  Proof.
    intros Hx. destruct i as [l|l|x y ck|x y op|x|l|h l k|c|id l k|x y op|c t e|gt l|x k].
    1-2,4-5,7-9,12: intros H; apply (l_sem_ext SI (SrcL F) E) with (g := g); auto.
    - destruct ck; [intros H; apply (l_sem_ext SI (SrcL F) E) with (g := g); auto|]. cbn. rewrite (Hx x), (Hx y) by (cbn; auto). auto.
    - cbn. auto.
    - cbn. auto.
    - cbn. auto.
    - cbn. rewrite (Hx x) by (cbn; auto). auto.
  Qed.

  Record Inv (B : Builder) : Prop := {
    iv_core : Bcore B;
    iv_pos : (1 <= length (b_i2o B))%nat;
    iv_i2o : forall x, (1 <= x < length (b_i2o B))%nat -> (1 <= i2o B x < nvars B)%nat;
    iv_linv : LInv B
  }.
  (* the source values [sv] as found among the target values [tv] *)
  Definition Rel (B : Builder) (sv tv : list F) : Prop :=
    length sv = length (b_i2o B) /\ forall x, (1 <= x < length sv)%nat -> getv sv x = getv tv (i2o B x).
  Lemma const_of_val (B : Builder) (vals : list F) m x c : Bcore B -> Bv B vals m -> const_of B x = Some c -> getv vals x = c.
  Proof.
    intros C V H. unfold const_of in H. apply obind_some in H. destruct H as [e [He H]]. apply (constant_value_spec _ _ _ (Bcore_good _ _ _ C He)) in H. subst e.
    rewrite (bv_exprs _ _ _ V _ _ He). apply ev_const.
  Qed.

  (* the instructions that mark an expression as known to be zero *)
  Definition marker (i : SInsn F) : bool := match i with SBool _ _ _ | SIsZero _ => true | _ => false end.
  Lemma tb_marks bits : forall sum c n, marks (fst (tb_acts (F := F) bits sum c n)) = [].
  Proof. induction bits as [|b bits IH]; intros sum c n; cbn [tb_acts fst]; auto. rewrite marks_app. cbn [marks flat_map app]. apply IH. Qed.
  Lemma transform_nomark cv i n : marker i = false -> let '(acts, n', r) := transform (F := F) cv i n in marks (acts2 acts r) = [].
  Proof.
    intros H. assert (G : forall acts r, marks (acts2 (F := F) acts r) = marks acts) by (intros acts [o|l|]; unfold acts2; rewrite ?marks_app, ?app_nil_r; auto).
    destruct i as [l|l|x y ck|x y op|x|l|h l k|c|id l k|x y op|c t e|gt l|x k]; try discriminate; try reflexivity.
    - cbn [transform]. destruct (cv y) as [yv|]; [destruct (is0 F yv)|destruct ck]; reflexivity.
    - cbn [transform]. destruct (cv x); [destruct (cv y); [destruct (unop_eval _ _ _)|]|]; reflexivity.
    - cbn [transform]. destruct (cv c) as [v|]; [destruct (is0 F v)|]; reflexivity.
    - rewrite transform_tobin. rewrite G. unfold tob_acts. cbn [marks flat_map app]. fold (marks (F := F)). rewrite flat_map_app. fold (marks (fst (tb_acts (F := F) (seq n k) (n + k) 1 (n + k + 1)))). rewrite tb_marks. reflexivity.
  Qed.
  Lemma log_nomark t (acts : list Act) : marks acts = [] -> forall t' x, ~ In (t', false, x) (log_of t acts).
  Proof.
    intros H t' x Hin. unfold log_of in Hin. apply in_flat_map in Hin. destruct Hin as [a [Ha Hx]]. destruct a as [i|y|y]; cbn in Hx; try contradiction; destruct Hx as [Hx|[]]; [discriminate|].
    assert (In y (marks acts)) as Hy by (apply in_flat_map; exists (AMark y); split; [auto|left; auto]). rewrite H in Hy. contradiction.
  Qed.

  Record pstep (B B' : Builder) (i : SInsn F) (new : list (HInsn F)) (l : list nat) (lg : list (nat * bool * nat)) : Prop := {
    ps_inv : Inv B';
    ps_i2o : b_i2o B' = b_i2o B ++ l;
    ps_len : length l = s_nout F i;
    ps_insns : b_insns B' = b_insns B ++ new;
    ps_nv : nvars B' = (nvars B + nouts HI new)%nat;
    ps_wf : wf_insns HI new (nvars B - 1);
    ps_calls : forall i' o l' n, In i' new -> h_call F i' = Some (o, l', n) -> exists l0, s_call F i = Some (o, l0, n) /\ length l' = length l0;
    ps_exprs : forall x e, nth_error (b_exprs B) x = Some e -> nth_error (b_exprs B') x = Some e;
    ps_log : b_log B' = b_log B ++ lg;
    ps_tag : Forall (fun p => fst (fst p) = length (b_i2o B)) lg;
    ps_val : forall E cs' vals m vals' b, Forall (call_wf HI cs') new -> Bv B vals m -> exec HI E cs' new vals vals' b -> exists m', Bv B' vals' m';
    ps_mark : forall E cs' vals m vals' b, Bv B vals m -> exec HI E cs' new vals vals' b -> zl true vals' lg -> zl false vals' lg;
    ps_fwd : forall E cs cs' vals m sv outs b, honest E -> Bv B vals m -> Rel B sv vals -> call_wf SI cs i -> step SI E cs i sv outs b ->
      (forall o l n ins outs b, s_call F i = Some (o, l, n) -> length ins = length l -> run SI E cs o ins outs b -> run HI E cs' o ins outs b) ->
      exists vals', exec HI E cs' new vals vals' b /\ map (getv vals') l = outs /\ zl true vals' lg /\ zl false vals' lg;
    ps_bwd : forall E cs cs' vals m sv vals', Bv B vals m -> Rel B sv vals -> Forall (call_wf HI cs') new -> exec HI E cs' new vals vals' true -> zl true vals' lg ->
      (forall o l n ins outs, s_call F i = Some (o, l, n) -> length ins = length l -> run HI E cs' o ins outs true -> run RelI E cs o ins outs true) ->
      step RelI E cs i sv (map (getv vals') l) true;
    ps_nomark : marker i = false -> forall t x, ~ In (t, false, x) lg
  }.
  Lemma i2o_app (B : Builder) l x : (x < length (b_i2o B))%nat -> nth x (b_i2o B ++ l) 0%nat = i2o B x.
  Proof. intros H. unfold i2o. apply app_nth1. auto. Qed.
  Lemma inv_i2o (B B' : Builder) l : Inv B -> Bcore B' -> LInv B' -> b_i2o B' = b_i2o B ++ l -> (nvars B <= nvars B')%nat -> Forall (fun x => (1 <= x < nvars B')%nat) l -> Inv B'.
  Proof.
    intros I C L Hi Hn Hl. split; auto.
    - rewrite Hi, app_length. pose proof (iv_pos _ I). lia.
    - intros x Hx. unfold i2o. rewrite Hi in *. rewrite app_length in Hx. destruct (lt_dec x (length (b_i2o B))) as [Hlt|Hge].
      + rewrite i2o_app by auto. pose proof (iv_i2o _ I x ltac:(lia)). lia.
      + rewrite app_nth2 by lia. rewrite Forall_forall in Hl. apply Hl. apply nth_In. lia.
  Qed.
  Lemma core_i2o (B : Builder) l : Bcore B -> Bcore (set_i2o B l).
  Proof. intros [A1 A2 A3 A4 A5 A6 A7]. split; auto. Qed.
  Lemma Bv_i2o (B : Builder) l vals m : Bv (set_i2o B l) vals m <-> Bv B vals m.
  Proof. split; intros [A1 A2 A3 A4]; split; auto. Qed.

  Lemma inputs_repl (B : Builder) i : Inv B -> Forall (fun x => (0 < x < length (b_i2o B))%nat) (s_inputs F i) -> Forall (fun x => (1 <= x < nvars B)%nat) (s_inputs F (s_replace F (i2o B) i)).
  Proof.
    intros I H. rewrite (l_repl_inputs SI (SrcL F) (i2o B) i : s_inputs F (s_replace F (i2o B) i) = map (i2o B) (s_inputs F i)).
    apply Forall_forall. intros y Hy. apply in_map_iff in Hy. destruct Hy as [x [<- Hx]]. rewrite Forall_forall in H. specialize (H x Hx). apply (iv_i2o _ I). lia.
  Qed.
  Lemma rel_inb (B : Builder) sv tv l : Rel B sv tv -> Forall (fun x => (0 < x < length (b_i2o B))%nat) l -> Forall (inb sv) l.
  Proof. intros [R _] H. eapply Forall_impl; [|exact H]. cbn. unfold inb. intros. lia. Qed.

  Lemma process_insn_spec q B i : Inv B -> Forall (fun x => (0 < x < length (b_i2o B))%nat) (s_inputs F i) -> s_validate F q i = true ->
    process_insn B i = Err \/ exists B' new l lg, process_insn B i = Ok B' /\ pstep B B' i new l lg.
  Proof.
    intros I Hi Hv. unfold process_insn.
    replace (forallb (fun x => (x <? length (b_i2o B))%nat) (s_inputs F i)) with true.
    2: { symmetry. apply forallb_forall. intros x Hx. rewrite Forall_forall in Hi. apply Nat.ltb_lt. apply Hi; auto. }
    pose proof (iv_core _ I) as C. pose proof (nvars_pos _ C) as Hpos. pose proof (inputs_repl _ _ I Hi) as Hi'.
    set (i1 := s_replace F (i2o B) i) in *.
    assert (Hv1 : s_validate F q i1 = true) by (unfold i1; rewrite <- Hv; apply (l_repl_valid SI (SrcL F))).
    assert (Hn1 : s_nout F i1 = s_nout F i) by apply (l_repl_nout SI (SrcL F)).
    pose proof (l_repl_call SI (SrcL F) (i2o B) i) as Hc1. change (s_call F i1 = match s_call F i with Some (id, l, n) => Some (id, map (i2o B) l, n) | None => None end) in Hc1.
    destruct (s_call F i) as [[[id lc] k]|] eqn:Ec.
    - (* a call *)
      right. assert (i = SCall id lc k) by (destruct i; cbn in Ec; try discriminate; congruence). subst i. cbn [s_inputs s_nout] in *.
      assert (i1 = SCall id (map (i2o B) lc) k) by reflexivity. rewrite H in *. cbn [transform]. unfold wret. cbn [do_acts h_nout s_nout]. rewrite Nat.eqb_refl.
      destruct (push_spec B (HCall id (map (i2o B) lc) k) C) as [B2 [i' [E1 P]]]; [exact Hi'|discriminate|]. rewrite E1.
      destruct P as [P1 P2 [es [P3 P3']] [R1 [R2 R3]] P5 P6 P7 P8 P9 P10]. cbn [h_nout h_call] in *.
      assert (Hnv : nvars B2 = (nvars B + k)%nat) by (unfold nvars; rewrite P3, app_length, P3'; auto).
      assert (Hx : forall x e, nth_error (b_exprs B) x = Some e -> nth_error (b_exprs B2) x = Some e) by (intros x e Hx; rewrite P3; apply nth_error_app_l; auto).
      assert (Hno : nouts HI [i'] = k) by (cbn [nouts]; change (@i_nout F HI i') with (h_nout F i'); lia).
      exists (set_i2o B2 (b_i2o B2 ++ seq (nvars B) k)), [i'], (seq (nvars B) k), []. split; auto. split; cbn [set_i2o b_i2o b_insns b_exprs b_log].
      + apply (inv_i2o B _ (seq (nvars B) k)); auto.
        * apply core_i2o; auto.
        * apply (linv_mono B); [apply I| | |]; auto.
        * cbn [set_i2o b_i2o]. congruence.
        * unfold nvars in *. cbn [set_i2o b_exprs]. lia.
        * apply Forall_forall. intros x Hsq. apply in_seq in Hsq. unfold nvars in *. cbn [set_i2o b_exprs]. lia.
      + congruence.
      + apply seq_length.
      + auto.
      + rewrite Hno. unfold nvars in *. cbn [set_i2o b_exprs]. auto.
      + cbn [wf_insns]. split; auto. eapply Forall_impl; [|exact P8]. cbn; intros; lia.
      + intros j o l' n [<-|[]] Hj. rewrite P6 in Hj. injection Hj as <- <- <-. exists lc. rewrite map_length. auto.
      + auto.
      + rewrite app_nil_r; auto.
      + constructor.
      + intros E cs' vals m vals' b Hw V H1. apply exec_cons in H1. destruct H1 as [outs [b1 [b2 [S1 [S2 _]]]]]. apply exec_nil in S2. destruct S2 as [-> _].
        inversion Hw as [|? ? Hw1 _]; subst. pose proof (step_len HI (HnL F) E cs' i' vals outs b1 Hw1 S1) as Sl. change (@i_nout F HI i') with (h_nout F i') in Sl. rewrite P5 in Sl.
        destruct (P10 E vals m outs V Sl) as [m' [_ V']]; [discriminate|]. exists m'. apply Bv_i2o. auto.
      + intros E cs' vals m vals' b _ _ _ t x [].
      + intros E cs cs' vals m sv outs b Hh V R Hw S Hsub. unfold step in S. cbn [SrcI i_call s_call] in S. destruct S as [_ S].
        destruct (Hw id lc k eq_refl) as [co [W1 [W2 W3]]]. pose proof (run_len SI _ _ _ _ _ _ _ S W1) as Lo. destruct R as [Rl Rv].
        exists (vals ++ outs). split; [|split; [|split; intros t x []]].
        * apply exec_cons. exists outs, b, true. split; [|split; [constructor|rewrite andb_true_r; auto]]. unfold step. change (@i_call F HI i') with (h_call F i'). rewrite P6. split.
          -- pose proof (bv_len _ _ _ V) as Lv. eapply Forall_impl; [|exact Hi']. cbn. unfold inb. intros; lia.
          -- apply (Hsub id lc k); [auto|rewrite !map_length; auto|]. rewrite map_map. replace (map (fun x => getv vals (i2o B x)) lc) with (map (getv sv) lc); auto.
             apply map_ext_in. intros x Hxin. apply Rv. rewrite Forall_forall in Hi. specialize (Hi x Hxin). lia.
        * pose proof (bv_len _ _ _ V) as Lv. rewrite <- Lv. replace k with (length outs) by congruence. apply getv_seq.
      + intros E cs cs' vals m sv vals' V R Hw H1 _ Hsub. apply exec_cons in H1. destruct H1 as [outs [b1 [b2 [S1 [S2 Hb]]]]]. apply exec_nil in S2. destruct S2 as [-> _].
        symmetry in Hb. apply andb_true_iff in Hb. destruct Hb as [-> _]. inversion Hw as [|? ? Hw1 _]; subst. pose proof (step_len HI (HnL F) E cs' i' vals outs true Hw1 S1) as Sl. change (@i_nout F HI i') with (h_nout F i') in Sl. rewrite P5 in Sl.
        unfold step in S1 |- *. change (@i_call F HI i') with (h_call F i') in S1. rewrite P6 in S1. cbn [RelI i_call s_call]. destruct S1 as [_ S1]. split; [eapply rel_inb; eauto|].
        pose proof (bv_len _ _ _ V) as Lv. rewrite <- Lv, <- Sl, getv_seq. apply (Hsub id lc (length outs)); [rewrite Sl; auto|rewrite map_length; auto|]. rewrite map_map in S1. destruct R as [Rl Rv].
        replace (map (getv sv) lc) with (map (fun x => getv vals (i2o B x)) lc); auto. apply map_ext_in. intros x Hxin. symmetry. apply Rv. rewrite Forall_forall in Hi. specialize (Hi x Hxin). lia.
      + intros _ t x [].
    - (* not a call *)
      pose proof (transform2_ok q (const_of B) i1 (nvars B) Hpos Hi' Hv1 Hc1) as Hok.
      assert (Hfw : forall E vals m outs, honest E -> Bv B vals m -> s_sem F E i1 (getv vals) outs -> let '(acts, n', r) := transform (const_of B) i1 (nvars B) in r <> TErr ->
         exists vals', prun E (acts2 acts r) vals vals' /\ zeros vals' (asserts (acts2 acts r)) /\ zeros vals' (marks (acts2 acts r)) /\ map (getv vals') (res_vars n' r) = outs).
      { intros E vals m outs Hh V Hs. rewrite <- (bv_len _ _ _ V). apply (transform2_fwd E q (const_of B) i1 vals outs); auto; rewrite ?(bv_len _ _ _ V); auto. intros; eapply const_of_val; eauto. }
      assert (Hbw : forall E vals m, Bv B vals m -> let '(acts, n', r) := transform (const_of B) i1 (nvars B) in r <> TErr ->
         forall vals', prun E (acts2 acts r) vals vals' -> zeros vals' (asserts (acts2 acts r)) -> zeros vals' (marks (acts2 acts r)) /\ rel_sem E i1 (getv vals) (map (getv vals') (res_vars n' r))).
      { intros E vals m V. rewrite <- (bv_len _ _ _ V). apply (transform2_bwd E q (const_of B) i1 vals); auto; rewrite ?(bv_len _ _ _ V); auto. intros; eapply const_of_val; eauto. }
      assert (Hnm : marker i = false -> let '(acts, n', r) := transform (const_of B) i1 (nvars B) in marks (acts2 acts r) = []) by (intros Hm; apply transform_nomark; unfold i1; destruct i; auto).
      pose proof (transform_ok q (const_of B) i1 (nvars B) Hi' Hv1) as Hok0.
      destruct (transform (const_of B) i1 (nvars B)) as [[acts n'] r]. destruct Hok0 as [Hok0 [-> Hr]].
      destruct Hok as [->|[Hne [O1 [O2 O3]]]].
      { left. destruct (do_acts_spec q acts B C Hok0) as [B1 [new [-> _]]]. auto. }
      right. destruct (do_acts_spec q (acts2 acts r) B C O1) as [B2 [new [E2 G]]]. destruct G as [G1 G2 [es [G3 G3']] G4 G5 G6 G7 G8 G9 G10 G11].
      assert (Hnv : nvars B2 = (nvars B + acts_n (acts2 acts r))%nat) by (unfold nvars; rewrite G3, app_length, G3'; auto).
      assert (Hx : forall x e, nth_error (b_exprs B) x = Some e -> nth_error (b_exprs B2) x = Some e) by (intros x e Hx; rewrite G3; apply nth_error_app_l; auto).
      set (l := res_vars (nvars B + acts_n acts) r) in *.
      exists (set_i2o B2 (b_i2o B2 ++ l)), new, l, (log_of (length (b_i2o B)) (acts2 acts r)). split.
      { destruct (do_acts_spec q acts B C Hok0) as [B1 [new1 [E1 GG]]]. rewrite E1. destruct (gr_exprs _ _ _ _ GG) as [es1 [X1 X2]].
        assert (Hnv1 : nvars B1 = (nvars B + acts_n acts)%nat) by (unfold nvars; rewrite X1, app_length, X2; auto).
        destruct r as [o|lv|]; [| |contradiction]; cbn [acts2 res_vars] in *; unfold l.
        - destruct Hr as [_ [_ [Hr _]]]. rewrite Hn1 in Hr. rewrite Hr, Nat.eqb_refl. rewrite do_acts_app, E1 in E2. cbn [obind do_acts do_act] in E2. destruct (push_insn B1 o) as [B3|]; [|discriminate]. cbn [obind] in E2. injection E2 as ->. rewrite Hnv1. auto.
        - rewrite E1 in E2. injection E2 as ->. destruct Hr as [_ [Hr _]]. rewrite Hr, Hn1, Nat.eqb_refl. auto. }
      split; cbn [set_i2o b_i2o b_insns b_exprs b_log].
      + apply (inv_i2o B _ l); auto.
        * apply core_i2o; auto.
        * apply (linv_mono B2); auto. apply G9. apply I.
        * cbn [set_i2o b_i2o]. congruence.
        * unfold nvars in *. cbn [set_i2o b_exprs]. lia.
        * unfold nvars in *. cbn [set_i2o b_exprs]. rewrite Hnv. auto.
      + congruence.
      + rewrite O3. auto.
      + auto.
      + rewrite G4. unfold nvars in *. cbn [set_i2o b_exprs]. auto.
      + auto.
      + intros j o l' n Hj Hjc. rewrite Forall_forall in G6. rewrite (G6 j Hj) in Hjc. discriminate.
      + auto.
      + auto.
      + apply Forall_forall. intros p Hp. apply (log_tag _ _ _ Hp).
      + intros E cs' vals m vals' b _ V H1. apply (G10 E cs' vals m vals' b V) in H1. destruct H1 as [_ H1]. destruct (G11 E vals m vals' V H1) as [m' V']. exists m'. apply Bv_i2o; auto.
      + intros E cs' vals m vals' b V H1 Hz. apply (G10 E cs' vals m vals' b V) in H1. destruct H1 as [_ H1]. apply zl_log_true in Hz. apply zl_log_false. apply (Hbw E vals m V Hne vals' H1 Hz).
      + intros E cs cs' vals m sv outs b Hh V R Hw S _. unfold step in S. change (@i_call F SI i) with (s_call F i) in S. rewrite Ec in S. destruct S as [_ [S ->]].
        destruct (Hfw E vals m outs Hh V) as [vals' [A1 [A2 [A3 A4]]]]; [|auto|].
        { unfold i1. apply (l_sem_repl SI (SrcL F) E (i2o B)). eapply (l_sem_ext SI (SrcL F) E); [|exact S]. intros x Hxin. destruct R as [Rl Rv]. apply Rv. rewrite Forall_forall in Hi. specialize (Hi x Hxin). lia. }
        exists vals'. split; [apply (G10 E cs' vals m vals' true V); auto|]. split; auto. split; [apply zl_log_true|apply zl_log_false]; auto.
      + intros E cs cs' vals m sv vals' V R _ H1 Hz _. apply (G10 E cs' vals m vals' true V) in H1. destruct H1 as [_ H1]. apply zl_log_true in Hz. destruct (Hbw E vals m V Hne vals' H1 Hz) as [_ A].
        unfold step. change (@i_call F RelI i) with (s_call F i). rewrite Ec. split; [eapply rel_inb; eauto|]. split; auto. apply rel_repl in A. eapply rel_ext; [|exact A].
        intros x Hxin. destruct R as [Rl Rv]. symmetry. apply Rv. rewrite Forall_forall in Hi. specialize (Hi x Hxin). lia.
      + intros Hm. apply log_nomark. apply Hnm; auto.
  Qed.

  (* ---------- the loop over the instructions, then over the constraints ---------- *)
  Definition cverify (sv : list F) (cons : list (ConType * nat)) : bool := forallb (fun c => con_verify F c (getv sv (snd c))) cons.
  Definition subs_fwd (E : Env F) (cs : list (nat * Circuit SI)) (cs' : list (nat * Circuit HI)) (si : list (SInsn F)) : Prop :=
    forall i o l n ins outs b, In i si -> s_call F i = Some (o, l, n) -> length ins = length l -> run SI E cs o ins outs b -> run HI E cs' o ins outs b.
  Definition subs_bwd (E : Env F) (cs : list (nat * Circuit RelI)) (cs' : list (nat * Circuit HI)) (si : list (SInsn F)) : Prop :=
    forall i o l n ins outs, In i si -> s_call F i = Some (o, l, n) -> length ins = length l -> run HI E cs' o ins outs true -> run RelI E cs o ins outs true.
  Record BI (n : nat) (si : list (SInsn F)) (cons : list (ConType * nat)) (B : Builder) : Prop := {
    b_inv : Inv B;
    b_ilen : length (b_i2o B) = (1 + n + nouts SI si)%nat;
    b_nv : nvars B = (1 + n + nouts HI (b_insns B))%nat;
    b_wf : wf_insns HI (b_insns B) n;
    b_call : forall i' o l' k, In i' (b_insns B) -> h_call F i' = Some (o, l', k) -> exists i l0, In i si /\ s_call F i = Some (o, l0, k) /\ length l' = length l0;
    b_val : forall E cs' ins vals b, length ins = n -> Forall (call_wf HI cs') (b_insns B) -> exec HI E cs' (b_insns B) (0 :: ins) vals b -> exists m, Bv B vals m;
    b_marks : forall E cs' ins vals b, length ins = n -> Forall (call_wf HI cs') (b_insns B) -> exec HI E cs' (b_insns B) (0 :: ins) vals b ->
      forall t, (forall x, In (t, true, x) (b_log B) -> getv vals x = 0) -> forall x, In (t, false, x) (b_log B) -> getv vals x = 0;
    b_fwd : forall E cs cs' ins sv b, honest E -> length ins = n -> Forall (call_wf SI cs) si -> Forall (call_wf HI cs') (b_insns B) -> subs_fwd E cs cs' si ->
      exec SI E cs si (0 :: ins) sv b -> exists vals, exec HI E cs' (b_insns B) (0 :: ins) vals b /\ Rel B sv vals /\ zl false vals (b_log B) /\ (zl true vals (b_log B) <-> cverify sv cons = true);
    b_bwd : forall E cs cs' ins vals, length ins = n -> Forall (call_wf HI cs') (b_insns B) -> subs_bwd E cs cs' si ->
      exec HI E cs' (b_insns B) (0 :: ins) vals true -> zl true vals (b_log B) -> exists sv, exec RelI E cs si (0 :: ins) sv true /\ Rel B sv vals /\ cverify sv cons = true;
    b_nomark : Forall (fun i => marker i = false) si -> forall t x, ~ In (t, false, x) (b_log B)
  }.
  Lemma log_lt (B : Builder) t a x : LInv B -> In (t, a, x) (b_log B) -> (x < nvars B)%nat.
  Proof. intros L H. destruct (li_log _ L t a x H) as [_ [e [He _]]]. apply nth_error_Some_lt in He. auto. Qed.
  Lemma zl_ext (B : Builder) a (vals w : list F) : LInv B -> length vals = nvars B -> zl a (vals ++ w) (b_log B) <-> zl a vals (b_log B).
  Proof.
    intros L Hl. unfold zl. split; intros H t x Hin; specialize (H t x Hin); pose proof (log_lt B t a x L Hin).
    - rewrite getv_app1 in H by lia. auto.
    - rewrite getv_app1 by lia. auto.
  Qed.
  Lemma zl_app a (vals : list F) l1 l2 : zl a vals (l1 ++ l2) <-> zl a vals l1 /\ zl a vals l2.
  Proof. unfold zl. split; [intros H; split; intros t x Hin; apply (H t); apply in_app_iff; auto|]. intros [H1 H2] t x Hin. apply in_app_iff in Hin. destruct Hin; eauto. Qed.
  Lemma rel_step (B B' : Builder) l (sv vals w : list F) : Inv B -> Rel B sv vals -> length vals = nvars B -> b_i2o B' = b_i2o B ++ l -> Rel B' (sv ++ map (getv (vals ++ w)) l) (vals ++ w).
  Proof.
    intros I [R1 R2] Hl Hi. split; [rewrite Hi, !app_length, map_length; lia|]. intros x Hx. rewrite app_length, map_length in Hx. unfold i2o. rewrite Hi. destruct (lt_dec x (length sv)) as [Hlt|Hge].
    - rewrite getv_app1 by auto. rewrite i2o_app by lia. rewrite (R2 x) by lia. rewrite getv_app1; auto. pose proof (iv_i2o _ I x ltac:(lia)). lia.
    - rewrite getv_app2 by lia. rewrite app_nth2 by lia. unfold getv at 1. rewrite (nth_indep _ 0 (getv (vals ++ w) 0%nat)) by (rewrite map_length; lia). rewrite map_nth. rewrite R1. auto.
  Qed.
  Lemma cverify_ext (sv w : list F) cons : Forall (fun c => (snd c < length sv)%nat) cons -> cverify (sv ++ w) cons = cverify sv cons.
  Proof. intros H. unfold cverify. induction H as [|c cons Hc H IH]; cbn [forallb]; auto. rewrite IH, getv_app1; auto. Qed.

  Lemma BI_insn n si B B' i new l lg : BI n si [] B -> pstep B B' i new l lg -> BI n (si ++ [i]) [] B'.
  Proof.
    intros [J1 J2 J3 J4 J5 J6 J7 J8 J9 J10] [P1 P2 P3 P4 P5 P6 P7 P8 P9 P10 P11 P12 P13 P14 P15]. pose proof (nvars_pos _ (iv_core _ J1)) as Hpos.
    assert (Hsplit : forall cs', Forall (call_wf HI cs') (b_insns B') <-> Forall (call_wf HI cs') (b_insns B) /\ Forall (call_wf HI cs') new).
    { intros cs'. rewrite P4. rewrite Forall_app. reflexivity. }
    split; auto.
    - rewrite P2, app_length, J2, P3, nouts_app. cbn [nouts]. change (@i_nout F SI i) with (s_nout F i). lia.
    - rewrite P5, J3, P4, nouts_app. lia.
    - rewrite P4. apply wf_insns_app. split; auto. replace (n + nouts HI (b_insns B))%nat with (nvars B - 1)%nat by lia. auto.
    - intros i' o l' k Hin Hc. rewrite P4 in Hin. apply in_app_iff in Hin. destruct Hin as [Hin|Hin].
      + destruct (J5 i' o l' k Hin Hc) as [i0 [l0 [A [A1 A2]]]]. exists i0, l0. rewrite in_app_iff. auto.
      + destruct (P7 i' o l' k Hin Hc) as [l0 [A A1]]. exists i, l0. rewrite in_app_iff. cbn. auto.
    - intros E cs' ins vals b Hl Hw Hx. apply Hsplit in Hw. destruct Hw as [Hw1 Hw2]. rewrite P4 in Hx. apply exec_app in Hx. destruct Hx as [mid [b1 [b2 [X1 [X2 _]]]]].
      destruct (J6 E cs' ins mid b1 Hl Hw1 X1) as [m V]. eapply P11; eauto.
    - intros E cs' ins vals b Hl Hw Hx t Ht x Hin. apply Hsplit in Hw. destruct Hw as [Hw1 Hw2]. rewrite P4 in Hx. apply exec_app in Hx. destruct Hx as [mid [b1 [b2 [X1 [X2 _]]]]].
      destruct (J6 E cs' ins mid b1 Hl Hw1 X1) as [m V]. pose proof (bv_len _ _ _ V) as Lm. destruct (exec_prefix HI _ _ _ _ _ _ X2) as [w Hw]. rewrite P9 in Hin. apply in_app_iff in Hin. destruct Hin as [Hin|Hin].
      + subst vals. rewrite getv_app1 by (rewrite Lm; eapply log_lt; eauto; apply J1). apply (J7 E cs' ins mid b1 Hl Hw1 X1 t); auto. intros y Hy. specialize (Ht y). rewrite getv_app1 in Ht by (rewrite Lm; eapply log_lt; eauto; apply J1). apply Ht. rewrite P9, in_app_iff. auto.
      + apply (P12 E cs' mid m vals b2 V X2) with (t := t); auto. intros t' y Hy. rewrite Forall_forall in P10. pose proof (P10 _ Hin) as T1. pose proof (P10 _ Hy) as T2. cbn in T1, T2. replace t' with t in Hy by congruence. apply Ht. rewrite P9, in_app_iff. auto.
    - intros E cs cs' ins sv b Hh Hl Hws Hw Hsub Hx. apply Hsplit in Hw. destruct Hw as [Hw1 Hw2]. apply Forall_app in Hws. destruct Hws as [Hs1 Hs2]. apply exec_snoc in Hx. destruct Hx as [smid [outs [b1 [b2 [X1 [X2 [-> ->]]]]]]].
      destruct (J8 E cs cs' ins smid b1 Hh Hl Hs1 Hw1) as [mid [Y1 [Y2 [Y3 Y4]]]]; [intros i0 o l0 k ins0 outs0 b0 Hin; apply Hsub; apply in_app_iff; auto|auto|].
      destruct (J6 E cs' ins mid b1 Hl Hw1 Y1) as [m V]. pose proof (bv_len _ _ _ V) as Lm.
      destruct (P13 E cs cs' mid m smid outs b2 Hh V Y2) as [vals [Z1 [Z2 [Z3 Z4]]]]; [inversion Hs2; auto|auto|intros o l0 k ins0 outs0 b0; apply Hsub with (i := i); apply in_app_iff; cbn; auto|].
      destruct (exec_prefix HI _ _ _ _ _ _ Z1) as [w ->]. exists (mid ++ w). split; [rewrite P4; apply exec_app; eauto 6|]. split; [rewrite <- Z2; apply (rel_step B B'); auto|].
      rewrite P9, !zl_app. rewrite !zl_ext by (auto; apply J1). split; auto. unfold cverify in *. cbn [forallb] in *. split; auto. intros _. split; auto. apply Y4; auto.
    - intros E cs cs' ins vals Hl Hw Hsub Hx Hz. apply Hsplit in Hw. destruct Hw as [Hw1 Hw2]. rewrite P4 in Hx. apply exec_app in Hx. destruct Hx as [mid [b1 [b2 [X1 [X2 Hb]]]]].
      symmetry in Hb. apply andb_true_iff in Hb. destruct Hb as [-> ->]. destruct (J6 E cs' ins mid true Hl Hw1 X1) as [m V]. pose proof (bv_len _ _ _ V) as Lm. destruct (exec_prefix HI _ _ _ _ _ _ X2) as [w Hw]. subst vals.
      rewrite P9, zl_app in Hz. destruct Hz as [Hz1 Hz2]. rewrite zl_ext in Hz1 by (auto; apply J1).
      destruct (J9 E cs cs' ins mid Hl Hw1) as [sv [Y1 [Y2 Y3]]]; [intros i0 o l0 k ins0 outs0 Hin; apply Hsub; apply in_app_iff; auto|auto|auto|].
      exists (sv ++ map (getv (mid ++ w)) l). split; [|split; [apply (rel_step B B'); auto|auto]].
      apply exec_snoc. exists sv, (map (getv (mid ++ w)) l), true, true. split; auto. split; auto. apply (P14 E cs cs' mid m sv (mid ++ w)); auto. intros o l0 k ins0 outs0. apply Hsub with (i := i). apply in_app_iff; cbn; auto.
    - intros Hm t x Hin. apply Forall_app in Hm. destruct Hm as [Hm1 Hm2]. inversion Hm2; subst. rewrite P9 in Hin. apply in_app_iff in Hin. destruct Hin as [Hin|Hin]; [apply (J10 Hm1 t x Hin)|eapply P15; eauto].
  Qed.

  Lemma BI_con n si cons B c : BI n si cons B -> (0 < snd c < length (b_i2o B))%nat -> Forall (fun k => (snd k < length (b_i2o B))%nat) cons ->
    exists B', process_con B c = Ok B' /\ BI n si (cons ++ [c]) B' /\ b_i2o B' = b_i2o B.
  Proof.
    intros [J1 J2 J3 J4 J5 J6 J7 J8 J9 J10] Hc Hcons. pose proof (iv_core _ J1) as C. pose proof (nvars_pos _ C) as Hpos. unfold process_con.
    replace (snd c <? length (b_i2o B))%nat with true by (symmetry; apply Nat.ltb_lt; lia). pose proof (iv_i2o _ J1 (snd c) ltac:(lia)) as Hb.
    set (c1 := (fst c, i2o B (snd c))) in *. rewrite transform_con_acts.
    destruct (do_acts_spec 0 (con_acts c1 (nvars B) ++ [AAssert (con_res c1 (nvars B))]) B C (con_acts_ok 0 c1 (nvars B) Hb)) as [B' [new [E2 G]]]. rewrite E2. exists B'. split; auto.
    set (acts := con_acts c1 (nvars B) ++ [AAssert (con_res c1 (nvars B))]) in *. destruct G as [G1 G2 [es [G3 G3']] G4 G5 G6 G7 G8 G9 G10 G11].
    assert (Hnv : nvars B' = (nvars B + acts_n acts)%nat) by (unfold nvars; rewrite G3, app_length, G3'; auto). split; [|auto].
    unfold acts in G8. rewrite con_acts_log in G8.
    assert (Hnew : forall cs', Forall (call_wf HI cs') new) by (intros cs'; eapply Forall_impl; [|exact G6]; intros i0 Hi0 o l0 k Hk; change (@i_call F HI i0) with (h_call F i0) in Hk; congruence).
    assert (Hsplit : forall cs', Forall (call_wf HI cs') (b_insns B') <-> Forall (call_wf HI cs') (b_insns B)).
    { intros cs'. rewrite G2, Forall_app. split; [intros [H _]; auto|auto]. }
    assert (HI' : Inv B').
    { split; auto; try (rewrite G7; apply J1); [|apply G9; apply J1]. intros x Hx. unfold i2o. rewrite G7 in *. pose proof (iv_i2o _ J1 x Hx). unfold i2o in *. lia. }
    assert (HRel : forall sv vals w : list F, length vals = nvars B -> Rel B sv vals <-> Rel B' sv (vals ++ w)).
    { intros sv vals w Hl. unfold Rel, i2o. rewrite G7. split; intros [R1 R2]; split; auto; intros x Hx; specialize (R2 x Hx); pose proof (iv_i2o _ J1 x ltac:(lia)) as Hx'; unfold i2o in *.
      - rewrite getv_app1 by lia. auto.
      - rewrite getv_app1 in R2 by lia. auto. }
    assert (Hprun : forall (E : Env F) vals vals', prun E acts vals vals' <-> prun E (con_acts c1 (nvars B)) vals vals').
    { intros E vals vals'. unfold acts. rewrite prun_app. cbn [prun]. split; [intros [mid [A ->]]; auto|intros A; exists vals'; auto]. }
    assert (Hres : forall (E : Env F) vals vals', length vals = nvars B -> prun E (con_acts c1 (nvars B)) vals vals' -> exists w, vals' = vals ++ w) by (intros; eapply prun_prefix; eauto).
    split; auto.
    - rewrite G7. auto.
    - rewrite Hnv, J3, G2, nouts_app. lia.
    - rewrite G2. apply wf_insns_app. split; auto. replace (n + nouts HI (b_insns B))%nat with (nvars B - 1)%nat by lia. auto.
    - intros i' o l' k Hin Hk. rewrite G2 in Hin. apply in_app_iff in Hin. destruct Hin as [Hin|Hin]; [eauto|]. rewrite Forall_forall in G6. rewrite (G6 _ Hin) in Hk. discriminate.
    - intros E cs' ins vals b Hl Hw Hx. apply Hsplit in Hw. rewrite G2 in Hx. apply exec_app in Hx. destruct Hx as [mid [b1 [b2 [X1 [X2 _]]]]].
      destruct (J6 E cs' ins mid b1 Hl Hw X1) as [m V]. apply (G10 E cs' mid m vals b2 V) in X2. destruct X2 as [_ X2]. eapply G11; eauto.
    - intros E cs' ins vals b Hl Hw Hx t Ht x Hin. apply Hsplit in Hw. rewrite G2 in Hx. apply exec_app in Hx. destruct Hx as [mid [b1 [b2 [X1 [X2 _]]]]].
      destruct (J6 E cs' ins mid b1 Hl Hw X1) as [m V]. pose proof (bv_len _ _ _ V) as Lm. destruct (exec_prefix HI _ _ _ _ _ _ X2) as [w ->]. rewrite G8 in Hin. apply in_app_iff in Hin. destruct Hin as [Hin|[Hin|[]]]; [|discriminate].
      rewrite getv_app1 by (rewrite Lm; eapply log_lt; eauto; apply J1). apply (J7 E cs' ins mid b1 Hl Hw X1 t); auto. intros y Hy. specialize (Ht y). rewrite getv_app1 in Ht by (rewrite Lm; eapply log_lt; eauto; apply J1). apply Ht. rewrite G8, in_app_iff. auto.
    - intros E cs cs' ins sv b Hh Hl Hws Hw Hsub Hx. apply Hsplit in Hw. destruct (J8 E cs cs' ins sv b Hh Hl Hws Hw Hsub Hx) as [mid [Y1 [Y2 [Y3 Y4]]]].
      destruct (J6 E cs' ins mid b Hl Hw Y1) as [m V]. pose proof (bv_len _ _ _ V) as Lm.
      destruct (con_fwd E c1 mid Hh ltac:(rewrite Lm; auto)) as [vals [Z1 Z2]]. rewrite Lm in Z1, Z2. destruct (Hres _ _ _ Lm Z1) as [w ->].
      exists (mid ++ w). split; [rewrite G2; apply exec_app; exists mid, b, true; split; auto; split; [apply (G10 E cs' mid m (mid ++ w) true V); split; auto; apply Hprun; auto|rewrite andb_true_r; auto]|].
      split; [apply HRel; auto|]. rewrite G8, !zl_app, !zl_ext by (auto; apply J1). split; [split; auto; intros t x [Hin|[]]; discriminate|].
      assert (Hv : con_verify F c1 (getv mid (snd c1)) = con_verify F c (getv sv (snd c))). { destruct Y2 as [Y2 Y2']. rewrite (Y2' (snd c)) by lia. reflexivity. }
      unfold cverify in *. rewrite forallb_app. cbn [forallb]. rewrite andb_true_r, andb_true_iff, <- Y4. rewrite <- Hv. split.
      + intros [A1 A2]. split; auto. eapply con_bwd with (vals' := mid ++ w); [rewrite Lm; auto|rewrite Lm; exact Z1|]. rewrite Lm. apply (A2 (length (b_i2o B))). left; auto.
      + intros [A1 A2]. split; auto. intros t x [Hin|[]]. injection Hin as <- <-. auto.
    - intros E cs cs' ins vals Hl Hw Hsub Hx Hz. apply Hsplit in Hw. rewrite G2 in Hx. apply exec_app in Hx. destruct Hx as [mid [b1 [b2 [X1 [X2 Hb2]]]]].
      symmetry in Hb2. apply andb_true_iff in Hb2. destruct Hb2 as [-> ->]. destruct (J6 E cs' ins mid true Hl Hw X1) as [m V]. pose proof (bv_len _ _ _ V) as Lm. apply (G10 E cs' mid m vals true V) in X2. destruct X2 as [_ X2]. apply Hprun in X2.
      destruct (Hres _ _ _ Lm X2) as [w ->]. rewrite G8, zl_app in Hz. destruct Hz as [Hz1 Hz2]. rewrite zl_ext in Hz1 by (auto; apply J1).
      destruct (J9 E cs cs' ins mid Hl Hw Hsub X1 Hz1) as [sv [Y1 [Y2 Y3]]]. exists sv. split; auto. split; [apply HRel; auto|].
      assert (Hv : con_verify F c1 (getv mid (snd c1)) = con_verify F c (getv sv (snd c))). { destruct Y2 as [Y2 Y2']. rewrite (Y2' (snd c)) by lia. reflexivity. }
      unfold cverify in *. rewrite forallb_app, Y3. cbn [forallb]. rewrite andb_true_r, <- Hv. cbn [andb]. eapply con_bwd with (vals' := mid ++ w); [rewrite Lm; auto|rewrite Lm; exact X2|]. rewrite Lm. apply (Hz2 (length (b_i2o B))). left; auto.
    - intros Hm t x Hin. rewrite G8 in Hin. apply in_app_iff in Hin. destruct Hin as [Hin|[Hin|[]]]; [apply (J10 Hm t x Hin)|discriminate].
  Qed.
  Lemma BI_cons n si : forall post pre B, BI n si pre B -> Forall (fun k => (0 < snd k < length (b_i2o B))%nat) (pre ++ post) ->
    exists B', rfold process_con B post = Ok B' /\ BI n si (pre ++ post) B' /\ b_i2o B' = b_i2o B.
  Proof.
    induction post as [|c post IH]; intros pre B J H; cbn [rfold].
    - exists B. rewrite app_nil_r. auto.
    - apply Forall_app in H as H'. destruct H' as [Hp Hq]. inversion Hq as [|? ? Hc Hq']; subst. destruct (BI_con n si pre B c J Hc) as [B1 [E1 [J1 H1]]]; [eapply Forall_impl; [|exact Hp]; cbn; intros; lia|].
      rewrite E1. cbn [rbind]. destruct (IH (pre ++ [c]) B1 J1) as [B' [E2 [J2 H2]]]; [rewrite H1, <- app_assoc; auto|]. exists B'. rewrite <- app_assoc in J2. split; auto. split; auto. congruence.
  Qed.
  Lemma BI_insns q n : forall post pre B, BI n pre [] B -> wf_insns SI post (n + nouts SI pre) -> Forall (fun i => s_validate F q i = true) post ->
    rfold process_insn B post = Err \/ exists B', rfold process_insn B post = Ok B' /\ BI n (pre ++ post) [] B'.
  Proof.
    induction post as [|i post IH]; intros pre B J H Hv; cbn [rfold].
    - right. exists B. rewrite app_nil_r. auto.
    - cbn [wf_insns] in H. destruct H as [H1 H2]. inversion Hv as [|? ? V1 V2]; subst.
      destruct (process_insn_spec q B i (b_inv _ _ _ _ J)) as [E|[B1 [new [l [lg [E P]]]]]]; auto.
      { change (@i_inputs F SI i) with (s_inputs F i) in H1. rewrite (b_ilen _ _ _ _ J). eapply Forall_impl; [|exact H1]. cbn; intros; lia. }
      + rewrite E. left; auto.
      + rewrite E. cbn [rbind]. destruct (IH (pre ++ [i]) B1 (BI_insn _ _ _ _ _ _ _ _ J P)) as [E2|[B' [E2 J2]]]; auto.
        * rewrite nouts_app. cbn [nouts]. replace (n + (nouts SI pre + (@i_nout F SI i + 0)))%nat with (n + nouts SI pre + @i_nout F SI i)%nat by lia. auto.
        * right. exists B'. rewrite <- app_assoc in J2. auto.
  Qed.

  (* ---------- inputs ---------- *)
  Lemma core_new : Bcore (b_new (F := F)) /\ Bv (b_new (F := F)) [0] (fun _ => 0).
  Proof.
    assert (Hp : forall i e, (1 <= i)%nat -> pnth (b_pool (b_new (F := F))) i = Some e -> False) by (intros i e Hi H; destruct i as [|[|i]]; cbn in H; [lia|discriminate|discriminate]).
    assert (Hx : forall o e, nth_error (b_exprs (b_new (F := F))) o = Some e -> o = 0%nat /\ e = [t_default F]) by (intros [|[|o]] e H; cbn in H; try discriminate; split; congruence).
    assert (Hm : forall i o, nth_error (b_m2o (b_new (F := F))) i = Some (Some o) -> False) by (intros [|[|o]] e H; cbn in H; discriminate).
    split.
    - split.
      + split; [|reflexivity|intros i e Hi H; destruct (Hp i e Hi H)]. exact (proj1 (pool_add_spec Expr e_eqb e_eqb_spec (pool_new Expr) [] (pinv_new Expr e_eqb))).
      + cbn. constructor; [apply good_default|constructor].
      + reflexivity.
      + cbn. auto.
      + intros i x k b H. destruct (Hm _ _ H).
      + cbn. discriminate.
      + intros o e Ho H. apply Hx in H. lia.
    - split.
      + intros i e Hi H. destruct (Hp i e Hi H).
      + reflexivity.
      + intros o e H. destruct (Hx o e H) as [-> ->]. rewrite ev_default. reflexivity.
      + intros i x k b H. destruct (Hm _ _ H).
  Qed.
  Lemma BI_input n : exists B, add_input (F := F) n = Some B /\ BI n [] [] B.
  Proof.
    destruct core_new as [C V]. unfold add_input. destruct (add_out_vars_spec b_new n C) as [B [E1 [C1 [I1 [X1 [[R1 [R2 R3]] V1]]]]]]. rewrite E1. cbn [obind].
    eexists. split; [reflexivity|]. cbn in I1, R1, R2, R3.
    assert (Hnv : nvars (set_i2o B (b_i2o B ++ seq 1 n)) = (1 + n)%nat) by (unfold nvars; cbn [set_i2o b_exprs]; rewrite X1, app_length, fresh_len; auto).
    assert (Hi : b_i2o (set_i2o B (b_i2o B ++ seq 1 n)) = 0%nat :: seq 1 n) by (cbn [set_i2o b_i2o]; rewrite R2; auto).
    assert (Hi2 : forall x, (1 <= x < 1 + n)%nat -> i2o (set_i2o B (b_i2o B ++ seq 1 n)) x = x).
    { intros x Hx. unfold i2o. rewrite Hi. destruct x as [|x]; [lia|]. cbn [nth]. rewrite seq_nth by lia. lia. }
    assert (HL : length (b_i2o (set_i2o B (b_i2o B ++ seq 1 n))) = (1 + n)%nat) by (rewrite Hi; cbn [length]; rewrite seq_length; auto).
    assert (HRel : forall ins : list F, length ins = n -> Rel (set_i2o B (b_i2o B ++ seq 1 n)) (0 :: ins) (0 :: ins)).
    { intros ins Hl. split; [rewrite HL; cbn [length]; lia|]. intros x Hx. cbn [length] in Hx. rewrite Hi2 by lia. auto. }
    split; cbn [set_i2o b_insns b_log]; rewrite ?I1, ?R3.
    - split.
      + apply core_i2o; auto.
      + rewrite HL. lia.
      + intros x Hx. rewrite HL in Hx. rewrite Hi2, Hnv by lia. lia.
      + split; cbn [set_i2o b_cons b_log b_exprs]; rewrite ?R1, ?R3; cbn; try contradiction; discriminate.
    - rewrite HL. cbn [nouts]. lia.
    - rewrite Hnv. cbn [nouts]. lia.
    - exact Logic.I.
    - intros i' o l' k [].
    - intros E cs' ins vals b Hl _ H. apply exec_nil in H. destruct H as [-> _]. destruct (V1 [0] (fun _ => 0) ins V Hl) as [m [_ Vm]]. exists m. apply Bv_i2o. auto.
    - intros E cs' ins vals b Hl _ H t _ x [].
    - intros E cs cs' ins sv b Hh Hl _ _ _ H. apply exec_nil in H. destruct H as [-> ->]. exists (0 :: ins). split; [constructor|]. split; auto. split; [intros t x []|]. split; [reflexivity|intros _ t x []].
    - intros E cs cs' ins vals Hl _ _ H _. apply exec_nil in H. destruct H as [-> _]. exists (0 :: ins). split; [constructor|]. split; auto.
    - intros _ t x [].
  Qed.

  (* ---------- the constraints of the result ---------- *)
  Lemma final_cons_spec (B : Builder) : Bcore B -> LInv B -> exists l, final_cons B = Some l /\ Forall (fun x => (1 <= x < nvars B)%nat) l /\
    forall vals m, Bv B vals m -> (Forall (fun x => getv vals x = 0) l <-> forall e, eget e (b_cons B) = Some Asserted -> ev m e = 0).
  Proof.
    intros C L. unfold final_cons. set (f := fun e => match eget e (b_cons B) with Some Asserted => true | _ => false end). set (es := filter f (isort e_leb (map fst (b_cons B)))).
    assert (Hin : forall e, In e es <-> eget e (b_cons B) = Some Asserted).
    { intros e. unfold es. rewrite filter_In. unfold f. split.
      - intros [_ H]. destruct (eget e (b_cons B)) as [[|]|]; try discriminate. auto.
      - intros H. rewrite H. split; auto. eapply Permutation_in; [apply Permutation_sym, isort_perm|]. apply eget_keys. congruence. }
    assert (Hg : forall e, In e es -> exists o, eget e (b_e2o B) = Some o /\ (1 <= o < nvars B)%nat /\ nth_error (b_exprs B) o = Some e).
    { intros e He. apply Hin in He. destruct (li_as _ L e He) as [t [x [A A1]]]. destruct (li_log _ L t true x A) as [A2 _]. pose proof (bi_all _ C x e A2 A1) as A3.
      destruct (eget e (b_e2o B)) as [o|] eqn:Eo; [|contradiction]. exists o. split; auto. destruct (bi_e2o _ C _ _ Eo) as [O1 O2]. split; auto. split; auto. apply nth_error_Some_lt in O2. auto. }
    assert (Hm : exists l, omap (fun e => eget e (b_e2o B)) es = Some l).
    { clear Hin. induction es as [|e es IH]; cbn [omap]; eauto. destruct (Hg e (or_introl eq_refl)) as [o [-> _]]. destruct IH as [l ->]; [intros e1 H1; apply Hg; right; auto|]. eauto. }
    destruct Hm as [l Hm]. exists l. split; auto. apply omap_some in Hm.
    assert (HF : Forall2 (fun e o => (1 <= o < nvars B)%nat /\ nth_error (b_exprs B) o = Some e) es l).
    { clear Hin. induction Hm as [|e o es l Ho Hm IH]; constructor.
      - destruct (Hg e (or_introl eq_refl)) as [o' [Ho' H]]. rewrite Ho in Ho'. injection Ho' as <-. auto.
      - apply IH. intros e1 H1. apply Hg. right; auto. }
    split.
    - clear - HF. induction HF as [|e o es l [H _] HF IH]; constructor; auto.
    - intros vals m V. assert (Hv : Forall2 (fun e o => getv vals o = ev m e) es l) by (clear - HF V; induction HF as [|e o es l [_ H] HF IH]; constructor; auto; apply (bv_exprs _ _ _ V); auto).
      split.
      + intros H e He. apply Hin in He. clear - H He Hv. induction Hv as [|e1 o es l H1 Hv IH]; [contradiction|]. inversion H; subst. destruct He as [<-|He]; auto. congruence.
      + intros H. assert (H' : forall e, In e es -> ev m e = 0) by (intros e He; apply H, Hin; auto). clear - H' Hv. induction Hv as [|e1 o es l H1 Hv IH]; constructor.
        * rewrite H1. apply H'. left; auto.
        * apply IH. intros e He. apply H'. right; auto.
  Qed.

  (* ---------- which assertions survive ---------- *)
  (* An expression is enforced by the result if it is among the constraints at the end, is the constant 0, or was marked by an
     instruction all of whose own assertions are enforced *)
  Inductive enforced (B : Builder) : Expr -> Prop :=
  | enf_as e : eget e (b_cons B) = Some Asserted -> enforced B e
  | enf_zero : enforced B (e_const F 0)
  | enf_ma e t x : In (t, false, x) (b_log B) -> nth_error (b_exprs B) x = Some e ->
      (forall y ey, In (t, true, y) (b_log B) -> nth_error (b_exprs B) y = Some ey -> enforced B ey) -> enforced B e.
  Definition kept (B : Builder) : Prop := forall t x e, In (t, true, x) (b_log B) -> nth_error (b_exprs B) x = Some e -> enforced B e.
  Lemma nomark_kept n si cons B : BI n si cons B -> Forall (fun i => marker i = false) si -> kept B.
  Proof.
    intros J Hm t x e Hin He. pose proof (iv_linv _ (b_inv _ _ _ _ J)) as L. apply enf_as. destruct (li_log _ L t true x Hin) as [_ [e' [He' Hne]]]. rewrite He in He'. injection He' as <-.
    destruct (eget e (b_cons B)) as [[|]|] eqn:Ee; [|auto|contradiction]. destruct (li_ma _ L e Ee) as [t' [y [Hy _]]]. destruct (b_nomark _ _ _ _ J Hm t' y Hy).
  Qed.
  Section EnfInd.
    Variable B : Builder. Variable P : Expr -> Prop.
    Hypothesis H1 : forall e, eget e (b_cons B) = Some Asserted -> P e.
    Hypothesis H2 : P (e_const F 0).
    Hypothesis H3 : forall e t x, In (t, false, x) (b_log B) -> nth_error (b_exprs B) x = Some e ->
      (forall y ey, In (t, true, y) (b_log B) -> nth_error (b_exprs B) y = Some ey -> enforced B ey /\ P ey) -> P e.
    Fixpoint enf_ind (e : Expr) (H : enforced B e) {struct H} : P e :=
      match H in enforced _ e return P e with
      | enf_as _ e h => H1 e h
      | enf_zero _ => H2
      | enf_ma _ e t x h h0 h1 => H3 e t x h h0 (fun y ey a b => conj (h1 y ey a b) (enf_ind ey (h1 y ey a b)))
      end.
  End EnfInd.
  Lemma kept_zero n si cons B : BI n si cons B -> kept B -> forall E cs' ins vals m b, length ins = n -> Forall (call_wf HI cs') (b_insns B) -> exec HI E cs' (b_insns B) (0 :: ins) vals b -> Bv B vals m ->
    (forall e, eget e (b_cons B) = Some Asserted -> ev m e = 0) -> zl true vals (b_log B).
  Proof.
    intros J K E cs' ins vals m b Hl Hw Hx V Hz. assert (G : forall e, enforced B e -> ev m e = 0).
    { apply (enf_ind B (fun e => ev m e = 0)).
      - exact Hz.
      - apply ev_const.
      - intros e t x Hin He IH. rewrite <- (bv_exprs _ _ _ V x e He). apply (b_marks _ _ _ _ J E cs' ins vals b Hl Hw Hx t); auto.
        intros y Hy. destruct (li_log _ (iv_linv _ (b_inv _ _ _ _ J)) t true y Hy) as [_ [ey [He' _]]]. rewrite (bv_exprs _ _ _ V y ey He'). apply (IH y ey Hy He'). }
    intros t x Hin. destruct (li_log _ (iv_linv _ (b_inv _ _ _ _ J)) t true x Hin) as [_ [e [He _]]]. rewrite (bv_exprs _ _ _ V x e He). apply G. eapply K; eauto.
  Qed.

  (* ---------- one circuit ---------- *)
  Lemma process_body_spec q (c : Circuit SI) : wf_circuit SI c -> Forall (fun i : Insn SI => s_validate F q i = true) (instructions c) ->
    process_body c = Err \/ exists B, process_body c = Ok B /\ BI (num_inputs c) (instructions c) (constraints c) B.
  Proof.
    intros [W1 W2 W3] Hv. unfold process_body. destruct (BI_input (num_inputs c)) as [B0 [E0 J0]]. rewrite E0. cbn [of_opt rbind].
    destruct (BI_insns q (num_inputs c) (instructions c) [] B0 J0) as [E1|[B1 [E1 J1]]]; auto.
    - cbn [nouts]. rewrite Nat.add_0_r. auto.
    - left. change (list (Insn SI)) with (list (SInsn F)) in *. rewrite E1. auto.
    - right. change (list (Insn SI)) with (list (SInsn F)) in *. rewrite E1. cbn [rbind app] in *.
      destruct (BI_cons (num_inputs c) (instructions c) (constraints c) [] B1 J1) as [B' [E2 [J2 _]]]; [|eauto].
      cbn [app]. eapply Forall_impl; [|exact W2]. intros k Hk. cbn in Hk. rewrite (b_ilen _ _ _ _ J1). cbn. lia.
  Qed.
  Lemma process_circuit_spec q (c : Circuit SI) : wf_circuit SI c -> Forall (fun i : Insn SI => s_validate F q i = true) (instructions c) ->
    process_circuit c = Err \/ exists c', process_circuit c = Ok c' /\ local_ok SI HI c c' /\
      (forall E cs cs' ins, honest E -> length ins = num_inputs c -> Forall (call_wf SI cs) (instructions c) -> Forall (call_wf HI cs') (instructions c') -> subs_fwd E cs cs' (instructions c) ->
        forall sv b, exec SI E cs (instructions c) (0 :: ins) sv b -> exists vals, exec HI E cs' (instructions c') (0 :: ins) vals b /\ Forall (inb vals) (outputs c') /\ Forall (fun x : Con HI => inb vals x) (constraints c') /\
          map (getv vals) (outputs c') = map (getv sv) (outputs c) /\ forallb (fun x : Con HI => is0 F (getv vals x)) (constraints c') = cverify sv (constraints c)) /\
      (forall B, process_body c = Ok B -> kept B -> forall E cs cs' ins, length ins = num_inputs c -> Forall (call_wf HI cs') (instructions c') -> subs_bwd E cs cs' (instructions c) ->
        forall vals, exec HI E cs' (instructions c') (0 :: ins) vals true -> forallb (fun x : Con HI => is0 F (getv vals x)) (constraints c') = true ->
          exists sv, exec RelI E cs (instructions c) (0 :: ins) sv true /\ Forall (inb sv) (outputs c) /\ Forall (fun k : Con RelI => inb sv (snd k)) (constraints c) /\
            map (getv vals) (outputs c') = map (getv sv) (outputs c) /\ cverify sv (constraints c) = true).
  Proof.
    intros W Hv. destruct (process_body_spec q c W Hv) as [E0|[B [E0 J]]]; unfold process_circuit; rewrite E0; cbn [rbind]; auto. right.
    destruct (b_inv _ _ _ _ J) as [C Ip Ii L] eqn:EI. clear EI. destruct (final_cons_spec B C L) as [fl [E1 [Fb Fz]]]. rewrite E1. cbn [of_opt rbind].
    destruct W as [W1 W2 W3].
    replace (forallb (fun x => (x <? length (b_i2o B))%nat) (outputs c)) with true.
    2: { symmetry. apply forallb_forall. intros x Hx. rewrite Forall_forall in W3. specialize (W3 x Hx). apply Nat.ltb_lt. rewrite (b_ilen _ _ _ _ J). cbn. lia. }
    assert (Ho : forall x, In x (outputs c) -> (1 <= x < length (b_i2o B))%nat). { intros x Hx. rewrite Forall_forall in W3. specialize (W3 x Hx). rewrite (b_ilen _ _ _ _ J). cbn. lia. }
    assert (Hmap : forall sv vals, Rel B sv vals -> map (getv vals) (map (i2o B) (outputs c)) = map (getv sv) (outputs c)).
    { intros sv vals [R1 R2]. rewrite map_map. apply map_ext_in. intros x Hx. symmetry. apply R2. rewrite R1. auto. }
    assert (Hinb : forall vals : list F, length vals = nvars B -> Forall (inb vals) (map (i2o B) (outputs c)) /\ Forall (fun x : Con HI => inb vals x) fl).
    { intros vals Hl. split.
      - apply Forall_forall. intros y Hy. apply in_map_iff in Hy. destruct Hy as [x [<- Hx]]. unfold inb. pose proof (Ii x (Ho x Hx)). lia.
      - eapply Forall_impl; [|exact Fb]. unfold inb; cbn; intros; lia. }
    assert (Hf0 : forall vals : list F, forallb (fun x : Con HI => is0 F (getv vals x)) fl = true <-> Forall (fun x => getv vals x = 0) fl).
    { intros vals. rewrite forallb_forall, Forall_forall. split; intros H x Hx; apply is0_spec; apply H; auto. }
    eexists. split; [reflexivity|]. cbn [instructions constraints outputs num_inputs]. split; [|split].
    - split; [|split; [auto|split; [cbn [outputs]; apply map_length|]]].
      + split; cbn [instructions constraints outputs num_inputs].
        * apply (b_wf _ _ _ _ J).
        * pose proof (b_nv _ _ _ _ J). eapply Forall_impl; [|exact Fb]. cbn. intros; lia.
        * pose proof (b_nv _ _ _ _ J). apply Forall_forall. intros y Hy. apply in_map_iff in Hy. destruct Hy as [x [<- Hx]]. pose proof (Ii x (Ho x Hx)). lia.
      + cbn [instructions]. intros i' o l' n Hin Hc. destruct (b_call _ _ _ _ J i' o l' n Hin Hc) as [i [l0 [A1 [A2 A3]]]]. exists i, l0. auto.
    - intros E cs cs' ins Hh Hl Hws Hw Hsub sv b Hx. destruct (b_fwd _ _ _ _ J E cs cs' ins sv b Hh Hl Hws Hw Hsub Hx) as [vals [X1 [X2 [X3 X4]]]].
      destruct (b_val _ _ _ _ J E cs' ins vals b Hl Hw X1) as [m V]. pose proof (bv_len _ _ _ V) as Lv. destruct (Hinb vals Lv) as [I1 I2].
      exists vals. split; auto. split; auto. split; auto. split; auto.
      apply Bool.eq_iff_eq_true. rewrite Hf0, (Fz vals m V), <- X4. split.
      + intros H t x Hin. destruct (li_log _ L t true x Hin) as [Hx1 [e [He Hne]]]. rewrite (bv_exprs _ _ _ V x e He). destruct (eget e (b_cons B)) as [[|]|] eqn:Ee; [|auto|contradiction].
        destruct (li_ma _ L e Ee) as [t' [y [Hy Hye]]]. rewrite <- (bv_exprs _ _ _ V y e Hye). eapply X3; eauto.
      + intros H e He. destruct (li_as _ L e He) as [t [x [Hin Hxe]]]. rewrite <- (bv_exprs _ _ _ V x e Hxe). eapply H; eauto.
    - intros B' EB K E cs cs' ins Hl Hw Hsub vals Hx Hz. injection EB as <-. destruct (b_val _ _ _ _ J E cs' ins vals true Hl Hw Hx) as [m V].
      apply Hf0 in Hz. pose proof (proj1 (Fz vals m V) Hz) as Hz'. pose proof (kept_zero _ _ _ _ J K E cs' ins vals m true Hl Hw Hx V Hz') as Hzl.
      destruct (b_bwd _ _ _ _ J E cs cs' ins vals Hl Hw Hsub Hx Hzl) as [sv [Y1 [Y2 Y3]]]. exists sv. split; auto. destruct Y2 as [R1 R2]. split; [|split; [|split; auto]].
      + apply Forall_forall. intros x Hx0. specialize (Ho x Hx0). unfold inb. lia.
      + eapply Forall_impl; [|exact W2]. intros k Hk. cbn in Hk. unfold inb. rewrite R1, (b_ilen _ _ _ _ J). lia.
      + apply Hmap. split; auto.
  Qed.

  (* ---------- the root circuit ---------- *)
  Lemma process_loop_spec (cs : list (nat * Circuit SI)) order : forall acc, (forall id, In id order -> exists c, lookup id cs = Some c /\ (process_circuit c = Err \/ exists c', process_circuit c = Ok c')) ->
    process_loop cs order acc = Err \/ exists cs', process_loop cs order acc = Ok (cs' ++ acc) /\ keys cs' = rev order /\
      forall id c', In (id, c') cs' -> exists c, lookup id cs = Some c /\ process_circuit c = Ok c'.
  Proof.
    induction order as [|id order IH]; intros acc H; cbn [process_loop].
    - right. exists []. cbn. split; auto. split; auto. intros id c' [].
    - destruct (H id (or_introl eq_refl)) as [c [Hc [E|[c' E]]]]; rewrite Hc, E; cbn [rbind]; auto.
      destruct (IH ((id, c') :: acc)) as [E2|[cs' [E2 [K2 L2]]]]; [intros; apply H; right; auto|auto|].
      right. exists (cs' ++ [(id, c')]). rewrite <- app_assoc. cbn [app]. split; auto. unfold keys in *. rewrite map_app, K2. cbn [map fst rev]. split; auto.
      intros id1 c1 Hin. apply in_app_iff in Hin. destruct Hin as [Hin|[Hin|[]]]; auto. injection Hin as <- <-. eauto.
  Qed.
  Definition insns_valid (rc : RootCircuit SI) : Prop :=
    forall id c, lookup id (circuits rc) = Some c -> Forall (fun i : Insn SI => s_validate F (num_public_inputs rc) i = true) (instructions c).
  Lemma validate_insns_valid rc : validate SI rc = true -> insns_valid rc.
  Proof.
    intros H. unfold validate in H. destruct (lookup 0 (circuits rc)); [|discriminate]. rewrite !andb_true_iff in H. destruct H as [[H1 _] _]. rewrite forallb_forall in H1.
    intros id c1 Hc. apply lookup_In in Hc. specialize (H1 _ Hc). cbn [snd] in H1. unfold validate_variable_references in H1. destruct (validate_insns _ _ _ _) as [m|] eqn:E; [|discriminate].
    apply validate_insns_spec in E. apply E.
  Qed.
  (* what is known of a successful run of the pass *)
  Record hn_rel (rc : RootCircuit SI) (rc' : RootCircuit HI) : Prop := {
    hr_wf : wf_root HI rc';
    hr_pub : num_public_inputs rc' = num_public_inputs rc;
    hr_zero : expected_num_output_zeroes rc' = expected_num_output_zeroes rc;
    hr_fwd : forall id c, lookup id (circuits rc) = Some c -> exists c', lookup id (circuits rc') = Some c' /\ process_circuit c = Ok c';
    hr_bwd : forall id c', lookup id (circuits rc') = Some c' -> exists c, lookup id (circuits rc) = Some c /\ process_circuit c = Ok c'
  }.
  Lemma hn_process_spec (rc : RootCircuit SI) : wf_root SI rc -> insns_valid rc -> hn_process rc = Err \/ exists rc', hn_process rc = Ok rc' /\ hn_rel rc rc'.
  Proof.
    intros Wr Hv. destruct Wr as [W [rank R] [c0 [Hc0 Hz]]]. destruct (root_order_spec SI rc W) as [q [E1 [N1 [K1 _]]]]; [eauto|].
    unfold hn_process. rewrite E1. cbn [of_opt rbind].
    assert (Hpc : forall id c, lookup id (circuits rc) = Some c -> process_circuit c = Err \/ exists c', process_circuit c = Ok c' /\ local_ok SI HI c c').
    { intros id c Hc. destruct (process_circuit_spec (num_public_inputs rc) c (wf_each _ _ W id c Hc) (Hv id c Hc)) as [E|[c' [E [L _]]]]; eauto. }
    destruct (process_loop_spec (circuits rc) (rev q) []) as [E2|[cs' [E2 [K2 L2]]]].
    { intros id Hin. apply in_rev in Hin. apply K1 in Hin. apply lookup_keys in Hin. destruct Hin as [c Hc]. exists c. split; auto. destruct (Hpc id c Hc) as [E|[c' [E _]]]; eauto. }
    - rewrite E2. auto.
    - right. rewrite E2. cbn [rbind]. rewrite app_nil_r. rewrite rev_involutive in K2.
      assert (Nk : NoDup (keys cs')) by (rewrite K2; auto).
      assert (Hb : forall id c', lookup id cs' = Some c' -> exists c, lookup id (circuits rc) = Some c /\ process_circuit c = Ok c') by (intros id c' H; apply L2; apply lookup_In; auto).
      assert (Hf : forall id c, lookup id (circuits rc) = Some c -> exists c', lookup id cs' = Some c' /\ process_circuit c = Ok c').
      { intros id c H. assert (In id (keys cs')) as Hk by (rewrite K2; apply K1; apply lookup_keys; eauto). apply lookup_keys in Hk. destruct Hk as [c' Hc']. destruct (Hb id c' Hc') as [c2 [A B]]. exists c'. split; auto. congruence. }
      assert (Hlo : forall id c c', lookup id (circuits rc) = Some c -> process_circuit c = Ok c' -> local_ok SI HI c c').
      { intros id c c' H E. destruct (Hpc id c H) as [E'|[c2 [E' L]]]; congruence. }
      eexists. split; [reflexivity|]. split; cbn [num_public_inputs expected_num_output_zeroes circuits]; auto. split; cbn [circuits expected_num_output_zeroes].
      + split; auto.
        * intros id c' H. destruct (Hb id c' H) as [c [A B]]. apply (Hlo id c c' A B).
        * intros id c' H. destruct (Hb id c' H) as [c [A B]]. destruct (Hlo id c c' A B) as [_ [_ [_ D]]]. apply Forall_forall. intros i' Hi' o l' n Ec'. destruct (D i' o l' n Hi' Ec') as [i [l [B1 [B2 B3]]]].
          pose proof (wf_calls _ _ W _ _ A) as Wl. rewrite Forall_forall in Wl. destruct (Wl i B1 o l n B2) as [co [C1 [C2 C3]]]. destruct (Hf o co C1) as [co' [D1 D2]]. destruct (Hlo o co co' C1 D2) as [_ [D3 [D4 _]]].
          exists co'. split; auto. split; congruence.
      + exists rank. intros id c' o H Hoc. destruct (Hb id c' H) as [c [A B]]. destruct (Hlo id c c' A B) as [_ [_ [_ D]]]. apply calls_in in Hoc. destruct Hoc as [i' [l' [n [Hi' Ec']]]]. destruct (D i' o l' n Hi' Ec') as [i [l [B1 [B2 _]]]].
        eapply R; eauto. eapply in_calls; eauto.
      + destruct (Hf 0%nat c0 Hc0) as [c0' [A B]]. exists c0'. split; auto. destruct (Hlo _ _ _ Hc0 B) as [_ [_ [D _]]]. lia.
  Qed.

  (* ---------- behaviour ---------- *)
  Theorem hn_fwd (rc : RootCircuit SI) rc' E : wf_root SI rc -> insns_valid rc -> hn_rel rc rc' -> honest E ->
    forall ins outs b, root_run SI E rc ins outs b -> root_run HI E rc' ins outs b.
  Proof.
    intros Wr Hv Hr Hh. pose proof Wr as Wr0. destruct Wr0 as [W [rank R] [c0 [Hc0 Hz]]]. destruct (hr_fwd _ _ Hr 0%nat c0 Hc0) as [c0' [Hc0' E0]].
    assert (Hspec : forall id c c', lookup id (circuits rc) = Some c -> process_circuit c = Ok c' -> local_ok SI HI c c').
    { intros id c c' Hc Hp. destruct (process_circuit_spec (num_public_inputs rc) c (wf_each _ _ W id c Hc) (Hv id c Hc)) as [E1|[c1 [E1 [L _]]]]; congruence. }
    apply (local_root_fwd SI HI E rc rc' c0 c0'); auto; [apply (Hspec 0%nat c0 c0' Hc0 E0)|apply Hr|].
    apply (local_fwd SI HI E (circuits rc) (circuits rc') rank R). intros id c Hc IH c1 ins outs b Hc1 Hl Hrun. rewrite Hc in Hc1. injection Hc1 as <-.
    destruct (hr_fwd _ _ Hr id c Hc) as [c' [Hc' Ep]]. apply run_iff in Hrun. destruct Hrun as [c1 [sv [b0 [Hc1 [X1 [X2 [X3 [-> ->]]]]]]]]. rewrite Hc in Hc1. injection Hc1 as <-.
    destruct (process_circuit_spec (num_public_inputs rc) c (wf_each _ _ W id c Hc) (Hv id c Hc)) as [E1|[c1 [E1 [_ [G _]]]]]; [congruence|]. rewrite Ep in E1. injection E1 as <-.
    destruct (G E (circuits rc) (circuits rc') ins Hh Hl) with (sv := sv) (b := b0) as [vals [Y1 [Y2 [Y3 [Y4 Y5]]]]]; auto.
    - apply (wf_calls _ _ W id c Hc).
    - apply (wf_calls _ _ (wr_cs _ _ (hr_wf _ _ Hr)) id c' Hc').
    - intros i o l n ins0 outs0 b1 Hin Hcall Hlen Hrun. change (s_call F i) with (@i_call F SI i) in Hcall. pose proof (wf_calls _ _ W id c Hc) as Wl. rewrite Forall_forall in Wl. destruct (Wl i Hin o l n Hcall) as [co [C1 [C2 C3]]].
      apply (IH o) with (c := co); auto; [eapply in_calls; eauto|lia].
    - apply run_iff. exists c', vals, b0. split; auto. split; auto. split; auto. split; auto. split; auto. cbn [HnI c_verify c_var]. cbn [SrcI c_verify c_var]. change (fun k : nat => is0 F (getv vals k)) with (fun x : Con HI => is0 F (getv vals x)). rewrite Y5. auto.
  Qed.
  (* every circuit keeps the assertions of its instructions *)
  Definition root_kept (rc : RootCircuit SI) : Prop := forall id c B, lookup id (circuits rc) = Some c -> process_body c = Ok B -> kept B.
  Theorem hn_bwd (rc : RootCircuit SI) rc' E : wf_root SI rc -> insns_valid rc -> hn_rel rc rc' -> root_kept rc ->
    forall ins outs, root_run HI E rc' ins outs true -> root_run RelI E (relax_root rc) ins outs true.
  Proof.
    intros Wr Hv Hr Hk ins outs Hrun. pose proof Wr as Wr0. destruct Wr0 as [W [rank R] [c0 [Hc0 Hz]]]. destruct (hr_fwd _ _ Hr 0%nat c0 Hc0) as [c0' [Hc0' E0]].
    assert (Hmain : forall id c, lookup id (circuits rc) = Some c -> forall ins outs, length ins = num_inputs c -> run HI E (circuits rc') id ins outs true -> run RelI E (relax_cs (circuits rc)) id ins outs true).
    { apply (rank_ind rank (fun id => forall c, lookup id (circuits rc) = Some c -> forall ins outs, length ins = num_inputs c -> run HI E (circuits rc') id ins outs true -> run RelI E (relax_cs (circuits rc)) id ins outs true)).
      intros id IH c Hc ins0 outs0 Hl H. destruct (hr_fwd _ _ Hr id c Hc) as [c' [Hc' Ep]]. apply run_iff in H. destruct H as [c1 [vals [b0 [Hc1 [X1 [X2 [X3 [-> Hb]]]]]]]]. rewrite Hc' in Hc1. injection Hc1 as <-.
      symmetry in Hb. apply andb_true_iff in Hb. destruct Hb as [-> Hb].
      destruct (process_circuit_spec (num_public_inputs rc) c (wf_each _ _ W id c Hc) (Hv id c Hc)) as [E1|[c1 [E1 [_ [_ G]]]]]; [congruence|]. rewrite Ep in E1. injection E1 as <-.
      assert (exists B, process_body c = Ok B) as [B HB]. { unfold process_circuit in Ep. destruct (process_body c) as [B| | |]; try discriminate. eauto. }
      destruct (G B HB (Hk id c B Hc HB) E (relax_cs (circuits rc)) (circuits rc') ins0 Hl) with (vals := vals) as [sv [Y1 [Y2 [Y3 [Y4 Y5]]]]]; auto.
      - apply (wf_calls _ _ (wr_cs _ _ (hr_wf _ _ Hr)) id c' Hc').
      - intros i o l n ins1 outs1 Hin Hcall Hlen H. change (s_call F i) with (@i_call F SI i) in Hcall. pose proof (wf_calls _ _ W id c Hc) as Wl. rewrite Forall_forall in Wl. destruct (Wl i Hin o l n Hcall) as [co [C1 [C2 C3]]].
        apply (IH o) with (c := co); auto; [eapply R; eauto; eapply in_calls; eauto|lia].
      - apply run_iff. exists (relax c), sv, true. rewrite relax_lookup, Hc. split; auto. }
    destruct Hrun as [c1 [all [b [A [B [C [D [-> Hb]]]]]]]]. rewrite Hc0' in A. injection A as <-. symmetry in Hb. apply andb_true_iff in Hb. destruct Hb as [-> Hb].
    assert (Hn : num_inputs c0' = num_inputs c0).
    { destruct (process_circuit_spec (num_public_inputs rc) c0 (wf_each _ _ W 0%nat c0 Hc0) (Hv 0%nat c0 Hc0)) as [E1|[c1 [E1 [L _]]]]; [congruence|]. rewrite E0 in E1. injection E1 as <-. apply L. }
    rewrite (hr_zero _ _ Hr) in *. exists (relax c0), all, true. cbn [relax_root circuits expected_num_output_zeroes]. rewrite relax_lookup, Hc0. split; auto. cbn [relax num_inputs]. split; [congruence|]. split; [apply (Hmain 0%nat c0); auto; congruence|]. split; auto.
  Qed.
End HnCirc.
