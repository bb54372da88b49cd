(* What the builder's state means: pushing an instruction keeps the values (Builder.v). *)
From Verif Require Import Prelude Field Sorting Expr Topo Containers Hints Ir IrFacts IrInst Sim Builder BuilderFacts.

Section BSim.
  Context {F : Fld}.
  Add Field Fbs : (fth F).
  Open Scope fld_scope.
  Notation Expr := (list (Term F)).
  Notation Builder := (@Builder F).

  Record Bcore (B : Builder) : Prop := {
    bi_pool : pgood (b_pool B);
    bi_exprs : Forall (good (plen (b_pool B))) (b_exprs B);
    bi_0 : nth_error (b_exprs B) 0 = Some [t_default F];
    bi_m2o_len : (length (b_m2o B) <= plen (b_pool B))%nat;
    bi_m2o : forall i x k b, nth_error (b_m2o B) i = Some (Some (x, k, b)) -> (1 <= x < nvars B)%nat;
    bi_e2o : forall e o, eget e (b_e2o B) = Some o -> (1 <= o)%nat /\ nth_error (b_exprs B) o = Some e;
    bi_all : forall o e, (1 <= o)%nat -> nth_error (b_exprs B) o = Some e -> eget e (b_e2o B) <> None
  }.
  (* the values of the intermediate variables that explain the values of the circuit's variables *)
  Record Bv (B : Builder) (vals : list F) (m : nat -> F) : Prop := {
    bv_pool : Pval (b_pool B) m;
    bv_len : length vals = nvars B;
    bv_exprs : forall o e, nth_error (b_exprs B) o = Some e -> getv vals o = ev m e;
    bv_m2o : forall i x k b, nth_error (b_m2o B) i = Some (Some (x, k, b)) -> m i = k * getv vals x + b
  }.
  Definition same_rest (B B' : Builder) : Prop := b_cons B' = b_cons B /\ b_i2o B' = b_i2o B /\ b_log B' = b_log B.

  Lemma nvars_pos B : Bcore B -> (1 <= nvars B)%nat.
  Proof. intros H. pose proof (bi_0 _ H) as H0. apply nth_error_Some_lt in H0. unfold nvars. lia. Qed.
  Lemma Bcore_good B o e : Bcore B -> nth_error (b_exprs B) o = Some e -> good (plen (b_pool B)) e.
  Proof. intros H Hn. pose proof (bi_exprs _ H) as Hf. rewrite Forall_forall in Hf. apply Hf. eapply nth_error_In; eauto. Qed.
  Lemma nth_error_pad (m : list (option (nat * F * F))) k i o : nth_error (m ++ repeat None k) i = Some (Some o) -> nth_error m i = Some (Some o).
  Proof.
    intros H. destruct (lt_dec i (length m)) as [Hl|Hl]; [rewrite nth_error_app1 in H; auto|].
    rewrite nth_error_app2 in H by lia. pose proof (nth_error_In _ _ H) as Hi. apply repeat_spec in Hi. discriminate.
  Qed.
  Lemma nth_error_pad_ex (m : list (option (nat * F * F))) n i : (length m <= n)%nat -> (i < n)%nat -> exists o, nth_error (m ++ repeat None (n - length m)) i = Some o.
  Proof. intros H1 H2. apply nth_error_Some_ex. rewrite app_length, repeat_length. lia. Qed.

  (* ---------- growing the pool only ---------- *)
  Lemma pool_core B p : Bcore B -> pgrow (b_pool B) p -> Bcore (set_pool B p).
  Proof.
    intros [A1 A2 A3 A4 A5 A6 A7] G. pose proof (pgrow_len _ _ G). split; cbn [set_pool b_pool b_exprs b_m2o b_e2o]; auto.
    - apply G.
    - eapply Forall_impl; [|exact A2]. intros e He. apply (good_mono _ _ _ He); auto.
    - lia.
  Qed.
  Lemma pool_Bv B p vals m : Bcore B -> pgrow (b_pool B) p -> Bv B vals m -> exists m', Bv (set_pool B p) vals m' /\ forall x, (x < plen (b_pool B))%nat -> m' x = m x.
  Proof.
    intros C G [V1 V2 V3 V4]. destruct (pgrow_val _ _ m (bi_pool _ C) G V1) as [m' [A P]]. exists m'. split; auto.
    split; cbn [set_pool b_pool b_exprs b_m2o]; auto.
    - intros o e Hn. rewrite (V3 o e Hn). apply (ev_ext _ _ (plen (b_pool B))); [eapply Bcore_good; eauto|]. intros x Hx. symmetry; auto.
    - intros i x k b Hn. rewrite A; auto. apply nth_error_Some_lt in Hn. pose proof (bi_m2o_len _ C). lia.
  Qed.

  Definition bnd (B : Builder) (i : HInsn F) : Prop := Forall (fun x => (1 <= x < nvars B)%nat) (h_inputs F i).
  (* B' is B with one more instruction: i, or another one that does the same *)
  Record pushed (B B' : Builder) (i i' : HInsn F) : Prop := {
    pu_core : Bcore B';
    pu_insns : b_insns B' = b_insns B ++ [i'];
    pu_exprs : exists es, b_exprs B' = b_exprs B ++ es /\ length es = h_nout F i;
    pu_rest : same_rest B B';
    pu_nout : h_nout F i' = h_nout F i;
    pu_call : h_call F i' = h_call F i;
    pu_valid : forall q, h_validate F q i = true -> h_validate F q i' = true;
    pu_bnd : bnd B i';
    pu_sem : forall E vals m outs, Bv B vals m -> h_sem F E i' (getv vals) outs <-> h_sem F E i (getv vals) outs;
    pu_val : forall E vals m outs, Bv B vals m -> length outs = h_nout F i -> (h_call F i = None -> h_sem F E i (getv vals) outs) ->
      exists m', (forall x, (x < plen (b_pool B))%nat -> m' x = m x) /\ Bv B' (vals ++ outs) m'
  }.
  Lemma getv_app1 (a b : list F) x : (x < length a)%nat -> getv (a ++ b) x = getv a x.
  Proof. intros H. unfold getv. apply app_nth1; auto. Qed.
  Lemma getv_app2 (a b : list F) x : (length a <= x)%nat -> getv (a ++ b) x = getv b (x - length a).
  Proof. intros H. unfold getv. apply app_nth2; auto. Qed.

  (* ---------- one more variable with a known expression ---------- *)
  Lemma fix1_spec B p e (i : HInsn F) : Bcore B -> pgrow (b_pool B) p -> good (plen p) e -> h_nout F i = 1%nat -> h_call F i = None -> bnd B i ->
    (forall E vals m outs, Bv B vals m -> Pval p m -> h_sem F E i (getv vals) outs <-> outs = [ev m e]) ->
    exists B' i', fix_mid_to_out 1 (set_exprs (set_pool (set_insns B (b_insns B ++ [i])) p) (b_exprs B ++ [e])) = Some B' /\ pushed B B' i i'.
  Proof.
    intros C G Ge Hn Hc Hb Hsem. unfold fix_mid_to_out. cbn [seq fix_loop set_exprs set_pool set_insns b_exprs].
    rewrite app_length. cbn [length]. replace (1 <=? length (b_exprs B) + 1)%nat with true by (symmetry; apply Nat.leb_le; lia).
    cbn [obind]. replace (length (b_exprs B) + 1 - 1)%nat with (nvars B) by (unfold nvars; lia).
    unfold fix_one. cbn [set_exprs set_pool set_insns b_exprs b_e2o b_pool b_m2o b_insns]. rewrite nth_error_app2 by (unfold nvars; lia).
    unfold nvars at 1. rewrite Nat.sub_diag. cbn [nth_error obind].
    destruct (to_single_stripped_spec p e ltac:(apply G) Ge) as [p' [idx [c [k [E1 [G' Hcase]]]]]]. rewrite E1. cbn [obind].
    pose proof (pgrow_trans _ _ _ G G') as GG. pose proof (pgrow_len _ _ G) as L1. pose proof (pgrow_len _ _ G') as L2.
    (* pool values *)
    assert (Hpv : forall vals m, Bv B vals m -> exists m', (forall x, (x < plen (b_pool B))%nat -> m' x = m x) /\ Pval p' m' /\ Pval p m' /\ Bv B vals m').
    { intros vals m V. destruct (pool_Bv B p' vals m C GG V) as [m' [V' A]]. exists m'. split; auto. pose proof (bv_pool _ _ _ V') as P'. cbn [set_pool b_pool] in P'.
      split; auto. split; [eapply pgrow_Pval; eauto|]. destruct V' as [W1 W2 W3 W4]. split; auto. eapply pgrow_Pval; [|exact P']; auto. }
    assert (He2o : forall e1 o, eget e1 (eput e (nvars B) (b_e2o B)) = Some o -> (1 <= o)%nat /\ nth_error (b_exprs B ++ [e]) o = Some e1).
    { intros e1 o. rewrite eget_eput. destruct (e_eqb e e1) eqn:Ee.
      - apply e_eqb_spec in Ee. subst e1. intros H. injection H as <-. split; [apply nvars_pos; auto|]. unfold nvars. rewrite nth_error_app2, Nat.sub_diag by lia. auto.
      - intros H. destruct (bi_e2o _ C _ _ H) as [X Y]. split; auto. apply nth_error_app_l; auto. }
    assert (Hall : forall o e1, (1 <= o)%nat -> nth_error (b_exprs B ++ [e]) o = Some e1 -> eget e1 (eput e (nvars B) (b_e2o B)) <> None).
    { intros o e1 Ho H. rewrite eget_eput. destruct (e_eqb e e1) eqn:Ee; [discriminate|]. destruct (lt_dec o (length (b_exprs B))) as [Hl|Hl].
      - rewrite nth_error_app1 in H by auto. apply (bi_all _ C o); auto.
      - rewrite nth_error_app2 in H by lia. destruct (o - length (b_exprs B))%nat as [|j]; cbn in H; [|destruct j; discriminate]. injection H as <-. rewrite e_eqb_refl in Ee. discriminate. }
    assert (Hcore : forall l m2o, (length m2o <= plen p')%nat -> (forall j x k b, nth_error m2o j = Some (Some (x, k, b)) -> (1 <= x < S (nvars B))%nat) ->
       Bcore (set_fix (set_insns (set_exprs (set_pool (set_insns B (b_insns B ++ [i])) p) (b_exprs B ++ [e])) l) p' m2o (eput e (nvars B) (b_e2o B)))).
    { intros l m2o Hm1 Hm2. split; cbn [set_fix set_insns set_exprs set_pool b_pool b_exprs b_m2o b_e2o]; auto.
      - apply G'.
      - apply Forall_app. split; [|constructor; [apply (good_mono _ _ _ Ge); auto|constructor]]. eapply Forall_impl; [|exact (bi_exprs _ C)]. intros e1 He1. apply (good_mono _ _ _ He1). lia.
      - apply nth_error_app_l. apply C.
      - intros j x k0 b0 H. unfold nvars. cbn [set_fix set_insns set_exprs set_pool b_exprs]. rewrite app_length. cbn [length]. apply Hm2 in H. unfold nvars in H. lia. }
    assert (Hval : forall l m2o, (forall j x k b, nth_error m2o j = Some (Some (x, k, b)) -> nth_error (b_m2o B) j = Some (Some (x, k, b)) \/ (x = nvars B /\ forall m, Pval p' m -> m j = k * ev m e + b)) ->
       forall E vals m outs, Bv B vals m -> length outs = h_nout F i -> (h_call F i = None -> h_sem F E i (getv vals) outs) ->
       exists m', (forall x, (x < plen (b_pool B))%nat -> m' x = m x) /\ Bv (set_fix (set_insns (set_exprs (set_pool (set_insns B (b_insns B ++ [i])) p) (b_exprs B ++ [e])) l) p' m2o (eput e (nvars B) (b_e2o B))) (vals ++ outs) m').
    { intros l m2o Hm E vals m outs V _ Hs. specialize (Hs Hc). destruct (Hpv vals m V) as [m' [A [P' [P V']]]]. exists m'. split; auto.
      apply (Hsem E vals m' outs V' P) in Hs. subst outs. pose proof (bv_len _ _ _ V') as Hl. unfold nvars in Hl.
      split; cbn [set_fix set_insns set_exprs set_pool b_pool b_exprs b_m2o]; auto.
      - unfold nvars; cbn [set_fix set_insns set_exprs set_pool b_exprs]. rewrite !app_length. cbn [length]. lia.
      - intros o e1 H. destruct (lt_dec o (length (b_exprs B))) as [Ho|Ho].
        + rewrite nth_error_app1 in H by auto. rewrite getv_app1 by lia. apply V'; auto.
        + rewrite nth_error_app2 in H by lia. rewrite getv_app2 by lia. rewrite Hl. destruct (o - length (b_exprs B))%nat as [|j]; cbn in H; [|destruct j; discriminate]. injection H as <-. reflexivity.
      - intros j x k0 b0 H. destruct (Hm _ _ _ _ H) as [H1|[-> H1]].
        + pose proof (bi_m2o _ C _ _ _ _ H1) as Hx. unfold nvars in Hx. rewrite getv_app1 by lia. apply V'; auto.
        + unfold nvars. rewrite getv_app2 by lia. rewrite Hl, Nat.sub_diag. cbn [getv nth]. unfold getv; cbn [nth]. rewrite (H1 m' P'). ring. }
    assert (Hpad : forall j o, nth_error (b_m2o B ++ repeat None (plen p' - length (b_m2o B))) j = Some (Some o) -> nth_error (b_m2o B) j = Some (Some o)) by (intros; eapply nth_error_pad; eauto).
    assert (Hlen : (length (b_m2o B ++ repeat None (plen p' - length (b_m2o B))) <= plen p')%nat).
    { rewrite app_length, repeat_length. pose proof (bi_m2o_len _ C). lia. }
    assert (Hset : forall j, set_last (b_insns B ++ [i]) j = Some (b_insns B ++ [j])).
    { intros j. unfold set_last. destruct (b_insns B ++ [i]) eqn:Eq; [destruct (b_insns B); discriminate|]. rewrite <- Eq, removelast_last. auto. }
    assert (Hm0 : forall j x k0 b0, nth_error (b_m2o B ++ repeat None (plen p' - length (b_m2o B))) j = Some (Some (x, k0, b0)) -> (1 <= x < S (nvars B))%nat).
    { intros j x k0 b0 H. apply Hpad in H. apply (bi_m2o _ C) in H. lia. }
    destruct Hcase as [[-> [-> [-> ->]]]|[Hidx [Hc0 [Hev _]]]].
    - cbn [Nat.eqb]. replace (is0 F 0) with true by (symmetry; apply is0_spec; auto). cbn [andb]. rewrite Hset. cbn [obind fst snd].
      eexists _, (HLin (lc_kxb 0 0 k)). split; [reflexivity|]. split; cbn [set_fix set_insns set_exprs set_pool b_insns b_exprs]; auto.
      + exists [e_const F k]. split; auto.
      + repeat split.
      + constructor.
      + intros E vals m outs V. cbn [h_sem]. destruct (Hpv vals m V) as [m' [A [P' [P V']]]]. rewrite (Hsem E vals m' outs V' P), ev_const. reflexivity.
      + apply Hval. intros j x k0 b0 H. left; auto.
    - assert (Hi0 : Nat.eqb idx 0 = false) by (apply Nat.eqb_neq; lia). rewrite Hi0.
      destruct (nth_error_pad_ex (b_m2o B) (plen p') idx ltac:(pose proof (bi_m2o_len _ C); lia) ltac:(lia)) as [o Ho]. rewrite Ho. cbn [obind].
      destruct o as [[[x ok] ob]|].
      + cbn [Nat.eqb]. rewrite Hset. cbn [obind fst snd fix_loop]. pose proof (Hpad _ _ Ho) as Ho'. pose proof (bi_m2o _ C _ _ _ _ Ho') as Hx.
        eexists _, (HLin (lc_kxb x (ok * c) (ob * c + k))). split; [reflexivity|]. split; cbn [set_fix set_insns set_exprs set_pool b_insns b_exprs]; auto.
        * exists [e]. split; auto.
        * repeat split.
        * unfold bnd. cbn [h_inputs]. apply Forall_forall. intros y Hy. apply lc_kxb_vars in Hy. destruct Hy as [<-|[]]. auto.
        * intros E vals m outs V. cbn [h_sem]. destruct (Hpv vals m V) as [m' [A [P' [P V']]]]. rewrite (Hsem E vals m' outs V' P). rewrite lc_kxb_eval by lia.
          rewrite (Hev m' P'), (bv_m2o _ _ _ V' _ _ _ _ Ho'). replace (getv vals x * (ok * c) + (ob * c + k)) with ((ok * getv vals x + ob) * c + k) by ring. reflexivity.
        * apply Hval. intros j y k0 b0 H. left; auto.
      + replace (is0 F c) with false by (symmetry; apply not_true_is_false; intros H; apply is0_spec in H; auto). cbn [obind fst snd fix_loop].
        eexists _, i. split; [reflexivity|].
        assert (Hupd : forall j x k0 b0, nth_error (upd (b_m2o B ++ repeat None (plen p' - length (b_m2o B))) idx (Some (nvars B, finv c, - finv c * k))) j = Some (Some (x, k0, b0)) ->
          nth_error (b_m2o B) j = Some (Some (x, k0, b0)) \/ (j = idx /\ x = nvars B /\ k0 = finv c /\ b0 = - finv c * k)).
        { intros j x k0 b0 H. destruct (Nat.eq_dec j idx) as [->|Hj].
          - rewrite nth_error_upd_eq in H by (apply nth_error_Some_lt in Ho; auto). injection H as <- <- <-. auto.
          - rewrite nth_error_upd_ne in H by auto. left; auto. }
        assert (HB : set_fix (set_exprs (set_pool (set_insns B (b_insns B ++ [i])) p) (b_exprs B ++ [e])) p' (upd (b_m2o B ++ repeat None (plen p' - length (b_m2o B))) idx (Some (nvars B, finv c, - finv c * k))) (eput e (nvars B) (b_e2o B))
          = set_fix (set_insns (set_exprs (set_pool (set_insns B (b_insns B ++ [i])) p) (b_exprs B ++ [e])) (b_insns B ++ [i])) p' (upd (b_m2o B ++ repeat None (plen p' - length (b_m2o B))) idx (Some (nvars B, finv c, - finv c * k))) (eput e (nvars B) (b_e2o B))) by reflexivity.
        rewrite HB. split; cbn [set_fix set_insns set_exprs set_pool b_insns b_exprs]; auto.
        * apply Hcore; [rewrite upd_length; auto|]. intros j x k0 b0 H. destruct (Hupd _ _ _ _ H) as [H1|[_ [-> _]]]; [apply (bi_m2o _ C) in H1; lia|pose proof (nvars_pos _ C); lia].
        * exists [e]. split; auto.
        * repeat split.
        * reflexivity.
        * apply Hval. intros j x k0 b0 H. destruct (Hupd _ _ _ _ H) as [H1|[-> [-> [-> ->]]]]; auto. right. split; auto. intros m P'. rewrite (Hev m P'). field. auto.
  Qed.

  (* ---------- fresh variables ---------- *)
  Definition fresh (P n : nat) : list Expr := map (e_linear F 1) (seq P n).
  Lemma fresh_nth P n q : (q < n)%nat -> nth_error (fresh P n) q = Some (e_linear F 1 (P + q)).
  Proof. intros H. unfold fresh. rewrite nth_error_map, nth_error_seq by auto. auto. Qed.
  Lemma fresh_inv P n q e : nth_error (fresh P n) q = Some e -> (q < n)%nat /\ e = e_linear F 1 (P + q).
  Proof. intros H. pose proof (nth_error_Some_lt _ _ _ H) as L. unfold fresh in L. rewrite map_length, seq_length in L. split; auto. rewrite fresh_nth in H by auto. congruence. Qed.
  Lemma fresh_len P n : length (fresh P n) = n.
  Proof. unfold fresh. rewrite map_length, seq_length. auto. Qed.
  Lemma lin_inj a b : e_linear F 1 a = e_linear F 1 b -> a = b.
  Proof. unfold e_linear, t_linear. intros H. injection H as ->. auto. Qed.
  Lemma lin_vars (c : F) x : e_vars F (e_linear F c x) = [x].
  Proof. reflexivity. Qed.

  Lemma new_var_spec p : pgood p -> exists p', new_var p = Some (p', plen p) /\ pgood p' /\ pvec Expr p' = pvec Expr p ++ [e_linear F 1 (plen p)].
  Proof.
    intros G. unfold new_var, padd. pose proof (pool_add_spec Expr e_eqb e_eqb_spec p (e_linear F 1 (plen p)) (pg_inv _ G)) as Hs.
    unfold pool_add in *. destruct (pfind Expr e_eqb (e_linear F 1 (plen p)) (pmap Expr p)) as [i|] eqn:Ef.
    - exfalso. apply (proj2 (pg_inv _ G)) in Ef. pose proof (nth_error_Some_lt _ _ _ Ef) as Hi. destruct i as [|i].
      + pose proof (pg_0 _ G) as H0. unfold pnth in H0. rewrite Ef in H0. discriminate.
      + destruct (pg_each _ G (S i) _ ltac:(lia) Ef) as [H|H].
        * pose proof (g_vars _ _ H (plen p)) as Hv. rewrite lin_vars in Hv. specialize (Hv (or_introl eq_refl)). unfold plen in *. lia.
        * apply lin_inj in H. unfold plen in *. lia.
    - destruct Hs as [A [B [C D]]]. unfold plen. rewrite Nat.eqb_refl. eexists. split; [reflexivity|]. cbn [pvec]. split; auto. split; auto.
      + apply (C 0%nat []). exact (pg_0 _ G).
      + intros i e Hi He. unfold pnth in He. cbn [pvec] in He. destruct (lt_dec i (length (pvec Expr p))) as [Hl|Hl].
        * rewrite nth_error_app1 in He by auto. apply (pg_each _ G); auto.
        * rewrite nth_error_app2 in He by lia. destruct (i - length (pvec Expr p))%nat as [|j] eqn:Ej; cbn in He; [|destruct j; discriminate]. injection He as <-. right. f_equal. lia.
  Qed.
  Lemma out_vars_loop_spec n : forall p es, pgood p -> exists p', out_vars_loop n p es = Some (p', es ++ fresh (plen p) n) /\ pgood p' /\ pvec Expr p' = pvec Expr p ++ fresh (plen p) n.
  Proof.
    induction n as [|n IH]; intros p es G; cbn [out_vars_loop].
    - exists p. unfold fresh; cbn [seq map]. rewrite !app_nil_r. auto.
    - destruct (new_var_spec p G) as [p1 [E1 [G1 V1]]]. rewrite E1. cbn [obind fst snd]. destruct (IH p1 (es ++ [e_linear F 1 (plen p)]) G1) as [p2 [E2 [G2 V2]]].
      exists p2. assert (Hl : plen p1 = S (plen p)) by (unfold plen; rewrite V1, app_length; cbn [length]; lia).
      rewrite E2, V2, V1, Hl. unfold fresh. cbn [seq map]. rewrite <- !app_assoc. cbn [app]. auto.
  Qed.

  Record finv (B : Builder) (p' : Pool Expr) (n j : nat) (B' : Builder) : Prop := {
    fi_exprs : b_exprs B' = b_exprs B ++ fresh (plen (b_pool B)) n;
    fi_pool : b_pool B' = p';
    fi_insns : b_insns B' = b_insns B;
    fi_rest : same_rest B B';
    fi_len : (length (b_m2o B') <= plen p')%nat;
    fi_m2o : forall i x k b, nth_error (b_m2o B') i = Some (Some (x, k, b)) -> nth_error (b_m2o B) i = Some (Some (x, k, b)) \/
      exists q, (n - j <= q < n)%nat /\ i = (plen (b_pool B) + q)%nat /\ x = (nvars B + q)%nat /\ k = Field.finv 1 /\ b = - Field.finv 1 * 0;
    fi_e2o : forall e o, eget e (b_e2o B') = Some o -> eget e (b_e2o B) = Some o \/ exists q, (n - j <= q < n)%nat /\ o = (nvars B + q)%nat /\ e = e_linear F 1 (plen (b_pool B) + q);
    fi_e2o1 : forall e, eget e (b_e2o B) <> None -> eget e (b_e2o B') <> None;
    fi_e2o2 : forall q, (n - j <= q < n)%nat -> eget (e_linear F 1 (plen (b_pool B) + q)) (b_e2o B') <> None
  }.
  Lemma one_nz : (1 : F) <> 0.
  Proof. apply (F_1_neq_0 (fth F)). Qed.
  Lemma fix_loop_fresh B p' n : Bcore B -> pgood p' -> pvec Expr p' = pvec Expr (b_pool B) ++ fresh (plen (b_pool B)) n ->
    forall r j B1, (j + r = n)%nat -> finv B p' n j B1 -> exists B2, fix_loop n B1 (seq (S j) r) = Some B2 /\ finv B p' n n B2.
  Proof.
    intros C G' Hp'. assert (Hpl : plen p' = (plen (b_pool B) + n)%nat) by (unfold plen; rewrite Hp', app_length, fresh_len; auto).
    induction r as [|r IH]; intros j B1 Hj I1; cbn [seq fix_loop].
    - exists B1. split; auto. replace n with j at 2 by lia. auto.
    - destruct I1 as [I1 I2 I3 I4 I5 I6 I7 I8 I9]. pose proof (pgood_len _ (bi_pool _ C)) as Hpos. set (P := plen (b_pool B)) in *.
      assert (HL : length (b_exprs B1) = (nvars B + n)%nat) by (rewrite I1, app_length, fresh_len; auto).
      rewrite HL. replace (S j <=? nvars B + n)%nat with true by (symmetry; apply Nat.leb_le; lia). cbn [obind].
      set (q := (n - S j)%nat). replace (nvars B + n - S j)%nat with (nvars B + q)%nat by (unfold q; lia).
      unfold fix_one. rewrite I1. rewrite nth_error_app2 by (unfold nvars; lia). replace (nvars B + q - length (b_exprs B))%nat with q by (unfold nvars; lia).
      rewrite fresh_nth by (unfold q; lia). cbn [obind]. rewrite I2.
      assert (Hin : pnth p' (P + q) = Some (e_linear F 1 (P + q))).
      { unfold pnth. rewrite Hp'. rewrite nth_error_app2 by (unfold P, plen; lia). replace (P + q - length (pvec Expr (b_pool B)))%nat with q by (unfold P, plen; lia). apply fresh_nth. unfold q; lia. }
      destruct (to_single_stripped_spec p' (e_linear F 1 (P + q)) G') as [p2 [idx [c [k [E1 [_ Hcase]]]]]].
      { apply good_linear; [apply one_nz|]. unfold q in *. lia. }
      destruct Hcase as [[_ [_ [He _]]]|[Hidx [_ [_ Hx]]]]; [discriminate|]. destruct (Hx _ eq_refl Hin) as [-> [-> [-> ->]]]. rewrite E1. cbn [obind].
      replace (Nat.eqb (P + q) 0) with false by (symmetry; apply Nat.eqb_neq; lia).
      destruct (nth_error_pad_ex (b_m2o B1) (plen p') (P + q) I5 ltac:(unfold q; lia)) as [o Ho]. rewrite Ho. cbn [obind].
      destruct o as [[[x ok] ob]|].
      { exfalso. apply nth_error_pad in Ho. destruct (I6 _ _ _ _ Ho) as [H|[q' [H1 [H2 _]]]]; [|unfold q in *; lia].
        apply nth_error_Some_lt in H. pose proof (bi_m2o_len _ C) as Hm. fold P in Hm. lia. }
      replace (is0 F 1) with false by (symmetry; apply not_true_is_false; intros H; apply is0_spec in H; apply one_nz; auto). cbn [obind fst snd].
      apply IH; [lia|]. split; cbn [set_fix b_exprs b_pool b_insns b_m2o b_e2o]; auto.
      + rewrite upd_length, app_length, repeat_length. lia.
      + intros i x k0 b0 H. rewrite nth_error_upd in H. destruct (Nat.eqb_spec (P + q) i) as [<-|Hne]; cbn [andb] in H.
        * destruct (_ <? _)%nat; [|rewrite Ho in H; discriminate]. injection H as <- <- <-. right. exists q. unfold q. repeat split; auto; lia.
        * apply nth_error_pad in H. destruct (I6 _ _ _ _ H) as [H1|[q' [H1 H2]]]; auto. right. exists q'. split; [lia|auto].
      + intros e o H. rewrite eget_eput in H. destruct (e_eqb _ e) eqn:Ee.
        * apply e_eqb_spec in Ee. subst e. injection H as <-. right. exists q. split; [unfold q; lia|auto].
        * destruct (I7 _ _ H) as [H1|[q' [H1 H2]]]; auto. right. exists q'. split; [lia|auto].
      + intros e H. rewrite eget_eput. destruct (e_eqb _ e); [discriminate|auto].
      + intros q' Hq'. rewrite eget_eput. destruct (e_eqb _ _) eqn:Ee; [discriminate|]. apply I9. destruct (Nat.eq_dec q' q) as [->|]; [rewrite e_eqb_refl in Ee; discriminate|]. unfold q in *. lia.
  Qed.
  Lemma add_out_vars_spec B n : Bcore B -> exists B', add_out_vars B n = Some B' /\ Bcore B' /\ b_insns B' = b_insns B /\ b_exprs B' = b_exprs B ++ fresh (plen (b_pool B)) n /\ same_rest B B' /\
    forall vals m outs, Bv B vals m -> length outs = n -> exists m', (forall x, (x < plen (b_pool B))%nat -> m' x = m x) /\ Bv B' (vals ++ outs) m'.
  Proof.
    intros C. unfold add_out_vars. destruct (out_vars_loop_spec n (b_pool B) (b_exprs B) (bi_pool _ C)) as [p' [E1 [G' Hp']]]. rewrite E1. cbn [obind fst snd].
    assert (Hpl : plen p' = (plen (b_pool B) + n)%nat) by (unfold plen; rewrite Hp', app_length, fresh_len; auto).
    unfold fix_mid_to_out. destruct (fix_loop_fresh B p' n C G' Hp' n 0 (set_exprs (set_pool B p') (b_exprs B ++ fresh (plen (b_pool B)) n)) eq_refl) as [B2 [E2 I2]].
    { split; cbn [set_exprs set_pool b_exprs b_pool b_insns b_m2o b_e2o]; auto.
      - repeat split. - pose proof (bi_m2o_len _ C). lia. - intros q Hq. lia. }
    rewrite E2. exists B2. destruct I2 as [I1 I2 I3 I4 I5 I6 I7 I8 I9]. pose proof (nvars_pos _ C) as Hnv. pose proof (pgood_len _ (bi_pool _ C)) as Hpos. set (P := plen (b_pool B)) in *.
    assert (Hnv2 : nvars B2 = (nvars B + n)%nat) by (unfold nvars; rewrite I1, app_length, fresh_len; auto).
    split; auto. split; [|split; [auto|split; [auto|split; [auto|]]]].
    - split.
      + rewrite I2; auto.
      + rewrite I1, I2. apply Forall_app. split.
        * eapply Forall_impl; [|exact (bi_exprs _ C)]. intros e He. apply (good_mono _ _ _ He). fold P. lia.
        * apply Forall_forall. intros e He. apply In_nth_error in He. destruct He as [q Hq]. apply fresh_inv in Hq. destruct Hq as [Hq ->]. apply good_linear; [apply one_nz|lia].
      + rewrite I1. apply nth_error_app_l. apply C.
      + rewrite I2. auto.
      + intros i x k b H. destruct (I6 _ _ _ _ H) as [H1|[q [H1 [_ [-> _]]]]]; [apply (bi_m2o _ C) in H1|]; lia.
      + intros e o H. rewrite I1. destruct (I7 _ _ H) as [H1|[q [H1 [-> ->]]]].
        * destruct (bi_e2o _ C _ _ H1) as [X Y]. split; auto. apply nth_error_app_l; auto.
        * split; [lia|]. rewrite nth_error_app2 by (unfold nvars; lia). replace (nvars B + q - length (b_exprs B))%nat with q by (unfold nvars; lia). apply fresh_nth. lia.
      + intros o e Ho. rewrite I1. intros H. destruct (lt_dec o (length (b_exprs B))) as [Hl|Hl].
        * rewrite nth_error_app1 in H by auto. apply I8. apply (bi_all _ C o); auto.
        * rewrite nth_error_app2 in H by lia. apply fresh_inv in H. destruct H as [Hq ->]. apply I9. lia.
    - intros vals m outs V Hlo. exists (fun x => if (P <=? x)%nat && (x <? P + n)%nat then getv outs (x - P) else m x).
      assert (A : forall x, (x < P)%nat -> (if (P <=? x)%nat && (x <? P + n)%nat then getv outs (x - P) else m x) = m x).
      { intros x Hx. destruct (Nat.leb_spec P x); [lia|auto]. }
      assert (Afr : forall q, (q < n)%nat -> (if (P <=? P + q)%nat && (P + q <? P + n)%nat then getv outs (P + q - P) else m (P + q)%nat) = getv outs q).
      { intros q Hq. replace (P <=? P + q)%nat with true by (symmetry; apply Nat.leb_le; lia). replace (P + q <? P + n)%nat with true by (symmetry; apply Nat.ltb_lt; lia). cbn [andb]. f_equal. lia. }
      split; auto. pose proof (bv_len _ _ _ V) as Hvl. split.
      + rewrite I2. intros i e Hi He. unfold pnth in He. rewrite Hp' in He. destruct (lt_dec i P) as [Hl|Hl].
        * rewrite nth_error_app1 in He by auto. rewrite (A i Hl). rewrite <- (bv_pool _ _ _ V i e Hi He). destruct (pg_each _ (bi_pool _ C) i e Hi He) as [Ge| ->].
          -- apply (ev_ext _ _ i _ Ge). intros x Hx. apply A. lia.
          -- rewrite !ev_lin, (A i Hl). auto.
        * rewrite nth_error_app2 in He by (unfold P, plen in *; lia). apply fresh_inv in He. destruct He as [_ ->]. rewrite ev_lin. fold (plen (b_pool B)). fold P. replace (P + (i - P))%nat with i by lia. ring.
      + rewrite app_length, Hvl, Hlo, Hnv2. auto.
      + intros o e. rewrite I1. intros H. destruct (lt_dec o (length (b_exprs B))) as [Hl|Hl].
        * rewrite nth_error_app1 in H by auto. rewrite getv_app1 by (rewrite Hvl; auto). rewrite (bv_exprs _ _ _ V _ _ H).
          apply (ev_ext _ _ P); [eapply Bcore_good; eauto|]. intros x Hx. symmetry. auto.
        * rewrite nth_error_app2 in H by lia. apply fresh_inv in H. destruct H as [Hq ->]. rewrite getv_app2 by (rewrite Hvl; unfold nvars; lia). rewrite ev_lin, Hvl. unfold nvars. rewrite Afr by auto. ring.
      + intros i x k b H. destruct (I6 _ _ _ _ H) as [H1|[q [H1 [-> [-> [-> ->]]]]]].
        * rewrite A by (apply nth_error_Some_lt in H1; pose proof (bi_m2o_len _ C) as Hm; fold P in Hm; lia). apply (bi_m2o _ C) in H1 as Hx. rewrite getv_app1 by (rewrite Hvl; lia). apply (bv_m2o _ _ _ V _ _ _ _ H1).
        * rewrite Afr by lia. rewrite getv_app2 by lia. rewrite Hvl. replace (nvars B + q - nvars B)%nat with q by lia. field. apply one_nz.
  Qed.

  (* ---------- pushing an instruction ---------- *)
  Lemma core_insns B l : Bcore B -> Bcore (set_insns B l).
  Proof. intros [A1 A2 A3 A4 A5 A6 A7]. split; auto. Qed.
  Lemma Bv_insns B l vals m : Bv B vals m <-> Bv (set_insns B l) vals m.
  Proof. split; intros [A1 A2 A3 A4]; split; auto. Qed.
  Lemma exprs_omap B l : Bcore B -> Forall (fun x => (1 <= x < nvars B)%nat) l ->
    exists es, omap (fun x => nth_error (b_exprs B) x) l = Some es /\ Forall (good (plen (b_pool B))) es /\
      forall vals m, Bv B vals m -> map (ev m) es = map (getv vals) l.
  Proof.
    intros C H. induction H as [|x l Hx H IH]; cbn [omap].
    - exists []. split; [auto|split; auto].
    - destruct IH as [es [E1 [E2 E3]]]. destruct (nth_error (b_exprs B) x) as [e|] eqn:Ex; [|apply nth_error_None in Ex; unfold nvars in Hx; lia].
      cbn [obind]. rewrite E1. cbn [obind]. exists (e :: es). split; auto. split; [constructor; auto; eapply Bcore_good; eauto|].
      intros vals m V. cbn [map]. rewrite (E3 _ _ V), (bv_exprs _ _ _ V _ _ Ex). auto.
  Qed.
  Lemma lin_omap B (l : list (nat * F)) : Bcore B -> Forall (fun x => (1 <= x < nvars B)%nat) (map fst l) ->
    exists ops, omap (fun t : nat * F => let* e := nth_error (b_exprs B) (fst t) in Some (e, snd t)) l = Some ops /\ Forall (fun x => good (plen (b_pool B)) (fst x)) ops /\
      forall vals m, Bv B vals m -> lval m ops = fsum F (map (fun t => getv vals (fst t) * snd t) l).
  Proof.
    intros C. induction l as [|[x c] l IH]; intros H; cbn [map omap fst snd] in *.
    - exists []. split; [auto|split; auto].
    - inversion H as [|? ? Hx H2]; subst. destruct (IH H2) as [ops [E1 [E2 E3]]]. destruct (nth_error (b_exprs B) x) as [e|] eqn:Ex; [|apply nth_error_None in Ex; unfold nvars in Hx; lia].
      cbn [obind]. rewrite E1. cbn [obind]. exists ((e, c) :: ops). split; auto. split; [constructor; auto; cbn [fst]; eapply Bcore_good; eauto|].
      intros vals m V. rewrite lval_cons, (E3 _ _ V). cbn [fst snd]. rewrite (bv_exprs _ _ _ V _ _ Ex). unfold fsum. cbn [fold_right]. auto.
  Qed.
  Lemma mul_eval_fprod g l : mul_eval g l = fprod F (map g l).
  Proof. rewrite mul_eval_prod. unfold fprod. induction l as [|x l IH]; cbn [fold_right map]; auto. rewrite IH; auto. Qed.

  Lemma fresh_pushed B B' (i : HInsn F) : bnd B i -> Bcore B' -> b_insns B' = b_insns B ++ [i] -> b_exprs B' = b_exprs B ++ fresh (plen (b_pool B)) (h_nout F i) -> same_rest B B' ->
    (forall vals m outs, Bv B vals m -> length outs = h_nout F i -> exists m', (forall x, (x < plen (b_pool B))%nat -> m' x = m x) /\ Bv B' (vals ++ outs) m') -> pushed B B' i i.
  Proof.
    intros Hb C I X R V. split; auto.
    - eexists. split; [exact X|]. apply fresh_len.
    - reflexivity.
  Qed.
  Lemma out_pushed B (i : HInsn F) : Bcore B -> bnd B i -> exists B', add_out_vars (set_insns B (b_insns B ++ [i])) (h_nout F i) = Some B' /\ pushed B B' i i.
  Proof.
    intros C Hb. destruct (add_out_vars_spec (set_insns B (b_insns B ++ [i])) (h_nout F i) (core_insns _ _ C)) as [B' [E1 [C' [I [X [R V]]]]]].
    exists B'. split; auto. apply fresh_pushed; auto. intros vals m outs HV Hl. apply (V vals m outs); auto. apply Bv_insns; auto.
  Qed.
  Lemma call_inputs_spec l : forall B, Bcore B -> Forall (fun x => (1 <= x < nvars B)%nat) l -> exists p, call_inputs B l = Some (set_pool B p) /\ pgrow (b_pool B) p.
  Proof.
    induction l as [|x l IH]; intros B C H; cbn [call_inputs].
    - exists (b_pool B). split; [destruct B; auto|apply pgrow_refl; apply C].
    - inversion H as [|? ? Hx H2]; subst. destruct (nth_error (b_exprs B) x) as [e|] eqn:Ex; [|apply nth_error_None in Ex; unfold nvars in Hx; lia]. cbn [obind].
      destruct (to_really_single_spec (b_pool B) e (bi_pool _ C) ltac:(eapply Bcore_good; eauto)) as [p1 [e1 [E1 G1]]]. rewrite E1. cbn [obind fst].
      destruct (IH (set_pool B p1) (pool_core _ _ C G1) H2) as [p2 [E2 G2]]. exists p2. split; [rewrite E2; auto|]. apply (pgrow_trans _ _ _ G1 G2).
  Qed.

  Lemma push_spec B (i : HInsn F) : Bcore B -> bnd B i -> (forall l, i = HMul l -> (2 <= length l)%nat) -> exists B' i', push_insn B i = Some B' /\ pushed B B' i i'.
  Proof.
    intros C Hb Hm. unfold push_insn. set (B0 := set_insns B (b_insns B ++ [i])). destruct i as [l|l|h l n|c|id l n|gt l]; cbn [execute_out].
    - unfold add_lin_comb. destruct (lin_omap B (lc_terms l) C Hb) as [ops [E1 [G1 V1]]]. cbn [B0 set_insns b_exprs]. unfold B0. cbn [set_insns b_exprs b_pool]. rewrite E1. cbn [obind].
      set (ops2 := ops ++ (if is0 F (lc_const l) then [] else [(e_const F (lc_const l), 1)])).
      destruct (lin_comb_inner_spec (b_pool B) ops2 (bi_pool _ C)) as [p [e [E2 [G2 [G3 V2]]]]].
      { unfold ops2. apply Forall_app. split; auto. destruct (is0 F (lc_const l)); constructor; auto. apply good_const. }
      rewrite E2. cbn [obind fst snd]. apply (fix1_spec B p e (HLin l) C G2 G3); auto.
      intros E vals m outs V P. cbn [h_sem]. rewrite (V2 m P). unfold ops2. rewrite lval_app, (V1 _ _ V), lc_eval_sum.
      assert (Hk : lval m (if is0 F (lc_const l) then [] else [(e_const F (lc_const l), 1)]) = lc_const l).
      { destruct (is0 F (lc_const l)) eqn:Ek; [apply is0_spec in Ek; rewrite Ek; reflexivity|]. unfold lval, fsum. cbn [map fold_right fst snd]. rewrite ev_const. ring. }
      rewrite Hk. match goal with |- _ = [?a] <-> _ = [?b] => replace a with b by ring end. reflexivity.
    - unfold add_mul_vec. unfold B0. cbn [set_insns b_exprs b_pool]. destruct (exprs_omap B l C Hb) as [es [E1 [G1 V1]]]. rewrite E1. cbn [obind].
      assert (Hl : length es = length l) by (eapply omap_length; eauto).
      specialize (Hm l eq_refl). pose proof (isort_perm e_leb es) as Hp. destruct (isort e_leb es) as [|a [|b rest]] eqn:Es.
      1,2: apply Permutation_length in Hp; cbn [length] in Hp; exfalso; rewrite Hl in Hp; lia.
      assert (G1' : Forall (good (plen (b_pool B))) (a :: b :: rest)) by (eapply Permutation_Forall; [apply Permutation_sym; exact Hp|auto]).
      inversion G1' as [|? ? Ga G1'']; subst. inversion G1'' as [|? ? Gb Gr]; subst.
      destruct (mul_two_expr_spec (b_pool B) a b (bi_pool _ C) Ga Gb) as [p1 [e1 [E2 [G2 [G3 V2]]]]]. rewrite E2. cbn [obind fst snd].
      destruct (mul_rest_spec rest p1 e1 ltac:(apply G2) G3) as [p2 [e2 [E3 [G4 [G5 V3]]]]].
      { eapply Forall_impl; [|exact Gr]. intros e He. apply (good_mono _ _ _ He). apply pgrow_len; auto. }
      rewrite E3. cbn [obind fst snd]. apply (fix1_spec B p2 e2 (HMul l) C (pgrow_trans _ _ _ G2 G4) G5); auto.
      intros E vals m outs V P. cbn [h_sem]. rewrite (V3 m P), (V2 m (pgrow_Pval _ _ _ G4 P)), mul_eval_fprod, <- (V1 _ _ V).
      rewrite (fprod_perm F (map (ev m) es) (map (ev m) (a :: b :: rest))) by (apply Permutation_map; apply Permutation_sym; auto).
      unfold fprod. cbn [map fold_right]. match goal with |- _ = [?a] <-> _ = [?b] => replace a with b by ring end. reflexivity.
    - destruct (out_pushed B (HHint h l n) C Hb) as [B' [E1 P1]]. exists B', (HHint h l n). auto.
    - destruct c as [c| |c].
      + unfold add_const. unfold B0. apply (fix1_spec B (b_pool B) (e_const F c) (HConst (CConst c)) C (pgrow_refl _ (bi_pool _ C)) (good_const _ _)); auto.
        intros E vals m outs V P. cbn [h_sem]. unfold const_sem. rewrite ev_const. cbn [coef_sem]. split; [intros [v [-> ->]]; auto|intros ->; eauto].
      + destruct (out_pushed B (HConst CRandom) C Hb) as [B' [E1 P1]]. eexists _, _. split; [exact E1|eauto].
      + destruct (out_pushed B (HConst (CPub c)) C Hb) as [B' [E1 P1]]. eexists _, _. split; [exact E1|eauto].
    - unfold sub_circuit_call. destruct (call_inputs_spec l B0 (core_insns _ _ C) Hb) as [p [E1 G1]]. rewrite E1. cbn [obind].
      destruct (add_out_vars_spec (set_pool B0 p) n (pool_core _ _ (core_insns _ _ C) G1)) as [B' [E2 [C' [I [X [R V]]]]]]. exists B', (HCall id l n). split; auto. cbn [set_pool b_pool b_exprs] in X. split; auto.
      + exists (fresh (plen p) n). split; [exact X|apply fresh_len].
      + reflexivity.
      + intros E vals m outs HV Hl _. assert (HV2 : Bv B0 vals m) by (apply Bv_insns; auto). destruct (pool_Bv B0 p vals m (core_insns _ _ C) G1 HV2) as [m1 [V1 A1]].
        destruct (V vals m1 outs V1 Hl) as [m2 [A2 V2]]. exists m2. split; auto. intros x Hx. cbn [set_pool b_pool] in A2. rewrite A2; auto. pose proof (pgrow_len _ _ G1) as Hg. cbn [B0 set_insns b_pool] in Hg. unfold B0 in Hg. cbn [set_insns b_pool] in Hg. lia.
    - destruct (out_pushed B (HGate gt l) C Hb) as [B' [E1 P1]]. exists B', (HGate gt l). auto.
  Qed.
End BSim.
