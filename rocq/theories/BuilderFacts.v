(* Facts about the expressions and the pool of intermediate variables of the builder (Builder.v). *)
From Verif Require Import Prelude Field Sorting Expr Topo Containers Hints Ir IrFacts IrInst Sim Builder.

Section Facts.
  Context {F : Fld}.
  Add Field Fbf : (fth F).
  Open Scope fld_scope.
  Notation Expr := (list (Term F)).
  Notation tm c v := {| coef := c; vars := v |}.

  Lemma term_eqb_spec (a b : Term F) : term_eqb a b = true <-> a = b.
  Proof.
    unfold term_eqb. rewrite andb_true_iff, feqb_spec, vs_eqb_spec. destruct a, b; cbn. split; [intros [-> ->]; auto|intros H; inversion H; auto].
  Qed.
  Lemma e_eqb_spec (a b : Expr) : e_eqb a b = true <-> a = b.
  Proof.
    revert b. induction a as [|x a IH]; intros [|y b]; cbn; try (split; [discriminate|discriminate]); [split; auto|].
    rewrite andb_true_iff, term_eqb_spec, IH. split; [intros [-> ->]; auto|intros H; inversion H; auto].
  Qed.
  Lemma e_eqb_refl (a : Expr) : e_eqb a a = true.
  Proof. apply e_eqb_spec; auto. Qed.
  Lemma eget_eput {A} (k k' : Expr) (v : A) m : eget k' (eput k v m) = if e_eqb k k' then Some v else eget k' m.
  Proof.
    induction m as [|[k2 v2] m IH]; cbn; auto. destruct (e_eqb k2 k) eqn:E2; cbn.
    - apply e_eqb_spec in E2. subst. destruct (e_eqb k k'); auto.
    - rewrite IH. destruct (e_eqb k2 k') eqn:E3; auto. destruct (e_eqb k k') eqn:E4; auto. apply e_eqb_spec in E3, E4. subst. rewrite e_eqb_refl in E2; discriminate.
  Qed.
  Lemma eget_app {A} (k : Expr) (m m' : list (Expr * A)) : eget k (m ++ m') = match eget k m with Some v => Some v | None => eget k m' end.
  Proof. induction m as [|[k2 v2] m IH]; cbn; auto. destruct (e_eqb k2 k); auto. Qed.
  Lemma eget_eput_new {A} (k k' : Expr) (v : A) m :
    eget k' (eput_new k v m) = match eget k' m with Some w => Some w | None => if e_eqb k k' then Some v else None end.
  Proof.
    unfold eput_new. destruct (eget k m) eqn:E.
    - destruct (eget k' m) eqn:E2; auto. destruct (e_eqb k k') eqn:E3; auto. apply e_eqb_spec in E3. congruence.
    - rewrite eget_app. destruct (eget k' m); auto.
  Qed.
  Lemma eget_keys {A} (k : Expr) (m : list (Expr * A)) : In k (map fst m) <-> eget k m <> None.
  Proof.
    induction m as [|[k2 v2] m IH]; cbn; [tauto|]. destruct (e_eqb k2 k) eqn:E.
    - apply e_eqb_spec in E. split; [discriminate|auto].
    - rewrite <- IH. split; [intros [<-|H]; auto; rewrite e_eqb_refl in E; discriminate|auto].
  Qed.

  (* ---------------- expressions with constant, linear and quadratic terms ---------------- *)
  Definition lqv (v : VarSpec) : Prop := match v with VConst | VLinear _ | VQuad _ _ => True | _ => False end.
  Definition linv (v : VarSpec) : Prop := match v with VConst | VLinear _ => True | _ => False end.
  Definition lin (e : Expr) : Prop := Forall (fun t => linv (vars t)) e.
  Record good (n : nat) (e : Expr) : Prop := {
    g_can : canonical F e;
    g_lq : Forall (fun t => lqv (vars t)) e;
    g_vars : forall x, In x (e_vars F e) -> (1 <= x < n)%nat
  }.
  Definition ev (m : nat -> F) (e : Expr) : F := expr_val F (env0 F) m e.
  Lemma ev_nil m : ev m [] = 0. Proof. apply expr_val_nil. Qed.
  Lemma ev_cons m t e : ev m (t :: e) = term_val F (env0 F) m t + ev m e. Proof. apply expr_val_cons. Qed.
  Lemma ev_app m a b : ev m (a ++ b) = ev m a + ev m b. Proof. apply expr_val_app. Qed.
  Lemma ev_perm m a b : Permutation a b -> ev m a = ev m b. Proof. apply expr_val_perm. Qed.
  Lemma ev_scale m c e : ev m (scale c e) = ev m e * c.
  Proof.
    induction e as [|t e IH]; cbn [scale map]; [rewrite ev_nil; ring|]. fold (scale c e). rewrite !ev_cons, IH. unfold term_val; cbn [coef vars]. ring.
  Qed.
  Lemma ev_ext m m' n e : good n e -> (forall x, (x < n)%nat -> m x = m' x) -> ev m e = ev m' e.
  Proof. intros G H. apply expr_val_ext. intros x Hx. apply H. apply (g_vars _ _ G) in Hx. lia. Qed.
  Lemma ev_lin m c x : ev m (e_linear F c x) = m x * c.
  Proof. unfold e_linear. rewrite ev_cons, ev_nil. unfold term_val; cbn. ring. Qed.
  Lemma ev_const m c : ev m (e_const F c) = c.
  Proof. unfold e_const. rewrite ev_cons, ev_nil. unfold term_val; cbn. ring. Qed.
  Lemma ev_default m : ev m [t_default F] = 0.
  Proof. apply (ev_const m 0). Qed.

  Lemma good_mono n n' e : good n e -> (n <= n')%nat -> good n' e.
  Proof. intros [A B C] H. split; auto. intros x Hx. apply C in Hx. lia. Qed.
  Lemma canonical_single (t : Term F) : vs_is_normalized (vars t) = true -> t = t_default F \/ coef t <> 0 -> canonical F [t].
  Proof.
    intros H H2. split; [discriminate|]. split; [auto|]. split; [repeat constructor|]. destruct H2 as [->|H2]; auto.
  Qed.
  Lemma good_const n c : good n (e_const F c).
  Proof.
    split.
    - apply canonical_single; auto. destruct (f_dec F c 0) as [->|]; [left; auto|right; auto].
    - repeat constructor.
    - intros x [].
  Qed.
  Lemma good_default n : good n [t_default F].
  Proof. apply (good_const n 0). Qed.
  Lemma good_linear n c x : c <> 0 -> (1 <= x < n)%nat -> good n (e_linear F c x).
  Proof.
    intros Hc Hx. split.
    - apply canonical_single; auto.
    - repeat constructor.
    - intros y [<-|[]]. auto.
  Qed.
  Lemma good_nonnil n e : good n e -> e <> [].
  Proof. intros G. apply (g_can _ _ G). Qed.
  Lemma lqv_norm v : lqv (vs_normalize v) <-> lqv v.
  Proof. destruct v; cbn [vs_normalize]; try reflexivity. destruct (_ <? _)%nat; reflexivity. Qed.
  Lemma good_from_terms n ts : Forall (fun t => lqv (vars t)) ts -> (forall x, In x (e_vars F ts) -> (1 <= x < n)%nat) ->
    good n (from_terms F ts) /\ forall m, ev m (from_terms F ts) = ev m ts.
  Proof.
    intros H1 H2. destruct (from_terms_spec F (env0 F) ts) as [A [B C]]. split; [split|]; auto.
    - apply Forall_forall. intros t Ht. destruct (C t Ht) as [->|[u [Hu ->]]]; cbn; auto. apply lqv_norm. rewrite Forall_forall in H1; auto.
    - intros x Hx. apply H2. apply from_terms_vars; auto.
  Qed.
  Lemma good_lin_from_terms ts : lin ts -> lin (from_terms F ts).
  Proof.
    intros H. apply Forall_forall. intros t Ht. destruct (from_terms_spec F (env0 F) ts) as [_ [_ C]]. unfold lin in H. rewrite Forall_forall in H.
    destruct (C t Ht) as [->|[u [Hu ->]]]; cbn; auto. specialize (H u Hu). destruct (vars u); cbn in *; auto. contradiction.
  Qed.

  (* ---------------- degree ---------------- *)
  Lemma e_degree_loop_spec h e : Forall (fun t => lqv (vars t)) e -> exists d, e_degree_loop F h e = Some d /\ (d <= 2)%nat /\
    ((d <= 1)%nat -> lin e) /\ (d = 0%nat -> h = false /\ Forall (fun t => vars t = VConst) e) /\ (h = true -> (1 <= d)%nat).
  Proof.
    revert h. induction e as [|t e IH]; intros h H; cbn [e_degree_loop].
    - exists (if h then 1 else 0)%nat. split; auto. destruct h; repeat split; try lia; try constructor; try discriminate; auto.
    - inversion H as [|? ? H1 H2]; subst. destruct (vars t) eqn:Ev; try contradiction.
      + destruct (IH h H2) as [d [A [B [C [D G]]]]]. exists d. split; [auto|]. split; [auto|]. split; [|split; [|auto]].
        * intros Hd. constructor; [rewrite Ev; exact I|apply C; auto].
        * intros Hd. destruct (D Hd). split; auto.
      + destruct (IH true H2) as [d [A [B [C [D G]]]]]. exists d. split; [auto|]. split; [auto|]. split; [|split].
        * intros Hd. constructor; [rewrite Ev; exact I|apply C; auto].
        * intros Hd. destruct (D Hd); discriminate.
        * intros _. apply G; auto.
      + exists 2%nat. repeat split; try lia; try discriminate.
  Qed.
  Lemma e_degree_spec n e : good n e -> exists d, e_degree F e = Some d /\ (d <= 2)%nat /\ ((d <= 1)%nat -> lin e) /\
    (d = 0%nat -> exists c, e = e_const F c).
  Proof.
    intros G. destruct (e_degree_loop_spec false e (g_lq _ _ G)) as [d [A [B [C [D _]]]]]. exists d. repeat split; auto.
    intros Hd. destruct (D Hd) as [_ H]. destruct (g_can _ _ G) as [H1 [_ [H2 _]]].
    destruct e as [|t [|u e]]; [contradiction| |].
    - inversion H; subst. exists (coef t). unfold e_const, t_const. f_equal. destruct t; cbn in *. subst; auto.
    - exfalso. inversion H as [|? ? E1 H3]; subst. inversion H3 as [|? ? E2 H4]; subst. inversion H2 as [|? ? _ Hf]; subst. inversion Hf as [|? ? Hlt _]; subst.
      rewrite E1, E2 in Hlt. apply vs_lt_irrefl in Hlt; auto.
  Qed.
  Lemma constant_value_spec n e c : good n e -> constant_value F e = Some c <-> e = e_const F c.
  Proof.
    intros G. unfold constant_value. destruct e as [|t [|u e]]; try (split; intros H; discriminate).
    destruct t as [tc tv]; cbn [vars coef]. destruct tv; split; intros H; try discriminate; inversion H; auto.
  Qed.

  (* ---------------- the pool ---------------- *)
  Definition pnth (p : Pool Expr) (i : nat) : option Expr := nth_error (pvec Expr p) i.
  Record pgood (p : Pool Expr) : Prop := {
    pg_inv : pinv Expr e_eqb p;
    pg_0 : pnth p 0 = Some [];
    pg_each : forall i e, (1 <= i)%nat -> pnth p i = Some e -> good i e \/ e = e_linear F 1 i
  }.
  Definition Pval (p : Pool Expr) (m : nat -> F) : Prop := forall i e, (1 <= i)%nat -> pnth p i = Some e -> ev m e = m i.
  (* p' extends p by variables that stand for expressions of earlier ones *)
  Definition pgrow (p p' : Pool Expr) : Prop :=
    pgood p' /\ exists l, pvec Expr p' = pvec Expr p ++ l /\ forall j e, nth_error l j = Some e -> good (plen p + j) e.

  Lemma pgood_len p : pgood p -> (1 <= plen p)%nat.
  Proof. intros G. pose proof (pg_0 _ G) as H. apply nth_error_Some_lt in H. unfold plen. lia. Qed.
  Lemma pgrow_refl p : pgood p -> pgrow p p.
  Proof. intros G. split; auto. exists []. rewrite app_nil_r. split; auto. intros [|j] e H; discriminate. Qed.
  Lemma pgrow_len p p' : pgrow p p' -> (plen p <= plen p')%nat.
  Proof. intros [_ [l [H _]]]. unfold plen. rewrite H, app_length. lia. Qed.
  Lemma pgrow_trans p p' p'' : pgrow p p' -> pgrow p' p'' -> pgrow p p''.
  Proof.
    intros [G1 [l1 [E1 H1]]] [G2 [l2 [E2 H2]]]. split; auto. exists (l1 ++ l2). rewrite E2, E1, app_assoc. split; auto. intros j e Hj.
    destruct (lt_dec j (length l1)) as [Hl|Hl].
    - rewrite nth_error_app1 in Hj by auto. auto.
    - rewrite nth_error_app2 in Hj by lia. apply H2 in Hj. unfold plen in *. rewrite E1, app_length in Hj. replace (length (pvec Expr p) + j)%nat with (length (pvec Expr p) + length l1 + (j - length l1))%nat by lia. auto.
  Qed.
  Lemma pgrow_nth p p' i e : pgrow p p' -> pnth p i = Some e -> pnth p' i = Some e.
  Proof. intros [_ [l [E _]]] H. unfold pnth in *. rewrite E. apply nth_error_app_l; auto. Qed.
  Lemma pgrow_Pval p p' m : pgrow p p' -> Pval p' m -> Pval p m.
  Proof. intros G H i e Hi Hn. apply H; auto. eapply pgrow_nth; eauto. Qed.
  Lemma pgrow_val p p' m : pgood p -> pgrow p p' -> Pval p m -> exists m', (forall x, (x < plen p)%nat -> m' x = m x) /\ Pval p' m'.
  Proof.
    intros Gp [_ [l [E H]]] P. unfold Pval, pnth, plen in *. rewrite E. clear E p'. induction l as [|e l IH] using rev_ind.
    - exists m. split; auto. rewrite app_nil_r. auto.
    - destruct IH as [m' [A B]]. { intros j e' Hj. apply H. apply nth_error_app_l; auto. }
      set (n := (length (pvec Expr p) + length l)%nat). exists (fun x => if Nat.eqb x n then ev m' e else m' x). 
      assert (Ge : good n e). { apply H. rewrite nth_error_app2 by lia. rewrite Nat.sub_diag. auto. }
      assert (Hext : forall e' k, good k e' -> (k <= n)%nat -> ev (fun x => if Nat.eqb x n then ev m' e else m' x) e' = ev m' e').
      { intros e' k G Hk. apply (ev_ext _ _ k); auto. intros x Hx. destruct (Nat.eqb_spec x n); [lia|auto]. }
      split.
      + intros x Hx. destruct (Nat.eqb_spec x n); [unfold n in *; lia|auto].
      + intros i e' Hi Hn. rewrite app_assoc in Hn. destruct (lt_dec i n) as [Hl|Hl].
        * rewrite nth_error_app1 in Hn by (rewrite app_length; auto). destruct (Nat.eqb_spec i n); [lia|]. rewrite <- (B i e' Hi Hn).
          destruct (lt_dec i (length (pvec Expr p))) as [Hl2|Hl2].
          -- rewrite nth_error_app1 in Hn by auto. destruct (pg_each _ Gp i e' Hi Hn) as [G| ->]; [apply (Hext e' i); auto; lia|].
             rewrite !ev_lin. destruct (Nat.eqb_spec i n); [lia|auto].
          -- rewrite nth_error_app2 in Hn by lia. assert (G : good i e'). { replace i with (length (pvec Expr p) + (i - length (pvec Expr p)))%nat by lia. apply H. apply nth_error_app_l; auto. }
             apply (Hext e' i); auto; lia.
        * pose proof (nth_error_Some_lt _ _ _ Hn) as Hlt. rewrite !app_length in Hlt. cbn [length] in Hlt. assert (i = n) by (unfold n in *; lia). subst i.
          rewrite nth_error_app2 in Hn by (rewrite app_length; auto). rewrite app_length in Hn. fold n in Hn. rewrite Nat.sub_diag in Hn. injection Hn as <-.
          rewrite Nat.eqb_refl. apply (Hext e n); auto.
  Qed.

  Lemma padd_spec p e i p' : pgood p -> good (plen p) e -> padd p e = (i, p') -> pgrow p p' /\ pnth p' i = Some e /\ (1 <= i < plen p')%nat.
  Proof.
    intros G Ge H. pose proof (pool_add_spec Expr e_eqb e_eqb_spec p e (pg_inv _ G)) as Hs. unfold padd in H. rewrite H in Hs. destruct Hs as [A [B [C D]]].
    assert (Hi0 : pnth p' 0 = Some []) by (apply C; exact (pg_0 _ G)).
    assert (Hi : (1 <= i)%nat). { destruct i; [|lia]. unfold pnth in *. unfold pool_get in B. rewrite B in Hi0. injection Hi0 as ->. exfalso. apply (good_nonnil _ _ Ge); auto. }
    assert (Hg : exists l, pvec Expr p' = pvec Expr p ++ l /\ forall j e, nth_error l j = Some e -> good (plen p + j) e).
    { unfold pool_add in H. destruct (pfind Expr e_eqb e (pmap Expr p)); injection H as <- <-.
      - exists []. rewrite app_nil_r. split; auto. intros [|j] e' Hx; discriminate.
      - exists [e]. split; auto. intros [|[|j]] e' Hx; try discriminate. injection Hx as <-. rewrite Nat.add_0_r. auto. }
    split; [|split; [auto|split; [auto|apply nth_error_Some_lt in B; auto]]]. split; auto. split; auto.
    destruct Hg as [l [E Hl]]. intros j e' Hj Hn. unfold pnth in Hn. rewrite E in Hn. destruct (lt_dec j (plen p)) as [Hlt|Hlt].
    - rewrite nth_error_app1 in Hn by auto. apply (pg_each _ G); auto.
    - rewrite nth_error_app2 in Hn by (unfold plen in *; lia). apply Hl in Hn. left. unfold plen in *. replace j with (length (pvec Expr p) + (j - length (pvec Expr p)))%nat by lia. auto.
  Qed.

  (* ---------------- strip_constants ---------------- *)
  Lemma inc_map_vars (f : Term F -> Term F) e : (forall t, vars (f t) = vars t) -> inc F e -> inc F (map f e).
  Proof.
    intros Hf H. induction H as [|t l H IH Hl]; cbn; constructor; auto. rewrite Forall_forall in Hl. apply Forall_forall. intros u Hu. apply in_map_iff in Hu.
    destruct Hu as [w [<- Hw]]. rewrite !Hf. auto.
  Qed.
  Lemma Forall_filter' {A} (P : A -> Prop) f l : Forall P l -> Forall P (filter f l).
  Proof. rewrite !Forall_forall. intros H x Hx. apply filter_In in Hx. apply H; tauto. Qed.
  Lemma Forall_map_vars (P : VarSpec -> Prop) (f : Term F -> Term F) e : (forall t, vars (f t) = vars t) ->
    Forall (fun t => P (vars t)) e -> Forall (fun t => P (vars t)) (map f e).
  Proof. intros Hf H. induction H; cbn; constructor; auto. rewrite Hf; auto. Qed.
  Lemma e_vars_sub (e e' : Expr) x : (forall t, In t e' -> exists u, In u e /\ vars u = vars t) -> In x (e_vars F e') -> In x (e_vars F e).
  Proof. unfold e_vars. rewrite !in_flat_map. intros H [t [Ht Hx]]. destruct (H t Ht) as [u [Hu Eu]]. exists u. rewrite Eu. auto. Qed.

  Definition cst_of (e : Expr) (a : F) : F := fold_left (fun a t => if is_const_term t then coef t else a) e a.
  Lemma cst_val e : inc F e -> forall m a, (In VConst (map vars e) \/ a = 0) ->
    ev m e = ev m (filter (fun t => negb (is_const_term t)) e) + cst_of e a.
  Proof.
    induction e as [|t e IH]; intros Hi m a Ha; unfold cst_of; cbn [filter fold_left].
    - rewrite !ev_nil. destruct Ha as [[]| ->]. ring.
    - inversion Hi as [|? ? Hi2 Hf]; subst. destruct (is_const_term t) eqn:Et; cbn [negb].
      + assert (Ev : vars t = VConst) by (unfold is_const_term in Et; destruct (vars t); auto; discriminate).
        assert (Hn : forall u, In u e -> is_const_term u = false).
        { intros u Hu. rewrite Forall_forall in Hf. specialize (Hf u Hu). rewrite Ev in Hf. unfold is_const_term. destruct (vars u) eqn:Eu; auto. exfalso. apply (vs_lt_irrefl VConst); auto. }
        assert (E1 : filter (fun t => negb (is_const_term t)) e = e).
        { clear -Hn. induction e as [|u e IH]; cbn; auto. rewrite (Hn u) by (left; auto). cbn. f_equal. apply IH. intros; apply Hn; right; auto. }
        assert (E2 : forall b, fold_left (fun a t => if is_const_term t then coef t else a) e b = b).
        { clear -Hn. induction e as [|u e IH]; intros b; cbn; auto. rewrite (Hn u) by (left; auto). apply IH. intros; apply Hn; right; auto. }
        rewrite E1, E2, ev_cons. unfold term_val. rewrite Ev. cbn [vs_val]. ring.
      + rewrite !ev_cons. assert (Ha2 : In VConst (map vars e) \/ a = 0); [|rewrite (IH Hi2 m a Ha2); unfold cst_of; ring].
        destruct Ha as [Ha|Ha]; auto. left. destruct Ha as [Ha|Ha]; auto. unfold is_const_term in Et. rewrite Ha in Et. discriminate.
  Qed.
  Lemma strip_spec n e : good n e -> exists e' c k, strip_constants e = Some (e', c, k) /\ good n e' /\ (forall m, ev m e = ev m e' * c + k) /\
    (forall d, e_degree F e' = Some d ->
       (d = 0%nat /\ c = 0 /\ e' = [t_default F] /\ e = e_const F k) \/
       ((1 <= d)%nat /\ c <> 0 /\ (Nat.eqb (length e') 1 && (d <=? 1)%nat = true -> lin e) /\ (forall x, e = e_linear F 1 x -> e' = e /\ c = 1 /\ k = 0))).
  Proof.
    intros G. destruct (g_can _ _ G) as [N1 [N2 [N3 N4]]]. unfold strip_constants.
    set (l := filter (fun t => negb (is_const_term t)) e). fold (cst_of e 0). pose proof (cst_val e N3) as Hv. fold l in Hv.
    assert (Hlc : Forall (fun t => negb (is_const_term t) = true) l). { apply Forall_forall. intros t Ht. apply filter_In in Ht. tauto. }
    assert (Hle : forall t, In t l -> In t e). { intros t Ht. apply filter_In in Ht. tauto. }
    destruct l as [|t l'] eqn:El.
    - eexists _, _, _. split; [reflexivity|]. split; [apply good_default|]. split.
      + intros m. rewrite (Hv m 0) by auto. rewrite ev_nil, ev_default. ring.
      + intros d Hd. cbn in Hd. injection Hd as <-. left. repeat split; auto.
        assert (Hall : Forall (fun t => vars t = VConst) e).
        { apply Forall_forall. intros t Ht. destruct (is_const_term t) eqn:Et. unfold is_const_term in Et. destruct (vars t); auto; discriminate.
          assert (In t l). { unfold l. apply filter_In. rewrite Et. auto. } rewrite El in H. destruct H. }
        destruct e as [|t [|u e]]; [contradiction| |].
        * inversion Hall; subst. unfold e_const, t_const, cst_of; cbn. unfold is_const_term. rewrite H1. destruct t; cbn in *; subst; auto.
        * exfalso. inversion Hall as [|? ? E1 H3]; subst. inversion H3 as [|? ? E2 H4]; subst. inversion N3 as [|? ? _ Hf]; subst. inversion Hf as [|? ? Hlt _]; subst.
          rewrite E1, E2 in Hlt. apply vs_lt_irrefl in Hlt; auto.
    - assert (Hnz : Forall (fun t => coef t <> 0) e).
      { destruct N4 as [->|]; auto. exfalso. cbn in El. discriminate. }
      assert (Hc0 : coef t <> 0). { rewrite Forall_forall in Hnz. apply Hnz. apply Hle. left; auto. }
      destruct (is0 F (coef t)) eqn:E0; [apply is0_spec in E0; contradiction|].
      set (f := fun u : Term F => tm (coef u * finv (coef t)) (vars u)).
      assert (Hinc : inc F (map f (t :: l'))). { apply inc_map_vars; auto. rewrite <- El. apply inc_filter; auto. }
      assert (Hnorm : Forall (fun t => vs_is_normalized (vars t) = true) (map f (t :: l'))).
      { apply (Forall_map_vars (fun v => vs_is_normalized v = true)); auto. rewrite <- El. apply Forall_filter'; auto. }
      rewrite (from_terms_sorted_ok F (scale (finv (coef t)) (t :: l'))); [|discriminate|exact Hinc|exact Hnorm]. cbn [obind].
      assert (Hfi : finv (coef t) <> 0). { intros Hz. pose proof (finv_l F (coef t) Hc0) as Hy. rewrite Hz in Hy. apply (f1_neq_f0 F). rewrite <- Hy. ring. }
      assert (Hsub : forall u, In u (map f (t :: l')) -> exists w, In w e /\ vars w = vars u).
      { intros u Hu. apply in_map_iff in Hu. destruct Hu as [w [<- Hw]]. exists w. split; auto. }
      eexists _, _, _. split; [reflexivity|]. split; [split|split].
      + split; [discriminate|]. split; [auto|]. split; auto. right. apply Forall_forall. intros u Hu. apply in_map_iff in Hu. destruct Hu as [w [<- Hw]]. cbn [coef].
        intros Hz. apply fmul_0 in Hz. destruct Hz; [|contradiction]. rewrite Forall_forall in Hnz. apply (Hnz w); auto.
      + apply Forall_forall. intros u Hu. destruct (Hsub u Hu) as [w [Hw <-]]. pose proof (g_lq _ _ G) as Hq. rewrite Forall_forall in Hq; auto.
      + intros x Hx. apply (g_vars _ _ G). apply (e_vars_sub e _ x Hsub); auto.
      + intros m. rewrite (Hv m 0) by auto. fold (scale (finv (coef t)) (t :: l')). rewrite ev_scale. f_equal.
        transitivity (ev m (t :: l') * (finv (coef t) * coef t)); [rewrite finv_l by auto; ring|ring].
      + intros d Hd. right.
        assert (Hd1 : (1 <= d)%nat).
        { destruct d; [|lia]. exfalso. unfold e_degree in Hd. cbn [scale map e_degree_loop vars] in Hd. inversion Hlc as [|? ? Ht _]; subst. unfold is_const_term in Ht.
          assert (Hall : Forall (fun t => lqv (vars t)) (map f l')).
          { apply Forall_forall. intros u Hu. destruct (Hsub u (or_intror Hu)) as [w [Hw <-]]. pose proof (g_lq _ _ G) as Hq. rewrite Forall_forall in Hq; auto. }
          destruct (vars t); try discriminate. fold f in Hd. destruct (e_degree_loop_spec true (map f l') Hall) as [d [A [_ [_ [_ B]]]]]. rewrite Hd in A. injection A as <-. specialize (B eq_refl). lia. }
        split; [auto|]. split; auto. split.
        * intros H. apply andb_true_iff in H. destruct H as [H1 H2]. apply Nat.eqb_eq in H1. apply Nat.leb_le in H2.
          assert (Hg : Forall (fun t => lqv (vars t)) (scale (finv (coef t)) (t :: l'))).
          { apply Forall_forall. intros u Hu. destruct (Hsub u Hu) as [w [Hw <-]]. pose proof (g_lq _ _ G) as Hq. rewrite Forall_forall in Hq; auto. }
          destruct (e_degree_loop_spec false _ Hg) as [d' [A [_ [B _]]]]. unfold e_degree in Hd. rewrite Hd in A. injection A as <-. specialize (B H2).
          apply Forall_forall. intros u Hu. destruct (is_const_term u) eqn:Eu; [unfold is_const_term in Eu; destruct (vars u); try discriminate; exact I|].
          assert (Hul : In u l) by (unfold l; apply filter_In; rewrite Eu; auto). rewrite El in Hul.
          unfold lin in B. rewrite Forall_forall in B. apply (B (f u)). apply (in_map f _ _ Hul).
        * intros x ->. cbn in El. injection El as <- <-. cbn [scale map coef t_linear vars]. unfold e_linear, t_linear.
          assert (E1 : 1 * finv (1 : F) = 1). { pose proof (finv_l F 1 (f1_neq_f0 F)) as Hy. transitivity (finv (1 : F) * 1); [ring|auto]. }
          rewrite E1. auto.
  Qed.

  (* ---------------- to_single and friends ---------------- *)
  Lemma to_single_spec p e : pgood p -> good (plen p) e -> exists p' e', to_single p e = Some (p', e') /\ pgrow p p' /\ good (plen p') e' /\
    lin e' /\ forall m, Pval p' m -> ev m e' = ev m e.
  Proof.
    intros G Ge. unfold to_single. destruct (strip_spec _ _ Ge) as [e1 [c [k [-> [G1 [V1 D1]]]]]]. cbn [obind].
    destruct (e_degree_spec _ _ G1) as [d [Ed [_ [_ _]]]]. rewrite Ed. cbn [obind]. specialize (D1 d Ed).
    destruct (Nat.eqb (length e1) 1 && (d <=? 1)%nat) eqn:Ec.
    - exists p, e. split; auto. split; [apply pgrow_refl; auto|]. split; auto. split; auto.
      destruct D1 as [[_ [_ [_ ->]]]|[_ [_ [H _]]]]; [repeat constructor|auto].
    - destruct (padd p e1) as [idx p'] eqn:Ep. destruct (padd_spec _ _ _ _ G G1 Ep) as [A [B C]]. unfold unstrip_constants_single.
      destruct (Nat.eqb_spec idx 0); [lia|]. cbn [obind]. eexists _, _. split; [reflexivity|]. split; auto.
      set (ts := t_linear F c idx :: (if is0 F k then [] else [t_const F k])).
      assert (Hts : lin ts) by (unfold ts; destruct (is0 F k); repeat constructor).
      destruct (good_from_terms (plen p') ts) as [Q1 Q2].
      { eapply Forall_impl; [|exact Hts]. intros t. cbn beta. destruct (vars t); cbn; auto. }
      { intros x. unfold ts. destruct (is0 F k); cbn; intros [<-|[]]; auto. }
      split; auto. split; [apply good_lin_from_terms; auto|]. intros m Hm. rewrite Q2. unfold ts. rewrite ev_cons, (V1 m), (Hm idx e1) by (try lia; auto).
      unfold term_val; cbn [t_linear vars coef vs_val]. destruct (is0 F k) eqn:Ek.
      + apply is0_spec in Ek. subst k. rewrite ev_nil. ring.
      + fold (e_const F k). rewrite ev_const. ring.
  Qed.
  Lemma to_single_stripped_spec p e : pgood p -> good (plen p) e -> exists p' idx c k, to_single_stripped p e = Some (p', (idx, c, k)) /\ pgrow p p' /\
    ((idx = 0%nat /\ c = 0 /\ e = e_const F k /\ p' = p) \/
     ((1 <= idx < plen p')%nat /\ c <> 0 /\ (forall m, Pval p' m -> ev m e = m idx * c + k) /\
      (forall x, e = e_linear F 1 x -> pnth p x = Some e -> idx = x /\ c = 1 /\ k = 0 /\ p' = p))).
  Proof.
    intros G Ge. unfold to_single_stripped. destruct (strip_spec _ _ Ge) as [e1 [c [k [-> [G1 [V1 D1]]]]]]. cbn [obind].
    destruct (e_degree_spec _ _ G1) as [d [Ed [_ [_ _]]]]. rewrite Ed. cbn [obind]. specialize (D1 d Ed).
    destruct (Nat.eqb_spec d 0) as [->|Hd].
    - eexists _, _, _, _. split; [reflexivity|]. split; [apply pgrow_refl; auto|]. left. destruct D1 as [[_ [A [_ B]]]|[A _]]; [auto|lia].
    - destruct (padd p e1) as [idx p'] eqn:Ep. destruct (padd_spec _ _ _ _ G G1 Ep) as [A [B C]].
      eexists _, _, _, _. split; [reflexivity|]. split; auto. right. destruct D1 as [[? _]|[_ [Hc [_ Hx]]]]; [contradiction|]. split; auto. split; auto. split.
      + intros m Hm. rewrite (V1 m), (Hm idx e1); auto. lia.
      + intros x Ex Hp. destruct (Hx x Ex) as [-> [-> ->]]. unfold padd, pool_add in Ep. destruct (pg_inv _ G) as [_ Hpi]. apply Hpi in Hp. rewrite Hp in Ep. injection Ep as <- <-. auto.
  Qed.
  Lemma to_really_single_spec p e : pgood p -> good (plen p) e -> exists p' e', to_really_single p e = Some (p', e') /\ pgrow p p'.
  Proof.
    intros G Ge. unfold to_really_single. destruct (e_degree_spec _ _ Ge) as [d [-> _]]. cbn [obind]. destruct (_ && _ && _).
    - exists p, e. split; auto. apply pgrow_refl; auto.
    - destruct (padd p e) as [idx p'] eqn:Ep. destruct (padd_spec _ _ _ _ G Ge Ep) as [A [B C]]. eexists _, _. split; [|exact A].
      rewrite from_terms_sorted_ok; [reflexivity|discriminate| |]; repeat constructor.
  Qed.

  (* ---------------- linear combinations ---------------- *)
  Definition lval (m : nat -> F) (l : list (Expr * F)) : F := fsum F (map (fun x => ev m (fst x) * snd x) l).
  Lemma lval_cons m x l : lval m (x :: l) = ev m (fst x) * snd x + lval m l.
  Proof. reflexivity. Qed.
  Lemma lval_app m a b : lval m (a ++ b) = lval m a + lval m b.
  Proof. unfold lval. rewrite map_app, fsum_app. auto. Qed.
  Lemma lc_operands_spec l : forall p, pgood p -> Forall (fun x => good (plen p) (fst x)) l ->
    exists p' ts, lc_operands p l = Some (p', ts) /\ pgrow p p' /\ Forall (fun t => lqv (vars t) /\ vs_is_normalized (vars t) = true) ts /\
      (forall x, In x (e_vars F ts) -> (1 <= x < plen p')%nat) /\ forall m, Pval p' m -> ev m ts = lval m l.
  Proof.
    induction l as [|[e c] l IH]; intros p G H; cbn [lc_operands].
    - exists p, []. split; auto. split; [apply pgrow_refl; auto|]. split; [constructor|]. split; [intros x []|]. intros m _. rewrite ev_nil. reflexivity.
    - inversion H as [|? ? Ge Hl]; subst. cbn [fst] in Ge. destruct (is0 F c) eqn:Ec.
      + apply is0_spec in Ec. subst c. destruct (IH p G Hl) as [p' [ts [A [B [C [D V]]]]]]. exists p', ts. split; [auto|]. split; [auto|]. split; [auto|]. split; [auto|].
        intros m Hm. rewrite (V m Hm), lval_cons. cbn [fst snd]. ring.
      + assert (Hne : e <> []) by (apply (good_nonnil _ _ Ge)).
        assert (Hs : exists p1 e1, (if (COMPRESS_THRESHOLD_ADD <? length e)%nat then to_single p e else Some (p, e)) = Some (p1, e1) /\ pgrow p p1 /\ good (plen p1) e1 /\ forall m, Pval p1 m -> ev m e1 = ev m e).
        { destruct (_ <? _)%nat.
          - destruct (to_single_spec p e G Ge) as [p1 [e1 [A [B [C [_ D]]]]]]. exists p1, e1. auto.
          - exists p, e. split; auto. split; [apply pgrow_refl; auto|]. auto. }
        destruct Hs as [p1 [e1 [Es [G1 [Ge1 V1]]]]]. destruct e as [|t0 e0]; [contradiction|]. rewrite Es. cbn [obind fst snd].
        destruct (IH p1 (proj1 G1)) as [p' [ts [A [B [C [D V]]]]]].
        { eapply Forall_impl; [|exact Hl]. intros x Hx. apply (good_mono _ _ _ Hx). apply pgrow_len; auto. }
        rewrite A. cbn [obind fst snd]. exists p', (scale c e1 ++ ts). split; auto. split; [eapply pgrow_trans; eauto|]. split; [|split].
        * apply Forall_app. split; auto. destruct (g_can _ _ Ge1) as [_ [N _]]. pose proof (g_lq _ _ Ge1) as Q. rewrite Forall_forall in N, Q. apply Forall_forall.
          intros u Hu. apply in_map_iff in Hu. destruct Hu as [w [<- Hw]]. cbn [vars]. auto.
        * intros x Hx. unfold e_vars in Hx. rewrite flat_map_app in Hx. apply in_app_or in Hx. destruct Hx as [Hx|Hx]; [|apply D; auto].
          assert (In x (e_vars F e1)). { apply (e_vars_sub e1 (scale c e1) x); auto. intros u Hu. apply in_map_iff in Hu. destruct Hu as [w [<- Hw]]. exists w; auto. }
          apply (g_vars _ _ Ge1) in H0. pose proof (pgrow_len _ _ B). lia.
        * intros m Hm. rewrite ev_app, ev_scale, (V m Hm), lval_cons. cbn [fst snd]. rewrite V1; [auto|]. eapply pgrow_Pval; eauto.
  Qed.
  Lemma vars_leb_total (a b : Term F) : vars_leb a b = true \/ vars_leb b a = true.
  Proof. unfold vars_leb. rewrite (vs_cmp_opp (vars a) (vars b)). destruct (vs_cmp (vars a) (vars b)); cbn; auto. Qed.
  Lemma vars_leb_le (a b : Term F) : vars_leb a b = true <-> vs_le (vars a) (vars b).
  Proof.
    unfold vars_leb, vs_le, vs_lt. destruct (vs_cmp (vars a) (vars b)) eqn:E; split; intros H; auto; try discriminate.
    - right. apply vs_cmp_eq; auto.
    - destruct H as [H|H]; [discriminate|]. apply vs_cmp_eq in H. congruence.
  Qed.
  Lemma vars_leb_trans (a b c : Term F) : vars_leb a b = true -> vars_leb b c = true -> vars_leb a c = true.
  Proof. rewrite !vars_leb_le. apply vs_le_trans. Qed.
  Lemma lc_merge_spec ts : forall res, ninc F ts -> inc F (rev res) -> (forall a b, In a res -> In b ts -> vs_le (vars a) (vars b)) ->
    Forall (fun t => coef t <> 0) res ->
    inc F (rev (lc_merge res ts)) /\ Forall (fun t => coef t <> 0) (lc_merge res ts) /\
    (forall t, In t (lc_merge res ts) -> exists u, In u (res ++ ts) /\ vars u = vars t) /\
    (forall m, ev m (lc_merge res ts) = ev m res + ev m ts).
  Proof.
    induction ts as [|t ts IH]; intros res Hn Hi Hle Hz; cbn [lc_merge].
    - repeat split; auto. + intros t Ht. exists t. rewrite app_nil_r. auto. + intros m. rewrite ev_nil. ring.
    - inversion Hn as [|? ? Hn2 Hf]; subst. rewrite Forall_forall in Hf.
      assert (Hle' : forall a b, In a res -> In b ts -> vs_le (vars a) (vars b)) by (intros; apply Hle; auto; right; auto).
      destruct (is0 F (coef t)) eqn:E0.
      { apply is0_spec in E0. destruct (IH res Hn2 Hi Hle' Hz) as [A [B [C D]]]. split; [auto|]. split; [auto|]. split.
        - intros u Hu. destruct (C u Hu) as [w [Hw Ew]]. exists w. split; auto. apply in_or_app. apply in_app_or in Hw. destruct Hw; auto. right; right; auto.
        - intros m. rewrite D, ev_cons. unfold term_val. rewrite E0. ring. }
      assert (Hct : coef t <> 0) by (intros Hx; apply is0_spec in Hx; congruence).
      destruct res as [|r res].
      { destruct (IH [t] Hn2) as [A [B [C D]]]; auto.
        - repeat constructor.
        - intros a b [<-|[]] Hb. apply Hf; auto.
        - split; [auto|]. split; [auto|]. split.
          + intros u Hu. destruct (C u Hu) as [w [Hw Ew]]. exists w. auto.
          + intros m. rewrite D, !ev_cons, ev_nil. ring. }
      cbn [rev] in Hi. inversion Hz as [|? ? Hr Hz2]; subst.
      assert (Hi0 : inc F (rev res)).
      { clear -Hi. induction (rev res) as [|x l IH]; [constructor|]. cbn in Hi. inversion Hi as [|? ? H1 H2]; subst. constructor; [apply IH; auto|]. apply Forall_app in H2. tauto. }
      assert (Hres_r : forall a, In a res -> vs_lt (vars a) (vars r)).
      { clear -Hi. intros a Ha. apply in_rev in Ha. induction (rev res) as [|x l IH]; [destruct Ha|]. cbn in Hi. inversion Hi as [|? ? H1 H2]; subst. destruct Ha as [<-|Ha]; auto.
        rewrite Forall_forall in H2. apply H2. apply in_or_app; right; left; auto. }
      assert (Hsnoc : forall x, (forall a, In a res -> vs_lt (vars a) (vars x)) -> inc F (rev res ++ [x])).
      { intros x Hx. apply inc_app; auto; [repeat constructor|]. intros a b Ha [<-|[]]. apply Hx. apply in_rev; auto. }
      destruct (vs_eqb (vars r) (vars t)) eqn:Ev.
      + apply vs_eqb_spec in Ev. destruct (is0 F (coef r + coef t)) eqn:Es.
        * apply is0_spec in Es. destruct (IH res Hn2 Hi0) as [A [B [C D]]]; auto. { intros a b Ha Hb. apply Hle'; auto. right; auto. }
          split; [auto|]. split; [auto|]. split.
          -- intros u Hu. destruct (C u Hu) as [w [Hw Ew]]. exists w. split; auto. apply in_app_or in Hw. apply in_or_app. destruct Hw; [left; right; auto|right; right; auto].
          -- intros m. rewrite D, !ev_cons. unfold term_val. rewrite Ev. transitivity (ev m res + ev m ts + vs_val F (env0 F) m (vars t) * (coef r + coef t)); [rewrite Es; ring|ring].
        * destruct (IH (tm (coef r + coef t) (vars r) :: res) Hn2) as [A [B [C D]]].
          -- cbn [rev]. apply Hsnoc. auto.
          -- intros a b [<-|Ha] Hb; [cbn [vars]; apply Hle'; auto; left; auto|apply Hle'; auto; right; auto].
          -- constructor; auto. cbn [coef]. intros Hx. apply is0_spec in Hx. congruence.
          -- split; [auto|]. split; [auto|]. split.
             ++ intros u Hu. destruct (C u Hu) as [w [Hw Ew]]. cbn [app] in Hw. destruct Hw as [<-|Hw]; [exists r; cbn [vars] in Ew; split; auto; left; auto|].
                exists w. split; auto. apply in_app_or in Hw. apply in_or_app. destruct Hw; [left; right; auto|right; right; auto].
             ++ intros m. rewrite D, !ev_cons. unfold term_val. cbn [coef vars]. rewrite Ev. ring.
      + assert (Hlt : vs_lt (vars r) (vars t)).
        { destruct (Hle r t (or_introl eq_refl) (or_introl eq_refl)) as [H|H]; auto. apply vs_eqb_spec in H. congruence. }
        destruct (IH (t :: r :: res) Hn2) as [A [B [C D]]].
        * cbn [rev]. apply inc_app; auto; [repeat constructor|]. intros a b Ha [<-|[]]. apply in_app_or in Ha. destruct Ha as [Ha|[<-|[]]]; auto.
          apply in_rev in Ha. eapply vs_lt_trans; eauto.
        * intros a b [<-|Ha] Hb; [apply Hf; auto|apply Hle'; auto].
        * constructor; auto.
        * split; [auto|]. split; [auto|]. split.
          -- intros u Hu. destruct (C u Hu) as [w [Hw Ew]]. exists w. split; auto. cbn [app] in Hw. apply in_or_app. destruct Hw as [<-|[<-|Hw]]; [right; left; auto|left; left; auto|].
             apply in_app_or in Hw. destruct Hw; [left; right; auto|right; right; auto].
          -- intros m. rewrite D, !ev_cons. ring.
  Qed.
  Lemma mul_constant_good n e c : good n e -> exists e', mul_constant F e c = Some e' /\ good n e' /\ forall m, ev m e' = ev m e * c.
  Proof.
    intros Ge. destruct (mul_constant_spec F (env0 F) e c (g_can _ _ Ge)) as [e' [E [A [B [C _]]]]]. exists e'. split; auto. split; [|exact B].
    split; auto; [|intros x Hx; apply (g_vars _ _ Ge); auto]. unfold mul_constant in E. destruct (c =? 0).
    - injection E as <-. repeat constructor.
    - apply from_terms_sorted_spec in E. destruct E as [_ [_ [_ [->|[_ ->]]]]]; [|repeat constructor].
      apply (Forall_map_vars lqv (fun t : Term F => tm (coef t * c) (vars t))); auto. apply Ge.
  Qed.
  Lemma lin_comb_inner_spec p l : pgood p -> Forall (fun x => good (plen p) (fst x)) l ->
    exists p' e, lin_comb_inner p l = Some (p', e) /\ pgrow p p' /\ good (plen p') e /\ forall m, Pval p' m -> ev m e = lval m l.
  Proof.
    intros G H. unfold lin_comb_inner. destruct l as [|[e c] [|x l]].
    - eexists _, _. split; [reflexivity|]. split; [apply pgrow_refl; auto|]. split; [apply good_default|]. intros m _. rewrite ev_default. reflexivity.
    - inversion H as [|? ? Ge _]; subst. cbn [fst] in Ge. destruct (mul_constant_good _ e c Ge) as [e' [-> [A B]]]. cbn [obind].
      eexists _, _. split; [reflexivity|]. split; [apply pgrow_refl; auto|]. split; auto.
      intros m _. rewrite lval_cons. cbn [fst snd]. change (lval m []) with (0 : F). rewrite (B m). ring.
    - destruct (lc_operands_spec _ p G H) as [p' [ts [-> [A [B [C D]]]]]]. cbn [obind fst snd].
      pose proof (isort_perm vars_leb ts) as Hp.
      destruct (lc_merge_spec (isort vars_leb ts) []) as [M1 [M2 [M3 M4]]]; [| constructor | intros ? ? [] | constructor |].
      { pose proof (isort_sorted vars_leb vars_leb_total vars_leb_trans ts) as Hs. clear -Hs. induction Hs as [|t l H IH Hf]; constructor; auto. eapply Forall_impl; [|exact Hf].
        intros; apply vars_leb_le; auto. }
      assert (Hval : forall m, Pval p' m -> ev m (lc_merge [] (isort vars_leb ts)) = lval m ((e, c) :: x :: l)).
      { intros m Hm. rewrite M4, ev_nil, (ev_perm m _ _ Hp), (D m Hm). ring. }
      assert (Hsub : forall t, In t (lc_merge [] (isort vars_leb ts)) -> exists u, In u ts /\ vars u = vars t).
      { intros t Ht. destruct (M3 t Ht) as [u [Hu Eu]]. exists u. split; auto. apply (Permutation_in _ Hp). auto. }
      destruct (lc_merge [] (isort vars_leb ts)) as [|r res] eqn:Er.
      + eexists _, _. split; [reflexivity|]. split; auto. split; [apply good_default|]. intros m Hm. rewrite ev_default. rewrite <- (Hval m Hm). rewrite ev_nil. auto.
      + assert (Hn : Forall (fun t => vs_is_normalized (vars t) = true) (rev (r :: res))).
        { apply Forall_rev. apply Forall_forall. intros t Ht. destruct (Hsub t Ht) as [u [Hu <-]]. rewrite Forall_forall in B. apply B; auto. }
        assert (Hne : rev (r :: res) <> []) by (cbn; intros Hx; apply app_eq_nil in Hx; destruct Hx; discriminate).
        rewrite from_terms_sorted_ok; auto. cbn [obind]. eexists _, _. split; [reflexivity|]. split; auto. split.
        * split; [split; [auto|]; split; [auto|]; split; [auto|]; right; apply Forall_rev; auto| |].
          -- apply Forall_rev. apply Forall_forall. intros t Ht. destruct (Hsub t Ht) as [u [Hu <-]]. rewrite Forall_forall in B. apply B; auto.
          -- intros y Hy. apply C. apply (e_vars_sub ts (rev (r :: res)) y); auto. intros t Ht. apply Hsub. apply in_rev; auto.
        * intros m Hm. rewrite (ev_perm m _ (r :: res)) by (apply Permutation_sym, Permutation_rev). auto.
  Qed.

  (* ---------------- products ---------------- *)
  Lemma t_mul_lin (a b : Term F) : linv (vars a) -> linv (vars b) -> exists t, t_mul F a b = Some t /\ lqv (vars t) /\
    (forall x, In x (vs_vars (vars t)) -> In x (vs_vars (vars a)) \/ In x (vs_vars (vars b))) /\
    forall m, term_val F (env0 F) m t = term_val F (env0 F) m a * term_val F (env0 F) m b.
  Proof.
    intros Ha Hb. unfold t_mul. destruct a as [ca va], b as [cb vb]. cbn [vars coef] in *. destruct va; try contradiction; destruct vb; try contradiction; cbn [vs_mul obind];
      eexists; (split; [reflexivity|]); (split; [exact I|]); (split; [cbn; intros; tauto|]); intros m; unfold term_val; cbn [vars coef vs_val]; ring.
  Qed.
  Lemma prods_spec n v1 v2 : good n v1 -> good n v2 -> lin v1 -> lin v2 ->
    exists l, omap (fun x1 => let* ts := omap (fun x2 => t_mul F x1 x2) v2 in Some (from_terms F ts, 1 : F)) v1 = Some l /\
      Forall (fun x => good n (fst x)) l /\ forall m, lval m l = ev m v1 * ev m v2.
  Proof.
    intros G1 G2 L1 L2. unfold lin in *.
    assert (Hv1 : forall x, In x (e_vars F v1) -> (1 <= x < n)%nat) by apply G1. assert (Hv2 : forall x, In x (e_vars F v2) -> (1 <= x < n)%nat) by apply G2.
    clear G1 G2. induction L1 as [|t v1 Ht L1 IH]; cbn [omap].
    - exists []. split; auto. split; auto. intros m. rewrite ev_nil. unfold lval; cbn. unfold fsum; cbn. ring.
    - assert (Hrow : exists ts, omap (fun x2 => t_mul F t x2) v2 = Some ts /\ Forall (fun t => lqv (vars t)) ts /\ (forall x, In x (e_vars F ts) -> (1 <= x < n)%nat) /\
        forall m, ev m ts = term_val F (env0 F) m t * ev m v2).
      { assert (Ht1 : forall x, In x (vs_vars (vars t)) -> (1 <= x < n)%nat) by (intros x Hx; apply Hv1; unfold e_vars; cbn; apply in_or_app; auto).
        clear IH Hv1. induction L2 as [|u v2 Hu L2 IH]; cbn [omap].
        - exists []. split; auto. split; auto. split; [intros x []|]. intros m. rewrite !ev_nil. ring.
        - destruct (t_mul_lin t u Ht Hu) as [w [-> [W1 [W2 W3]]]]. destruct IH as [ts [-> [A [B C]]]]. { intros x Hx. apply Hv2. unfold e_vars; cbn. apply in_or_app; auto. }
          eexists. split; [reflexivity|]. split; [constructor; auto|]. split.
          + intros x Hx. unfold e_vars in Hx. cbn in Hx. apply in_app_or in Hx. destruct Hx as [Hx|Hx]; [|apply B; auto]. destruct (W2 x Hx) as [H|H]; auto. apply Hv2. unfold e_vars; cbn. apply in_or_app; auto.
          + intros m. rewrite !ev_cons, W3, C. ring. }
      destruct Hrow as [ts [-> [A [B C]]]]. cbn [obind]. destruct IH as [l [-> [D E]]]. { intros x Hx. apply Hv1. unfold e_vars; cbn. apply in_or_app; auto. }
      eexists. split; [reflexivity|]. destruct (good_from_terms n ts A B) as [P Q]. split; [constructor; auto|]. intros m. rewrite lval_cons. cbn [fst snd]. rewrite Q, C, E, ev_cons. ring.
  Qed.
  Lemma mul_two_expr_spec p a b : pgood p -> good (plen p) a -> good (plen p) b ->
    exists p' e, mul_two_expr p a b = Some (p', e) /\ pgrow p p' /\ good (plen p') e /\ forall m, Pval p' m -> ev m e = ev m a * ev m b.
  Proof.
    intros G Ga Gb. unfold mul_two_expr. destruct (e_degree_spec _ _ Ga) as [da [-> [Da2 [Dal Da0]]]]. destruct (e_degree_spec _ _ Gb) as [db [-> [Db2 [Dbl Db0]]]]. cbn [obind].
    destruct (Nat.eqb_spec da 0) as [->|Hda].
    { destruct (Da0 eq_refl) as [c ->]. cbn [constant_value e_const t_const vars coef obind]. destruct (mul_constant_good _ b c Gb) as [e [-> [A B]]]. cbn [obind].
      eexists _, _. split; [reflexivity|]. split; [apply pgrow_refl; auto|]. split; auto. intros m _. fold (t_const F c). fold (e_const F c). rewrite B, ev_const. ring. }
    destruct (Nat.eqb_spec db 0) as [->|Hdb].
    { destruct (Db0 eq_refl) as [c ->]. cbn [constant_value e_const t_const vars coef obind]. destruct (mul_constant_good _ a c Ga) as [e [-> [A B]]]. cbn [obind].
      eexists _, _. split; [reflexivity|]. split; [apply pgrow_refl; auto|]. split; auto. intros m _. fold (t_const F c). fold (e_const F c). rewrite B, ev_const. ring. }
    assert (H1 : exists p1 v1, (if Nat.eqb da 2 then to_single p a else Some (p, a)) = Some (p1, v1) /\ pgrow p p1 /\ good (plen p1) v1 /\ lin v1 /\ forall m, Pval p1 m -> ev m v1 = ev m a).
    { destruct (Nat.eqb_spec da 2) as [->|Hd].
      - destruct (to_single_spec p a G Ga) as [p1 [e1 [A [B [C [D E]]]]]]. exists p1, e1. auto.
      - exists p, a. split; auto. split; [apply pgrow_refl; auto|]. split; auto. split; auto. apply Dal. lia. }
    destruct H1 as [p1 [w1 [-> [P1 [Q1 [R1 V1]]]]]]. cbn [obind fst snd].
    assert (Gb1 : good (plen p1) b) by (apply (good_mono _ _ _ Gb); apply pgrow_len; auto).
    assert (H2 : exists p2 v2, (if Nat.eqb db 2 then to_single p1 b else Some (p1, b)) = Some (p2, v2) /\ pgrow p1 p2 /\ good (plen p2) v2 /\ lin v2 /\ forall m, Pval p2 m -> ev m v2 = ev m b).
    { destruct (Nat.eqb_spec db 2) as [->|Hd].
      - destruct (to_single_spec p1 b (proj1 P1) Gb1) as [p2 [e1 [A [B [C [D E]]]]]]. exists p2, e1. auto.
      - exists p1, b. split; auto. split; [apply pgrow_refl; apply P1|]. split; auto. split; auto. apply Dbl. lia. }
    destruct H2 as [p2 [w2 [-> [P2 [Q2 [R2 V2]]]]]]. cbn [obind fst snd].
    assert (Q1' : good (plen p2) w1) by (apply (good_mono _ _ _ Q1); apply pgrow_len; auto).
    assert (H3 : exists v1 v2, (if (length w2 <? length w1)%nat then (w2, w1) else (w1, w2)) = (v1, v2) /\ good (plen p2) v1 /\ good (plen p2) v2 /\ lin v1 /\ lin v2 /\
      forall m, Pval p2 m -> ev m v1 * ev m v2 = ev m a * ev m b).
    { assert (V : forall m, Pval p2 m -> ev m w1 * ev m w2 = ev m a * ev m b). { intros m Hm. rewrite V2, V1; auto. eapply pgrow_Pval; eauto. }
      destruct (_ <? _)%nat; eexists _, _; (split; [reflexivity|]); (split; [auto|]); (split; [auto|]); (split; [auto|]); (split; [auto|]); intros m Hm; rewrite <- (V m Hm); ring. }
    destruct H3 as [v1 [v2 [-> [S1 [S2 [L1 [L2 V3]]]]]]]. cbn beta iota.
    assert (P12 : pgrow p p2) by (eapply pgrow_trans; eauto).
    match goal with |- context [obind ?X _] => assert (H4 : exists p3 u1 u2, X = Some (p3, (u1, u2)) /\ pgrow p2 p3 /\ good (plen p3) u1 /\ good (plen p3) u2 /\ lin u1 /\ lin u2 /\
      forall m, Pval p3 m -> ev m u1 * ev m u2 = ev m a * ev m b) end.
    { destruct (COMPRESS_THRESHOLD_MUL <? length v1)%nat.
      - destruct (to_single_spec p2 v1 (proj1 P2) S1) as [p3 [e1 [-> [B1 [C1 [D1 E1]]]]]]. cbn [obind fst snd].
        destruct (to_single_spec p3 v2 (proj1 B1)) as [p4 [e2 [-> [B2 [C2 [D2 E2]]]]]]. { apply (good_mono _ _ _ S2). apply pgrow_len; auto. } cbn [obind fst snd].
        eexists _, _, _. split; [reflexivity|]. split; [eapply pgrow_trans; eauto|]. split; [apply (good_mono _ _ _ C1); apply pgrow_len; auto|]. split; auto. split; auto. split; auto.
        intros m Hm. assert (Pval p3 m) by (eapply pgrow_Pval; eauto). rewrite E2, E1; auto. apply V3. apply (pgrow_Pval p2 p3); auto.
      - destruct (COMPRESS_THRESHOLD_MUL <? length v1 * length v2)%nat.
        + destruct (to_single_spec p2 v2 (proj1 P2) S2) as [p3 [e1 [-> [B1 [C1 [D1 E1]]]]]]. cbn [obind fst snd].
          eexists _, _, _. split; [reflexivity|]. split; auto. split; [apply (good_mono _ _ _ S1); apply pgrow_len; auto|]. split; auto. split; auto. split; auto.
          intros m Hm. rewrite E1; auto. apply V3. apply (pgrow_Pval p2 p3); auto.
        + eexists _, _, _. split; [reflexivity|]. split; [apply pgrow_refl; apply P2|]. auto. }
    destruct H4 as [p3 [u1 [u2 [-> [P3 [T1 [T2 [M1 [M2 V4]]]]]]]]]. cbn [obind].
    destruct (prods_spec _ u1 u2 T1 T2 M1 M2) as [l [-> [Gl Vl]]]. cbn [obind].
    destruct (lin_comb_inner_spec p3 l (proj1 P3) Gl) as [p4 [e [-> [P4 [G4 V5]]]]]. exists p4, e. split; auto.
    split; [eapply pgrow_trans; [exact P12|]; eapply pgrow_trans; eauto|]. split; auto. intros m Hm. rewrite (V5 m Hm), Vl. apply V4. eapply pgrow_Pval; eauto.
  Qed.
  Lemma mul_rest_spec es : forall p cur, pgood p -> good (plen p) cur -> Forall (good (plen p)) es ->
    exists p' e, mul_rest p cur es = Some (p', e) /\ pgrow p p' /\ good (plen p') e /\ forall m, Pval p' m -> ev m e = ev m cur * fprod F (map (ev m) es).
  Proof.
    induction es as [|x es IH]; intros p cur G Gc H; cbn [mul_rest].
    - exists p, cur. split; auto. split; [apply pgrow_refl; auto|]. split; auto. intros m _. unfold fprod; cbn. ring.
    - inversion H as [|? ? Gx H2]; subst. destruct (mul_two_expr_spec p cur x G Gc Gx) as [p1 [e1 [-> [A [B C]]]]]. cbn [obind fst snd].
      destruct (IH p1 e1 (proj1 A) B) as [p2 [e2 [-> [A2 [B2 C2]]]]]. { eapply Forall_impl; [|exact H2]. intros y Hy. apply (good_mono _ _ _ Hy). apply pgrow_len; auto. }
      eexists _, _. split; [reflexivity|]. split; [eapply pgrow_trans; eauto|]. split; auto. intros m Hm. rewrite (C2 m Hm), C by (eapply pgrow_Pval; eauto). cbn [map]. unfold fprod; cbn [fold_right]. ring.
  Qed.
End Facts.
