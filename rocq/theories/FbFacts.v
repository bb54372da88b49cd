(* Facts about the expressions and the intermediate variables of final_build_opt (FinalBuild.v). *)
From Verif Require Import Prelude Field Sorting Expr Topo Containers Ir IrFacts IrInst Sim Builder FinalBuild.
From Verif Require Import BuilderFacts.

Section Facts.
  Context {F : Fld}.
  Add Field Ffb : (fth F).
  Open Scope fld_scope.
  Notation Expr := (list (Term F)).
  Notation tm c v := {| coef := c; vars := v |}.

  (* ---------------- expressions with constant, linear and quadratic terms ---------------- *)
  Definition lqv (v : VarSpec) : Prop := match v with VConst | VLinear _ | VQuad _ _ | VCustom _ _ => True | _ => False end.
  Definition linv (v : VarSpec) : Prop := match v with VConst | VLinear _ => True | _ => False end.
  Definition lin (e : Expr) : Prop := Forall (fun t => linv (vars t)) e.
  Record good (n : nat) (e : Expr) : Prop := {
    g_can : canonical F e;
    g_lq : Forall (fun t => lqv (vars t)) e;
    g_vars : forall x, In x (e_vars F e) -> (1 <= x < n)%nat
  }.
  Definition ev (E : Env F) (m : nat -> F) (e : Expr) : F := expr_val F E m e.
  Lemma ev_nil E m : ev E m [] = 0. Proof. apply expr_val_nil. Qed.
  Lemma ev_cons E m t e : ev E m (t :: e) = term_val F E m t + ev E m e. Proof. apply expr_val_cons. Qed.
  Lemma ev_app E m a b : ev E m (a ++ b) = ev E m a + ev E m b. Proof. apply expr_val_app. Qed.
  Lemma ev_perm E m a b : Permutation a b -> ev E m a = ev E m b. Proof. apply expr_val_perm. Qed.
  Lemma ev_scale E m c e : ev E m (scale c e) = ev E m e * c.
  Proof.
    induction e as [|t e IH]; cbn [scale map]; [rewrite ev_nil; ring|]. fold (scale c e). rewrite !ev_cons, IH. unfold term_val; cbn [coef vars]. ring.
  Qed.
  Lemma ev_ext E m m' n e : good n e -> (forall x, (x < n)%nat -> m x = m' x) -> ev E m e = ev E m' e.
  Proof. intros G H. apply expr_val_ext. intros x Hx. apply H. apply (g_vars _ _ G) in Hx. lia. Qed.
  Lemma ev_lin E m c x : ev E m (e_linear F c x) = m x * c.
  Proof. unfold e_linear. rewrite ev_cons, ev_nil. unfold term_val; cbn. ring. Qed.
  Lemma ev_const E m c : ev E m (e_const F c) = c.
  Proof. unfold e_const. rewrite ev_cons, ev_nil. unfold term_val; cbn. ring. Qed.
  Lemma ev_default E m : ev E m [t_default F] = 0.
  Proof. apply (ev_const E m 0). Qed.

  Lemma good_mono n n' e : good n e -> (n <= n')%nat -> good n' e.
  Proof. intros [A B C] H. split; auto. intros x Hx. apply C in Hx. lia. Qed.
  Lemma canonical_single (t : Term F) : vs_is_normalized (vars t) = true -> t = t_default F \/ coef t <> 0 -> canonical F [t].
  Proof.
    intros H H2. split; [discriminate|]. split; [auto|]. split; [repeat constructor|]. destruct H2 as [->|H2]; auto.
  Qed.
  Lemma good_const n c : good n (e_const F c).
  Proof.
    split.
    - apply canonical_single; auto. destruct (f_dec F c 0) as [->|]; [left; auto|right; auto].
    - repeat constructor.
    - intros x [].
  Qed.
  Lemma good_default n : good n [t_default F].
  Proof. apply (good_const n 0). Qed.
  Lemma good_linear n c x : c <> 0 -> (1 <= x < n)%nat -> good n (e_linear F c x).
  Proof.
    intros Hc Hx. split.
    - apply canonical_single; auto.
    - repeat constructor.
    - intros y [<-|[]]. auto.
  Qed.
  Lemma good_nonnil n e : good n e -> e <> [].
  Proof. intros G. apply (g_can _ _ G). Qed.
  Lemma lqv_norm v : lqv (vs_normalize v) <-> lqv v.
  Proof. destruct v; cbn [vs_normalize]; try reflexivity. destruct (_ <? _)%nat; reflexivity. Qed.
  Lemma good_from_terms n ts : Forall (fun t => lqv (vars t)) ts -> (forall x, In x (e_vars F ts) -> (1 <= x < n)%nat) ->
    good n (from_terms F ts) /\ forall E m, ev E m (from_terms F ts) = ev E m ts.
  Proof.
    intros H1 H2. destruct (from_terms_spec F (env0 F) ts) as [A [B C]]. split; [split|].
    - auto.
    - apply Forall_forall. intros t Ht. destruct (C t Ht) as [->|[u [Hu ->]]]; cbn; auto. apply lqv_norm. rewrite Forall_forall in H1; auto.
    - intros x Hx. apply H2. apply from_terms_vars; auto.
    - intros E m. apply (from_terms_spec F E ts).
  Qed.
  Lemma good_lin_from_terms ts : lin ts -> lin (from_terms F ts).
  Proof.
    intros H. apply Forall_forall. intros t Ht. destruct (from_terms_spec F (env0 F) ts) as [_ [_ C]]. unfold lin in H. rewrite Forall_forall in H.
    destruct (C t Ht) as [->|[u [Hu ->]]]; cbn; auto. specialize (H u Hu). destruct (vars u); cbn in *; auto. contradiction.
  Qed.

  (* ---------------- degree ---------------- *)
  Lemma e_degree_loop_spec h e : Forall (fun t => lqv (vars t)) e -> exists d, e_degree_loop F h e = Some d /\ (d <= 2)%nat /\
    ((d <= 1)%nat -> lin e) /\ (d = 0%nat -> h = false /\ Forall (fun t => vars t = VConst) e) /\ (h = true -> (1 <= d)%nat).
  Proof.
    revert h. induction e as [|t e IH]; intros h H; cbn [e_degree_loop].
    - exists (if h then 1 else 0)%nat. split; auto. destruct h; repeat split; try lia; try constructor; try discriminate; auto.
    - inversion H as [|? ? H1 H2]; subst. destruct (vars t) eqn:Ev; try contradiction.
      + destruct (IH h H2) as [d [A [B [C [D G]]]]]. exists d. split; [auto|]. split; [auto|]. split; [|split; [|auto]].
        * intros Hd. constructor; [rewrite Ev; exact I|apply C; auto].
        * intros Hd. destruct (D Hd). split; auto.
      + destruct (IH true H2) as [d [A [B [C [D G]]]]]. exists d. split; [auto|]. split; [auto|]. split; [|split].
        * intros Hd. constructor; [rewrite Ev; exact I|apply C; auto].
        * intros Hd. destruct (D Hd); discriminate.
        * intros _. apply G; auto.
      + exists 2%nat. repeat split; try lia; try discriminate.
      + exists 2%nat. repeat split; try lia; try discriminate.
  Qed.
  Lemma e_degree_spec n e : good n e -> exists d, e_degree F e = Some d /\ (d <= 2)%nat /\ ((d <= 1)%nat -> lin e) /\
    (d = 0%nat -> exists c, e = e_const F c).
  Proof.
    intros G. destruct (e_degree_loop_spec false e (g_lq _ _ G)) as [d [A [B [C [D _]]]]]. exists d. repeat split; auto.
    intros Hd. destruct (D Hd) as [_ H]. destruct (g_can _ _ G) as [H1 [_ [H2 _]]].
    destruct e as [|t [|u e]]; [contradiction| |].
    - inversion H; subst. exists (coef t). unfold e_const, t_const. f_equal. destruct t; cbn in *. subst; auto.
    - exfalso. inversion H as [|? ? E1 H3]; subst. inversion H3 as [|? ? E2 H4]; subst. inversion H2 as [|? ? _ Hf]; subst. inversion Hf as [|? ? Hlt _]; subst.
      rewrite E1, E2 in Hlt. apply vs_lt_irrefl in Hlt; auto.
  Qed.
  Lemma constant_value_spec n e c : good n e -> constant_value F e = Some c <-> e = e_const F c.
  Proof.
    intros G. unfold constant_value. destruct e as [|t [|u e]]; try (split; intros H; discriminate).
    destruct t as [tc tv]; cbn [vars coef]. destruct tv; split; intros H; try discriminate; inversion H; auto.
  Qed.


  Definition cst_of (e : Expr) (a : F) : F := fold_left (fun a t => if is_const_term t then coef t else a) e a.
  Lemma cst_val e : inc F e -> forall E m a, (In VConst (map vars e) \/ a = 0) ->
    ev E m e = ev E m (filter (fun t => negb (is_const_term t)) e) + cst_of e a.
  Proof.
    induction e as [|t e IH]; intros Hi E m a Ha; unfold cst_of; cbn [filter fold_left].
    - rewrite !ev_nil. destruct Ha as [[]| ->]. ring.
    - inversion Hi as [|? ? Hi2 Hf]; subst. destruct (is_const_term t) eqn:Et; cbn [negb].
      + assert (Ev : vars t = VConst) by (unfold is_const_term in Et; destruct (vars t); auto; discriminate).
        assert (Hn : forall u, In u e -> is_const_term u = false).
        { intros u Hu. rewrite Forall_forall in Hf. specialize (Hf u Hu). rewrite Ev in Hf. unfold is_const_term. destruct (vars u) eqn:Eu; auto. exfalso. apply (vs_lt_irrefl VConst); auto. }
        assert (E1 : filter (fun t => negb (is_const_term t)) e = e).
        { clear -Hn. induction e as [|u e IH]; cbn; auto. rewrite (Hn u) by (left; auto). cbn. f_equal. apply IH. intros; apply Hn; right; auto. }
        assert (E2 : forall b, fold_left (fun a t => if is_const_term t then coef t else a) e b = b).
        { clear -Hn. induction e as [|u e IH]; intros b; cbn; auto. rewrite (Hn u) by (left; auto). apply IH. intros; apply Hn; right; auto. }
        rewrite E1, E2, ev_cons. unfold term_val. rewrite Ev. cbn [vs_val]. ring.
      + rewrite !ev_cons. assert (Ha2 : In VConst (map vars e) \/ a = 0); [|rewrite (IH Hi2 E m a Ha2); unfold cst_of; ring].
        destruct Ha as [Ha|Ha]; auto. left. destruct Ha as [Ha|Ha]; auto. unfold is_const_term in Et. rewrite Ha in Et. discriminate.
  Qed.

  Definition lval (E : Env F) (m : nat -> F) (l : list (Expr * F)) : F := fsum F (map (fun x => ev E m (fst x) * snd x) l).
  Lemma lval_cons E m x l : lval E m (x :: l) = ev E m (fst x) * snd x + lval E m l.
  Proof. reflexivity. Qed.
  Lemma lval_app E m a b : lval E m (a ++ b) = lval E m a + lval E m b.
  Proof. unfold lval. rewrite map_app, fsum_app. auto. Qed.

  Lemma lc_merge_spec ts : forall res, ninc F ts -> inc F (rev res) -> (forall a b, In a res -> In b ts -> vs_le (vars a) (vars b)) ->
    Forall (fun t => coef t <> 0) res ->
    inc F (rev (lc_merge res ts)) /\ Forall (fun t => coef t <> 0) (lc_merge res ts) /\
    (forall t, In t (lc_merge res ts) -> exists u, In u (res ++ ts) /\ vars u = vars t) /\
    (forall E m, ev E m (lc_merge res ts) = ev E m res + ev E m ts).
  Proof.
    induction ts as [|t ts IH]; intros res Hn Hi Hle Hz; cbn [lc_merge].
    - repeat split; auto. + intros t Ht. exists t. rewrite app_nil_r. auto. + intros E m. rewrite ev_nil. ring.
    - inversion Hn as [|? ? Hn2 Hf]; subst. rewrite Forall_forall in Hf.
      assert (Hle' : forall a b, In a res -> In b ts -> vs_le (vars a) (vars b)) by (intros; apply Hle; auto; right; auto).
      destruct (is0 F (coef t)) eqn:E0.
      { apply is0_spec in E0. destruct (IH res Hn2 Hi Hle' Hz) as [A [B [C D]]]. split; [auto|]. split; [auto|]. split.
        - intros u Hu. destruct (C u Hu) as [w [Hw Ew]]. exists w. split; auto. apply in_or_app. apply in_app_or in Hw. destruct Hw; auto. right; right; auto.
        - intros E m. rewrite D, ev_cons. unfold term_val. rewrite E0. ring. }
      assert (Hct : coef t <> 0) by (intros Hx; apply is0_spec in Hx; congruence).
      destruct res as [|r res].
      { destruct (IH [t] Hn2) as [A [B [C D]]]; auto.
        - repeat constructor.
        - intros a b [<-|[]] Hb. apply Hf; auto.
        - split; [auto|]. split; [auto|]. split.
          + intros u Hu. destruct (C u Hu) as [w [Hw Ew]]. exists w. auto.
          + intros E m. rewrite D, !ev_cons, ev_nil. ring. }
      cbn [rev] in Hi. inversion Hz as [|? ? Hr Hz2]; subst.
      assert (Hi0 : inc F (rev res)).
      { clear -Hi. induction (rev res) as [|x l IH]; [constructor|]. cbn in Hi. inversion Hi as [|? ? H1 H2]; subst. constructor; [apply IH; auto|]. apply Forall_app in H2. tauto. }
      assert (Hres_r : forall a, In a res -> vs_lt (vars a) (vars r)).
      { clear -Hi. intros a Ha. apply in_rev in Ha. induction (rev res) as [|x l IH]; [destruct Ha|]. cbn in Hi. inversion Hi as [|? ? H1 H2]; subst. destruct Ha as [<-|Ha]; auto.
        rewrite Forall_forall in H2. apply H2. apply in_or_app; right; left; auto. }
      assert (Hsnoc : forall x, (forall a, In a res -> vs_lt (vars a) (vars x)) -> inc F (rev res ++ [x])).
      { intros x Hx. apply inc_app; auto; [repeat constructor|]. intros a b Ha [<-|[]]. apply Hx. apply in_rev; auto. }
      destruct (vs_eqb (vars r) (vars t)) eqn:Ev.
      + apply vs_eqb_spec in Ev. destruct (is0 F (coef r + coef t)) eqn:Es.
        * apply is0_spec in Es. destruct (IH res Hn2 Hi0) as [A [B [C D]]]; auto. { intros a b Ha Hb. apply Hle'; auto. right; auto. }
          split; [auto|]. split; [auto|]. split.
          -- intros u Hu. destruct (C u Hu) as [w [Hw Ew]]. exists w. split; auto. apply in_app_or in Hw. apply in_or_app. destruct Hw; [left; right; auto|right; right; auto].
          -- intros E m. rewrite D, !ev_cons. unfold term_val. rewrite Ev. transitivity (ev E m res + ev E m ts + vs_val F E m (vars t) * (coef r + coef t)); [rewrite Es; ring|ring].
        * destruct (IH (tm (coef r + coef t) (vars r) :: res) Hn2) as [A [B [C D]]].
          -- cbn [rev]. apply Hsnoc. auto.
          -- intros a b [<-|Ha] Hb; [cbn [vars]; apply Hle'; auto; left; auto|apply Hle'; auto; right; auto].
          -- constructor; auto. cbn [coef]. intros Hx. apply is0_spec in Hx. congruence.
          -- split; [auto|]. split; [auto|]. split.
             ++ intros u Hu. destruct (C u Hu) as [w [Hw Ew]]. cbn [app] in Hw. destruct Hw as [<-|Hw]; [exists r; cbn [vars] in Ew; split; auto; left; auto|].
                exists w. split; auto. apply in_app_or in Hw. apply in_or_app. destruct Hw; [left; right; auto|right; right; auto].
             ++ intros E m. rewrite D, !ev_cons. unfold term_val. cbn [coef vars]. rewrite Ev. ring.
      + assert (Hlt : vs_lt (vars r) (vars t)).
        { destruct (Hle r t (or_introl eq_refl) (or_introl eq_refl)) as [H|H]; auto. apply vs_eqb_spec in H. congruence. }
        destruct (IH (t :: r :: res) Hn2) as [A [B [C D]]].
        * cbn [rev]. apply inc_app; auto; [repeat constructor|]. intros a b Ha [<-|[]]. apply in_app_or in Ha. destruct Ha as [Ha|[<-|[]]]; auto.
          apply in_rev in Ha. eapply vs_lt_trans; eauto.
        * intros a b [<-|Ha] Hb; [apply Hf; auto|apply Hle'; auto].
        * constructor; auto.
        * split; [auto|]. split; [auto|]. split.
          -- intros u Hu. destruct (C u Hu) as [w [Hw Ew]]. exists w. split; auto. cbn [app] in Hw. apply in_or_app. destruct Hw as [<-|[<-|Hw]]; [right; left; auto|left; left; auto|].
             apply in_app_or in Hw. destruct Hw; [left; right; auto|right; right; auto].
          -- intros E m. rewrite D, !ev_cons. ring.
  Qed.
  Lemma mul_constant_good n e c : good n e -> exists e', mul_constant F e c = Some e' /\ good n e' /\ forall E m, ev E m e' = ev E m e * c.
  Proof.
    intros Ge. destruct (mul_constant_spec F (env0 F) e c (g_can _ _ Ge)) as [e' [Ee [A [_ [C _]]]]]. exists e'. split; auto. split.
    2: { intros E m. destruct (mul_constant_spec F E e c (g_can _ _ Ge)) as [e2 [Ee2 [_ [B _]]]]. rewrite Ee in Ee2. injection Ee2 as <-. apply B. }
    split; auto; [|intros x Hx; apply (g_vars _ _ Ge); auto]. unfold mul_constant in Ee. destruct (c =? 0).
    - injection Ee as <-. repeat constructor.
    - apply from_terms_sorted_spec in Ee. destruct Ee as [_ [_ [_ [->|[_ ->]]]]]; [|repeat constructor].
      apply (Forall_map_vars lqv (fun t : Term F => tm (coef t * c) (vars t))); auto. apply Ge.
  Qed.

  Lemma t_mul_lin (a b : Term F) : linv (vars a) -> linv (vars b) -> exists t, t_mul F a b = Some t /\ lqv (vars t) /\
    (forall x, In x (vs_vars (vars t)) -> In x (vs_vars (vars a)) \/ In x (vs_vars (vars b))) /\
    forall E m, term_val F E m t = term_val F E m a * term_val F E m b.
  Proof.
    intros Ha Hb. unfold t_mul. destruct a as [ca va], b as [cb vb]. cbn [vars coef] in *. destruct va; try contradiction; destruct vb; try contradiction; cbn [vs_mul obind];
      eexists; (split; [reflexivity|]); (split; [exact I|]); (split; [cbn; intros; tauto|]); intros E m; unfold term_val; cbn [vars coef vs_val]; ring.
  Qed.
  Lemma prods_spec n v1 v2 : good n v1 -> good n v2 -> lin v1 -> lin v2 ->
    exists l, omap (fun x1 => let* ts := omap (fun x2 => t_mul F x1 x2) v2 in Some (from_terms F ts, 1 : F)) v1 = Some l /\
      Forall (fun x => good n (fst x)) l /\ forall E m, lval E m l = ev E m v1 * ev E m v2.
  Proof.
    intros G1 G2 L1 L2. unfold lin in *.
    assert (Hv1 : forall x, In x (e_vars F v1) -> (1 <= x < n)%nat) by apply G1. assert (Hv2 : forall x, In x (e_vars F v2) -> (1 <= x < n)%nat) by apply G2.
    clear G1 G2. induction L1 as [|t v1 Ht L1 IH]; cbn [omap].
    - exists []. split; auto. split; auto. intros E m. rewrite ev_nil. unfold lval; cbn. unfold fsum; cbn. ring.
    - assert (Hrow : exists ts, omap (fun x2 => t_mul F t x2) v2 = Some ts /\ Forall (fun t => lqv (vars t)) ts /\ (forall x, In x (e_vars F ts) -> (1 <= x < n)%nat) /\
        forall E m, ev E m ts = term_val F E m t * ev E m v2).
      { assert (Ht1 : forall x, In x (vs_vars (vars t)) -> (1 <= x < n)%nat) by (intros x Hx; apply Hv1; unfold e_vars; cbn; apply in_or_app; auto).
        clear IH Hv1. induction L2 as [|u v2 Hu L2 IH]; cbn [omap].
        - exists []. split; auto. split; auto. split; [intros x []|]. intros E m. rewrite !ev_nil. ring.
        - destruct (t_mul_lin t u Ht Hu) as [w [-> [W1 [W2 W3]]]]. destruct IH as [ts [-> [A [B C]]]]. { intros x Hx. apply Hv2. unfold e_vars; cbn. apply in_or_app; auto. }
          eexists. split; [reflexivity|]. split; [constructor; auto|]. split.
          + intros x Hx. unfold e_vars in Hx. cbn in Hx. apply in_app_or in Hx. destruct Hx as [Hx|Hx]; [|apply B; auto]. destruct (W2 x Hx) as [H|H]; auto. apply Hv2. unfold e_vars; cbn. apply in_or_app; auto.
          + intros E m. rewrite !ev_cons, W3, C. ring. }
      destruct Hrow as [ts [-> [A [B C]]]]. cbn [obind]. destruct IH as [l [-> [D D2]]]. { intros x Hx. apply Hv1. unfold e_vars; cbn. apply in_or_app; auto. }
      eexists. split; [reflexivity|]. destruct (good_from_terms n ts A B) as [P Q]. split; [constructor; auto|]. intros E m. rewrite lval_cons. cbn [fst snd]. rewrite Q, C, D2, ev_cons. ring.
  Qed.
  (* ---------------- strip ---------------- *)
  (* linear with at most one variable: what make_single leaves alone *)
  Definition sing (e : Expr) : Prop := lin e /\ (length (filter (fun t => negb (is_const_term t)) e) <= 1)%nat.
  Lemma f_strip_spec n e : good n e -> exists e' c k d, f_strip e = Some (e', c, k) /\ good n e' /\ c <> 0 /\ (forall E m, ev E m e = ev E m e' * c + k) /\
    e_degree F e' = Some d /\ ((Nat.eqb (length e') 1 && (d <=? 1)%nat = true) <-> sing e).
  Proof.
    intros G. destruct (g_can _ _ G) as [N1 [N2 [N3 N4]]]. unfold f_strip, sing.
    set (l := filter (fun t => negb (is_const_term t)) e). fold (cst_of e 0). pose proof (cst_val e N3) as Hv. fold l in Hv.
    assert (Hlc : Forall (fun t => negb (is_const_term t) = true) l). { apply Forall_forall. intros t Ht. apply filter_In in Ht. tauto. }
    assert (Hle : forall t, In t l -> In t e). { intros t Ht. apply filter_In in Ht. tauto. }
    assert (Hel : forall t, In t e -> is_const_term t = false -> In t l). { intros t Ht Hc. unfold l. apply filter_In. rewrite Hc. auto. }
    assert (Hil : inc F l) by (apply inc_filter; auto).
    clearbody l. destruct l as [|t l'].
    - eexists _, _, _, _. split; [reflexivity|]. split; [apply good_default|]. split; [apply f1_neq_f0|]. split.
      + intros E m. rewrite (Hv E m 0) by auto. rewrite ev_nil, ev_default. ring.
      + split; [reflexivity|]. cbn. split; auto. intros _. split; auto. apply Forall_forall. intros t Ht. destruct (is_const_term t) eqn:Et; [|destruct (Hel t Ht Et)].
        unfold is_const_term in Et. destruct (vars t); try discriminate; exact I.
    - assert (Hnz : Forall (fun t => coef t <> 0) e).
      { destruct N4 as [->|]; auto. exfalso. destruct (Hle t (or_introl eq_refl)) as [<-|[]]. inversion Hlc; subst; discriminate. }
      assert (Hc0 : coef t <> 0). { rewrite Forall_forall in Hnz. apply Hnz. apply Hle. left; auto. }
      destruct (is0 F (coef t)) eqn:E0; [apply is0_spec in E0; contradiction|].
      set (f := fun u : Term F => tm (coef u * finv (coef t)) (vars u)).
      assert (Hinl : inc F (t :: l') /\ Forall (fun t => vs_is_normalized (vars t) = true) (t :: l')).
      { split; [exact Hil|]. rewrite Forall_forall in N2; apply Forall_forall; intros; apply N2; auto. }
      assert (Hinc : inc F (map f (t :: l'))). { apply inc_map_vars; [auto|apply Hinl]. }
      assert (Hnorm : Forall (fun t => vs_is_normalized (vars t) = true) (map f (t :: l'))).
      { apply (Forall_map_vars (fun v => vs_is_normalized v = true)); [auto|apply Hinl]. }
      rewrite (from_terms_sorted_ok F (scale (finv (coef t)) (t :: l'))); [|discriminate|exact Hinc|exact Hnorm]. cbn [obind].
      assert (Hfi : finv (coef t) <> 0). { intros Hz. pose proof (finv_l F (coef t) Hc0) as Hy. rewrite Hz in Hy. apply (f1_neq_f0 F). rewrite <- Hy. ring. }
      assert (Hsub : forall u, In u (map f (t :: l')) -> exists w, In w e /\ vars w = vars u).
      { intros u Hu. apply in_map_iff in Hu. destruct Hu as [w [<- Hw]]. exists w. split; auto. }
      assert (Ge' : good n (scale (finv (coef t)) (t :: l'))).
      { split.
        - split; [discriminate|]. split; [auto|]. split; auto. right. apply Forall_forall. intros u Hu. apply in_map_iff in Hu. destruct Hu as [w [<- Hw]]. cbn [coef].
          intros Hz. apply fmul_0 in Hz. destruct Hz; [|contradiction]. rewrite Forall_forall in Hnz. apply (Hnz w); auto.
        - apply Forall_forall. intros u Hu. destruct (Hsub u Hu) as [w [Hw <-]]. pose proof (g_lq _ _ G) as Hq. rewrite Forall_forall in Hq; auto.
        - intros x Hx. apply (g_vars _ _ G). apply (e_vars_sub e _ x Hsub); auto. }
      destruct (e_degree_spec _ _ Ge') as [d [Ed [D1 [D2 D3]]]].
      eexists _, _, _, d. split; [reflexivity|]. split; [exact Ge'|]. split; [auto|]. split.
      + intros E m. rewrite (Hv E m 0) by auto. fold (scale (finv (coef t)) (t :: l')). rewrite ev_scale. f_equal.
        transitivity (ev E m (t :: l') * (finv (coef t) * coef t)); [rewrite finv_l by auto; ring|ring].
      + split; [exact Ed|]. rewrite andb_true_iff, Nat.eqb_eq, Nat.leb_le. unfold scale at 1. rewrite map_length. split.
        * intros [H1 H2]. split; [|lia]. specialize (D2 H2). unfold lin in *. apply Forall_forall. intros u Hu. destruct (is_const_term u) eqn:Eu; [unfold is_const_term in Eu; destruct (vars u); try discriminate; exact I|].
          rewrite Forall_forall in D2. apply (D2 (f u)). apply (in_map f _ _ (Hel u Hu Eu)).
        * intros [H1 H2]. split; [cbn [length] in *; lia|]. destruct l' as [|u l']; [|cbn [length] in H2; lia]. cbn in Ed. unfold lin in H1. rewrite Forall_forall in H1. specialize (H1 t (Hle t (or_introl eq_refl))).
          destruct (vars t); try contradiction; injection Ed as <-; auto.
  Qed.

  (* ---------------- intermediate variables ---------------- *)
  Lemma key_eqb_spec (a b : @Key F) : key_eqb a b = true <-> a = b.
  Proof.
    destruct a as [a x], b as [b y]. unfold key_eqb. cbn [fst snd]. rewrite andb_true_iff, e_eqb_spec, Bool.eqb_true_iff. split; [intros [-> ->]; auto|intros H; inversion H; auto].
  Qed.
  Definition knth (M : @Mid F) (i : nat) : option Key := nth_error (pvec Key (m_pool M)) i.
  Record mgood (M : @Mid F) : Prop := {
    mg_inv : pinv Key key_eqb (m_pool M);
    mg_0 : knth M 0 = Some ([], false);
    mg_c : length (m_coefs M) = mlen M;
    mg_l : length (m_layers M) = mlen M;
    mg_k : forall i mc, nth_error (m_coefs M) i = Some mc -> mk mc <> 0 /\ mkinv mc = finv (mk mc);
    mg_each : forall i e f mc, (1 <= i)%nat -> knth M i = Some (e, f) -> nth_error (m_coefs M) i = Some mc ->
      good i e \/ (e = e_linear F 1 i /\ mc = mcoef_default);
    mg_t : forall i e mc, knth M i = Some (e, true) -> nth_error (m_coefs M) i = Some mc -> mc = mcoef_default
  }.
  Definition Pval (E : Env F) (M : Mid) (m : nat -> F) : Prop :=
    forall i e f mc, (1 <= i)%nat -> knth M i = Some (e, f) -> nth_error (m_coefs M) i = Some mc -> m i = ev E m e * mk mc + mb mc.
  (* a new variable that stands for k * e + b *)
  Inductive mgrow (M : Mid) : Mid -> Prop :=
  | mg_refl : mgrow M M
  | mg_step M' e f c p ly : mgrow M M' -> good (mlen M') e -> kadd (m_pool M') (e, f) = (mlen M', p) -> mk c <> 0 -> mkinv c = finv (mk c) -> (f = true -> c = mcoef_default) -> mgrow M (m_ext M' p c ly).

  Lemma kadd_new (M : @Mid F) k p : mgood M -> kadd (m_pool M) k = (mlen M, p) -> pvec Key p = pvec Key (m_pool M) ++ [k] /\ pinv Key key_eqb p.
  Proof.
    intros G H. pose proof (pool_add_spec Key key_eqb key_eqb_spec (m_pool M) k (mg_inv _ G)) as Hs. unfold kadd in H. rewrite H in Hs. destruct Hs as [A [B _]]. split; auto.
    unfold pool_add in H. destruct (pfind Key key_eqb k (pmap Key (m_pool M))) as [i|] eqn:E.
    - exfalso. inversion H; subst. unfold pool_get in B. apply nth_error_Some_lt in B. unfold mlen in *. lia.
    - inversion H; subst. reflexivity.
  Qed.
  Lemma kadd_cases (M : @Mid F) k i p : mgood M -> kadd (m_pool M) k = (i, p) -> (i = mlen M \/ ((i < mlen M)%nat /\ p = m_pool M /\ knth M i = Some k)).
  Proof.
    intros G H. pose proof (pool_add_spec Key key_eqb key_eqb_spec (m_pool M) k (mg_inv _ G)) as Hs. unfold kadd in H. rewrite H in Hs. destruct Hs as [A [B _]].
    unfold pool_add in H. destruct (pfind Key key_eqb k (pmap Key (m_pool M))) as [j|] eqn:E.
    - right. inversion H; subst. split; [|auto]. unfold pool_get in B. apply nth_error_Some_lt in B. exact B.
    - left. injection H as <- _. reflexivity.
  Qed.
  Lemma m_ext_len (M : @Mid F) p c ly k : pvec Key p = pvec Key (m_pool M) ++ [k] -> mlen (m_ext M p c ly) = S (mlen M).
  Proof. intros H. unfold mlen, m_ext; cbn [m_pool]. rewrite H, app_length. cbn. lia. Qed.
  Lemma nth_snoc {A} (l : list A) x i y : nth_error (l ++ [x]) i = Some y -> nth_error l i = Some y \/ (i = length l /\ y = x).
  Proof.
    intros H. destruct (lt_dec i (length l)) as [Hl|Hl]; [rewrite nth_error_app1 in H by auto; auto|]. rewrite nth_error_app2 in H by lia. right.
    destruct (i - length l)%nat as [|j] eqn:Ej; [injection H as <-; split; [lia|auto]|destruct j; discriminate].
  Qed.
  (* adding one variable, real or not *)
  Lemma m_ext_good (M : @Mid F) k p c ly : mgood M -> kadd (m_pool M) k = (mlen M, p) -> mk c <> 0 -> mkinv c = finv (mk c) -> (snd k = true -> c = mcoef_default) ->
    (good (mlen M) (fst k) \/ (fst k = e_linear F 1 (mlen M) /\ c = mcoef_default)) -> (1 <= mlen M)%nat -> mgood (m_ext M p c ly).
  Proof.
    intros G Hk Hc Hi Ht He Hl. destruct (kadd_new M k p G Hk) as [Hp Hinv]. pose proof (mg_c _ G) as Lc. pose proof (mg_l _ G) as Ll.
    split; unfold knth in *; cbn [m_ext m_pool m_coefs m_layers]; auto.
    - rewrite Hp. apply nth_error_app_l. apply (mg_0 _ G).
    - rewrite (m_ext_len _ _ _ _ _ Hp), app_length. cbn. lia.
    - rewrite (m_ext_len _ _ _ _ _ Hp), app_length. cbn. lia.
    - intros i mc H. apply nth_snoc in H. destruct H as [H|[_ ->]]; [apply (mg_k _ G i); auto|auto].
    - rewrite Hp. intros i e f mc H1 H2 H3. apply nth_snoc in H2. apply nth_snoc in H3. destruct H2 as [H2|[-> H2]].
      + destruct H3 as [H3|[-> _]]; [eapply (mg_each _ G); eauto|]. apply nth_error_Some_lt in H2. unfold mlen in *. lia.
      + destruct H3 as [H3|[_ ->]]; [apply nth_error_Some_lt in H3; unfold mlen in *; lia|]. subst k. cbn [fst] in He. exact He.
    - rewrite Hp. intros i e mc H2 H3. apply nth_snoc in H2. apply nth_snoc in H3. destruct H2 as [H2|[-> H2]].
      + destruct H3 as [H3|[-> _]]; [eapply (mg_t _ G); eauto|]. apply nth_error_Some_lt in H2. unfold mlen in *. lia.
      + destruct H3 as [H3|[_ ->]]; [apply nth_error_Some_lt in H3; unfold mlen in *; lia|]. subst k. auto.
  Qed.
  Lemma mgood_len (M : @Mid F) : mgood M -> (1 <= mlen M)%nat.
  Proof. intros G. pose proof (mg_0 _ G) as H. apply nth_error_Some_lt in H. unfold mlen. lia. Qed.
  Lemma mgrow_good M M' : mgood M -> mgrow M M' -> mgood M'.
  Proof. intros G H. induction H as [|M' e f c p ly H IH Ge Hk Hc Hi Ht]; auto. apply (m_ext_good M' (e, f)); auto. apply mgood_len; auto. Qed.
  Lemma mgrow_trans M M' M'' : mgrow M M' -> mgrow M' M'' -> mgrow M M''.
  Proof. intros H1 H2. induction H2; auto. econstructor; eauto. Qed.
  Lemma mgrow_len M M' : mgood M -> mgrow M M' -> (mlen M <= mlen M')%nat.
  Proof.
    intros G H. induction H as [|M' e f c p ly H IH Ge Hk Hc Hi Ht]; auto. destruct (kadd_new M' (e, f) p) as [Hp _]; auto. { eapply mgrow_good; eauto. }
    rewrite (m_ext_len _ _ _ _ _ Hp). lia.
  Qed.
  Lemma mgrow_nth M M' i k mc : mgood M -> mgrow M M' -> knth M i = Some k -> nth_error (m_coefs M) i = Some mc -> knth M' i = Some k /\ nth_error (m_coefs M') i = Some mc.
  Proof.
    intros G H H1 H2. induction H as [|M' e f c p ly H IH Ge Hk Hc Hi Ht]; auto. destruct IH as [A B]. destruct (kadd_new M' (e, f) p) as [Hp _]; auto. { eapply mgrow_good; eauto. }
    split; [|cbn; apply nth_error_app_l; auto]. unfold knth in *. cbn [m_ext m_pool]. rewrite Hp. apply nth_error_app_l; auto.
  Qed.
  Lemma mgrow_Pval E M M' m : mgood M -> mgrow M M' -> Pval E M' m -> Pval E M m.
  Proof. intros G H P i e f mc Hi H1 H2. destruct (mgrow_nth _ _ _ _ _ G H H1 H2). eapply P; eauto. Qed.
  Lemma good_grow M M' e : mgood M -> mgrow M M' -> good (mlen M) e -> good (mlen M') e.
  Proof. intros G H Ge. apply (good_mono _ _ _ Ge). apply mgrow_len; auto. Qed.
  Lemma knth_coef (M : @Mid F) i k : mgood M -> knth M i = Some k -> exists mc, nth_error (m_coefs M) i = Some mc.
  Proof. intros G H. apply nth_error_Some_ex. rewrite (mg_c _ G). apply nth_error_Some_lt in H. auto. Qed.

  Lemma good_kx n c k x : c <> 0 -> (1 <= x < n)%nat -> exists e, from_terms F (t_linear F c x :: if is0 F k then [] else [t_const F k]) = e /\ good n e /\ sing e /\ (forall E m, ev E m e = m x * c + k).
  Proof.
    intros Hc Hx. eexists. split; [reflexivity|]. set (ts := t_linear F c x :: (if is0 F k then [] else [t_const F k])).
    assert (Hts : lin ts) by (unfold ts; destruct (is0 F k); repeat constructor).
    destruct (good_from_terms n ts) as [Q1 Q2].
    { eapply Forall_impl; [|exact Hts]. intros t. cbn beta. destruct (vars t); cbn; auto. }
    { intros y. unfold ts. destruct (is0 F k); cbn; intros [<-|[]]; auto. }
    split; auto. split.
    - split; [apply good_lin_from_terms; auto|].
      destruct (from_terms_spec F (env0 F) ts) as [[_ [_ [Hinc _]]] [_ Hin]].
      assert (Hv : forall t, In t (from_terms F ts) -> is_const_term t = false -> vars t = VLinear x).
      { intros t Ht Hct. destruct (Hin t Ht) as [->|[u [Hu Eu]]]; [discriminate|]. unfold is_const_term in Hct. rewrite Eu in *. unfold ts in Hu. destruct Hu as [<-|Hu]; [reflexivity|].
        destruct (is0 F k); [destruct Hu|]. destruct Hu as [<-|[]]. cbn in Hct. discriminate. }
      assert (Hinc2 : inc F (filter (fun t => negb (is_const_term t)) (from_terms F ts))) by (apply inc_filter; auto).
      assert (Hv2 : forall t, In t (filter (fun t => negb (is_const_term t)) (from_terms F ts)) -> vars t = VLinear x).
      { intros t Ht. apply filter_In in Ht. destruct Ht as [H1 H2]. apply Hv; auto. destruct (is_const_term t); [discriminate|auto]. }
      destruct (filter _ _) as [|a [|b l]]; cbn; auto. exfalso. inversion Hinc2 as [|? ? _ Hf]; subst. inversion Hf as [|? ? Hlt _]; subst.
      rewrite (Hv2 a), (Hv2 b) in Hlt by (cbn; auto). apply vs_lt_irrefl in Hlt; auto.
    - intros E m. rewrite Q2. unfold ts. rewrite ev_cons. unfold term_val; cbn [t_linear vars coef vs_val]. destruct (is0 F k) eqn:Ek.
      + apply is0_spec in Ek. subst k. rewrite ev_nil. ring.
      + fold (e_const F k). rewrite ev_const. ring.
  Qed.
  Lemma f_unstrip_spec M idx e f mc c k : mgood M -> (1 <= idx)%nat -> knth M idx = Some (e, f) -> nth_error (m_coefs M) idx = Some mc -> c <> 0 ->
    exists r, f_unstrip idx c k mc = Some r /\ good (mlen M) r /\ sing r /\ forall E m, Pval E M m -> ev E m r = ev E m e * c + k.
  Proof.
    intros G Hi Hk Hc Hnz. unfold f_unstrip. destruct (Nat.eqb_spec idx 0); [lia|]. destruct (mg_k _ G _ _ Hc) as [K1 K2].
    destruct (good_kx (mlen M) (mkinv mc * c) (k - mb mc * (mkinv mc * c)) idx) as [r [-> [R1 [R2 R3]]]].
    - rewrite K2. intros Hz. apply fmul_0 in Hz. destruct Hz as [Hz|Hz]; [|contradiction]. pose proof (finv_l F _ K1) as Hy. rewrite Hz in Hy. apply (f1_neq_f0 F). rewrite <- Hy. ring.
    - split; auto. apply nth_error_Some_lt in Hk. exact Hk.
    - exists r. split; auto. split; auto. split; auto. intros E m P. rewrite R3. rewrite (P idx e f mc Hi Hk Hc), K2.
      transitivity (ev E m e * c * (finv (mk mc) * mk mc) + k); [ring|]. rewrite finv_l by auto. ring.
  Qed.
  Lemma nonnil_idx (M : @Mid F) idx e f : mgood M -> knth M idx = Some (e, f) -> e <> [] -> (1 <= idx)%nat.
  Proof. intros G H Hne. destruct idx; [|lia]. rewrite (mg_0 _ G) in H. injection H as <- <-. contradiction. Qed.
  Lemma sing_linear x : sing (e_linear F 1 x).
  Proof. split; [repeat constructor|]. cbn. auto. Qed.

  Lemma make_single_spec M e : mgood M -> good (mlen M) e -> exists M' e', make_single M e = Some (M', e') /\ mgrow M M' /\ good (mlen M') e' /\ sing e' /\
    forall E m, Pval E M' m -> ev E m e' = ev E m e.
  Proof.
    intros G Ge. unfold make_single. destruct (f_strip_spec _ _ Ge) as [e1 [c [k [d [-> [G1 [Hc [V1 [Ed Hs]]]]]]]]]. cbn [obind]. rewrite Ed. cbn [obind].
    destruct (Nat.eqb (length e1) 1 && (d <=? 1)%nat) eqn:Ec.
    - exists M, e. split; auto. split; [constructor|]. split; auto. split; [apply Hs; auto|]. auto.
    - destruct (kadd (m_pool M) (e1, false)) as [idx p] eqn:Ek. rewrite (mg_c _ G). destruct (kadd_cases _ _ _ _ G Ek) as [->|[Hlt [-> Hn]]].
      + rewrite Nat.eqb_refl. destruct (is0 F c) eqn:E0; [apply is0_spec in E0; contradiction|].
        eexists _, _. split; [reflexivity|]. assert (Hgr : forall ly, mgrow M (m_ext M p {| mk := c; mkinv := finv c; mb := k |} ly)) by (intros; econstructor; eauto; [constructor|discriminate]).
        split; [apply Hgr|]. destruct (kadd_new _ _ _ G Ek) as [Hp _]. rewrite (m_ext_len _ _ _ _ _ Hp). pose proof (mgood_len _ G).
        split; [apply good_linear; [apply f1_neq_f0|lia]|]. split; [apply sing_linear|].
        intros E m P. rewrite ev_lin, (P (mlen M) e1 false {| mk := c; mkinv := finv c; mb := k |}); auto.
        * cbn [mk mb]. rewrite V1. ring.
        * unfold knth. cbn [m_ext m_pool]. rewrite Hp. unfold mlen. rewrite nth_error_app2 by auto. rewrite Nat.sub_diag. auto.
        * cbn [m_ext m_coefs]. rewrite <- (mg_c _ G). rewrite nth_error_app2 by auto. rewrite Nat.sub_diag. auto.
      + destruct (Nat.eqb_spec idx (mlen M)); [lia|]. destruct (knth_coef _ _ _ G Hn) as [mc Hmc]. rewrite Hmc. cbn [obind].
        pose proof (nonnil_idx _ _ _ _ G Hn (good_nonnil _ _ G1)) as Hi.
        destruct (f_unstrip_spec M idx e1 false mc c k G Hi Hn Hmc Hc) as [r [-> [R1 [R2 R3]]]]. cbn [obind]. eexists _, _. split; [reflexivity|]. split; [constructor|].
        split; auto. split; auto. intros E m P; rewrite R3, V1; auto.
  Qed.
  Lemma try_make_single_spec M e : mgood M -> good (mlen M) e -> exists e', try_make_single M e = Some e' /\ good (mlen M) e' /\
    forall E m, Pval E M m -> ev E m e' = ev E m e.
  Proof.
    intros G Ge. unfold try_make_single. destruct (f_strip_spec _ _ Ge) as [e1 [c [k [d [-> [G1 [Hc [V1 [Ed Hs]]]]]]]]]. cbn [obind]. rewrite Ed. cbn [obind].
    destruct (Nat.eqb (length e1) 1 && (d <=? 1)%nat) eqn:Ec; [exists e; auto|].
    destruct (pool_try_get_idx Key key_eqb (m_pool M) (e1, false)) as [idx|] eqn:Ei; [|exists e; auto].
    unfold pool_try_get_idx in Ei. destruct (mg_inv _ G) as [_ Hinv]. apply Hinv in Ei. fold (knth M idx) in Ei.
    destruct (knth_coef _ _ _ G Ei) as [mc Hmc]. rewrite Hmc. cbn [obind]. pose proof (nonnil_idx _ _ _ _ G Ei (good_nonnil _ _ G1)) as Hi.
    destruct (f_unstrip_spec M idx e1 false mc c k G Hi Ei Hmc Hc) as [r [-> [R1 [R2 R3]]]]. exists r. split; auto. split; auto. intros E m P. rewrite R3, V1; auto.
  Qed.
  Lemma m_ext_val E M k p c ly m : mgood M -> kadd (m_pool M) k = (mlen M, p) -> Pval E (m_ext M p c ly) m -> m (mlen M) = ev E m (fst k) * mk c + mb c.
  Proof.
    intros G Ek P. destruct (kadd_new _ _ _ G Ek) as [Hp _]. destruct k as [e f]. cbn [fst]. pose proof (mgood_len _ G). apply (P (mlen M) e f c); auto.
    - unfold knth. cbn [m_ext m_pool]. rewrite Hp. unfold mlen. rewrite nth_error_app2 by auto. rewrite Nat.sub_diag. auto.
    - cbn [m_ext m_coefs]. rewrite <- (mg_c _ G). rewrite nth_error_app2 by auto. rewrite Nat.sub_diag. auto.
  Qed.
  Lemma make_really_single_spec M e : mgood M -> good (mlen M) e -> exists M' x, make_really_single M e = Some (M', x) /\ mgrow M M' /\ (1 <= x < mlen M')%nat /\
    forall E m, Pval E M' m -> m x = ev E m e.
  Proof.
    intros G Ge. unfold make_really_single. destruct (e_degree_spec _ _ Ge) as [d0 [Ed0 [D1 [D2 D3]]]]. rewrite Ed0. cbn [obind].
    destruct (Nat.eqb (length e) 1 && Nat.eqb d0 1 && (coef (hd (t_default F) e) =? 1)) eqn:E1.
    - rewrite !andb_true_iff in E1. destruct E1 as [[A B] C]. apply Nat.eqb_eq in A. apply Nat.eqb_eq in B. subst d0. destruct e as [|t [|u e]]; try discriminate. cbn [hd] in *. apply feqb_spec in C.
      specialize (D2 (le_n 1)). inversion D2 as [|? ? Hl _]; subst. destruct (vars t) eqn:Ev; try contradiction.
      + cbn in Ed0. rewrite Ev in Ed0. discriminate.
      + exists M, x. split; auto. split; [constructor|]. split.
        * apply (g_vars _ _ Ge). unfold e_vars. cbn. rewrite Ev. cbn. auto.
        * intros E m _. rewrite ev_cons, ev_nil. unfold term_val. rewrite Ev, C. cbn. ring.
    - clear E1. destruct (f_strip_spec _ _ Ge) as [e1 [c [k [d [-> [G1 [Hc [V1 [Ed Hs]]]]]]]]]. cbn [obind].
      destruct (kadd (m_pool M) (e1, false)) as [idx p] eqn:Ek. rewrite (mg_c _ G). destruct (kadd_cases _ _ _ _ G Ek) as [->|[Hlt [-> Hn]]].
      + rewrite Nat.eqb_refl. destruct (is0 F c) eqn:E0; [apply is0_spec in E0; contradiction|].
        eexists _, _. split; [reflexivity|]. split; [econstructor; eauto; [constructor|discriminate]|]. destruct (kadd_new _ _ _ G Ek) as [Hp _]. rewrite (m_ext_len _ _ _ _ _ Hp). pose proof (mgood_len _ G). split; [lia|].
        intros E m P. rewrite (m_ext_val _ _ _ _ _ _ _ G Ek P). cbn [fst mk mb]. rewrite V1. auto.
      + destruct (Nat.eqb_spec idx (mlen M)); [lia|]. destruct (knth_coef _ _ _ G Hn) as [mc Hmc]. rewrite Hmc. cbn [obind].
        pose proof (nonnil_idx _ _ _ _ G Hn (good_nonnil _ _ G1)) as Hi.
        destruct ((c =? mk mc) && (k =? mb mc)) eqn:Ec.
        * apply andb_true_iff in Ec. rewrite !feqb_spec in Ec. destruct Ec as [-> ->]. exists M, idx. split; auto. split; [constructor|]. split; [auto|].
          intros E m P. rewrite (P idx e1 false mc Hi Hn Hmc), V1. auto.
        * destruct (make_single_spec M e G Ge) as [M1 [r [-> [A [B [C D]]]]]]. cbn [obind fst snd]. pose proof (mgrow_good _ _ G A) as G'.
          destruct (kadd (m_pool M1) (r, true)) as [idx2 p2] eqn:Ek2. rewrite (mg_c _ G'). destruct (kadd_cases _ _ _ _ G' Ek2) as [->|[Hlt2 [-> Hn2]]].
          -- rewrite Nat.eqb_refl. eexists _, _. split; [reflexivity|].
             assert (Hgr : forall ly, mgrow M1 (m_ext M1 p2 mcoef_default ly)).
             { intros ly. econstructor; eauto; [constructor|apply f1_neq_f0|]. cbn. pose proof (finv_l F 1 (f1_neq_f0 F)) as Hy. rewrite <- Hy at 1. ring. }
             split; [eapply mgrow_trans; eauto|]. destruct (kadd_new _ _ _ G' Ek2) as [Hp _]. rewrite (m_ext_len _ _ _ _ _ Hp). pose proof (mgood_len _ G'). split; [lia|].
             intros E m P. rewrite (m_ext_val _ _ _ _ _ _ _ G' Ek2 P). cbn [fst mcoef_default mk mb]. rewrite D; [ring|]. eapply mgrow_Pval; eauto.
          -- destruct (Nat.eqb_spec idx2 (mlen M1)); [lia|]. eexists _, _. split; [reflexivity|]. split; auto. pose proof (nonnil_idx _ _ _ _ G' Hn2 (good_nonnil _ _ B)) as Hi2. split; [lia|].
             intros E m P. destruct (knth_coef _ _ _ G' Hn2) as [mc2 Hmc2]. rewrite (P idx2 r true mc2 Hi2 Hn2 Hmc2), <- (D E m P).
             assert (mc2 = mcoef_default) as ->; [eapply (mg_t _ G'); eauto|cbn; ring].
  Qed.
  (* ---------------- sums ---------------- *)
  Definition tok (n : nat) (ts : list (Term F)) : Prop := Forall (fun t => lqv (vars t)) ts /\ forall x, In x (e_vars F ts) -> (1 <= x < n)%nat.
  Lemma tok_good n e : good n e -> tok n e.
  Proof. intros G. split; apply G. Qed.
  Lemma tok_mono n n' e : tok n e -> (n <= n')%nat -> tok n' e.
  Proof. intros [A B] H. split; auto. intros x Hx. apply B in Hx. lia. Qed.
  Lemma tok_app n a b : tok n (a ++ b) <-> tok n a /\ tok n b.
  Proof.
    unfold tok. rewrite Forall_app. unfold e_vars. rewrite flat_map_app. split.
    - intros [[A B] C]. repeat split; auto; apply C; apply in_or_app; auto.
    - intros [[A B] [C D]]. split; auto. intros x Hx. apply in_app_or in Hx. destruct Hx; auto.
  Qed.
  Lemma tok_perm n a b : Permutation a b -> tok n a -> tok n b.
  Proof.
    intros H [A B]. split; [eapply Permutation_Forall; eauto|]. intros x Hx. apply B. unfold e_vars in *. eapply Permutation_in; [apply Permutation_flat_map, Permutation_sym, H|auto].
  Qed.
  Lemma la_loop_spec ts : forall M cur last, mgood M -> tok (mlen M) cur -> tok (mlen M) ts -> exists M' e, la_loop M cur last ts = Some (M', e) /\ mgrow M M' /\ good (mlen M') e /\
    forall E m, Pval E M' m -> ev E m e = ev E m cur + ev E m ts.
  Proof.
    induction ts as [|t ts IH]; intros M cur last G Hc Ht; cbn [la_loop].
    - destruct (good_from_terms (mlen M) cur) as [A B]; [apply Hc|apply Hc|]. exists M, (from_terms F cur). split; auto. split; [constructor|]. split; auto. intros E m _. rewrite B, ev_nil. ring.
    - apply (tok_app _ [t] ts) in Ht. destruct Ht as [Ht1 Ht2].
      set (change := match last with None => false | Some l => negb (Nat.eqb l (layer_of_varspec M (vars t))) end).
      assert (H : exists M1 cur1, (if change then make_single M (from_terms F cur) else Some (M, cur)) = Some (M1, cur1) /\ mgrow M M1 /\ tok (mlen M1) cur1 /\ forall E m, Pval E M1 m -> ev E m cur1 = ev E m cur).
      { destruct change; [|exists M, cur; split; auto; split; [constructor|auto]]. destruct (good_from_terms (mlen M) cur) as [A B]; [apply Hc|apply Hc|].
        destruct (make_single_spec M _ G A) as [M1 [e1 [-> [P [Q [_ R]]]]]]. exists M1, e1. split; auto. split; auto. split; [apply tok_good; auto|]. intros E m Hm. rewrite R, B; auto. }
      destruct H as [M1 [cur1 [-> [P [Q R]]]]]. cbn [obind fst snd]. pose proof (mgrow_len _ _ G P) as Hl.
      destruct (IH M1 (cur1 ++ [t]) (Some (layer_of_varspec M (vars t))) (mgrow_good _ _ G P)) as [M2 [e [-> [A [B C]]]]].
      + apply tok_app. split; auto. eapply tok_mono; eauto.
      + eapply tok_mono; eauto.
      + exists M2, e. split; auto. split; [eapply mgrow_trans; eauto|]. split; auto. intros E m Hm. rewrite (C E m Hm), ev_app, !ev_cons, ev_nil, (R E m); [ring|]. eapply mgrow_Pval; [eapply mgrow_good; eauto| |]; eauto.
  Qed.
  Lemma layered_add_spec M ts : mgood M -> good (mlen M) ts -> exists M' e, layered_add M ts = Some (M', e) /\ mgrow M M' /\ good (mlen M') e /\ forall E m, Pval E M' m -> ev E m e = ev E m ts.
  Proof.
    intros G Gt. assert (Hs : exists M' e, (let* e := from_terms_sorted F ts in Some (M, e)) = Some (M', e) /\ mgrow M M' /\ good (mlen M') e /\ forall E m, Pval E M' m -> ev E m e = ev E m ts).
    { destruct (g_can _ _ Gt) as [N1 [N2 [N3 _]]]. rewrite from_terms_sorted_ok by auto. cbn [obind]. exists M, ts. split; auto. split; [constructor|]. auto. }
    unfold layered_add. destruct ts as [|t [|u ts]]; auto. destruct (forallb _ _); auto. clear Hs.
    pose proof (isort_perm (lay_leb M) (t :: u :: ts)) as Hp.
    destruct (la_loop_spec (isort (lay_leb M) (t :: u :: ts)) M [] None G) as [M' [e [E1 [A [B C]]]]].
    - split; [constructor|intros x []].
    - eapply tok_perm; [apply Permutation_sym, Hp|apply tok_good; auto].
    - exists M', e. split; auto. split; auto. split; auto. intros E m Hm. rewrite (C E m Hm), ev_nil, (ev_perm E m _ _ Hp). ring.
  Qed.
  Lemma fb_terms_spec n l : Forall (fun x => good n (fst x)) l -> exists ts, fb_terms l = Some ts /\ tok n ts /\ Forall (fun t => vs_is_normalized (vars t) = true) ts /\ forall E m, ev E m ts = lval E m l.
  Proof.
    induction l as [|[e c] l IH]; intros H; cbn [fb_terms].
    - exists []. split; auto. split; [split; [constructor|intros x []]|]. split; [constructor|]. intros E m. rewrite ev_nil. reflexivity.
    - inversion H as [|? ? Ge Hl]; subst. cbn [fst] in Ge. destruct (IH Hl) as [ts [E1 [T [N V]]]]. destruct (is0 F c) eqn:Ec.
      + exists ts. split; auto. split; auto. split; auto. intros E m. apply is0_spec in Ec. subst c. rewrite V, lval_cons. cbn [fst snd]. ring.
      + destruct e as [|t0 e0]; [exfalso; apply (good_nonnil _ _ Ge); auto|]. rewrite E1. cbn [obind]. eexists. split; [reflexivity|]. set (e := t0 :: e0) in *. split; [|split].
        * apply tok_app. split; auto. split.
          -- apply (Forall_map_vars lqv); auto. apply Ge.
          -- intros x Hx. apply (g_vars _ _ Ge). apply (e_vars_sub e (scale c e) x); auto. intros u Hu. apply in_map_iff in Hu. destruct Hu as [w [<- Hw]]. exists w; auto.
        * apply Forall_app. split; auto. apply (Forall_map_vars (fun v => vs_is_normalized v = true)); auto. apply (g_can _ _ Ge).
        * intros E m. rewrite ev_app, ev_scale, V, lval_cons. auto.
  Qed.
  Lemma f_lin_comb_inner_spec M l : mgood M -> Forall (fun x => good (mlen M) (fst x)) l ->
    exists M' e, f_lin_comb_inner M l = Some (M', e) /\ mgrow M M' /\ good (mlen M') e /\ forall E m, Pval E M' m -> ev E m e = lval E m l.
  Proof.
    intros G H. unfold f_lin_comb_inner. destruct l as [|x0 l0].
    { eexists _, _. split; [reflexivity|]. split; [constructor|]. split; [apply good_default|]. intros E m _. rewrite ev_default. reflexivity. }
    set (l := x0 :: l0) in *. assert (Ht : exists vs, omap (fun x => let* e := try_make_single M (fst x) in Some (e, snd x)) l = Some vs /\ Forall (fun x => good (mlen M) (fst x)) vs /\
      forall E m, Pval E M m -> lval E m vs = lval E m l).
    { clearbody l. induction H as [|[e c] l Ge H IH]; cbn [omap].
      - exists []. split; auto.
      - cbn [fst snd] in *. destruct (try_make_single_spec M e G Ge) as [e' [-> [A B]]]. cbn [obind]. destruct IH as [vs [-> [C D]]]. cbn [obind]. eexists. split; [reflexivity|]. split; [constructor; auto|].
        intros E m P. rewrite !lval_cons, (D E m P). cbn [fst snd]. rewrite (B E m P). reflexivity. }
    destruct Ht as [vs [-> [Gv Vv]]]. cbn [obind]. clear H. revert Vv. generalize l as l'. clear l. intros l Vv.
    assert (Hmain : exists M' e, (let* ts := fb_terms vs in match lc_merge [] (isort vars_leb ts) with [] => Some (M, [t_default F]) | res => layered_add M (rev res) end) = Some (M', e) /\
      mgrow M M' /\ good (mlen M') e /\ forall E m, Pval E M' m -> ev E m e = lval E m l).
    { destruct (fb_terms_spec (mlen M) vs Gv) as [ts [-> [T [N V]]]]. cbn [obind]. pose proof (isort_perm vars_leb ts) as Hp.
      destruct (lc_merge_spec (isort vars_leb ts) []) as [M1 [M2 [M3 M4]]]; [| constructor | intros ? ? [] | constructor |].
      { pose proof (isort_sorted vars_leb vars_leb_total vars_leb_trans ts) as Hs. clear -Hs. induction Hs as [|t l H IH Hf]; constructor; auto. eapply Forall_impl; [|exact Hf].
        intros; apply vars_leb_le; auto. }
      assert (Hval : forall E m, ev E m (lc_merge [] (isort vars_leb ts)) = lval E m vs).
      { intros E m. rewrite M4, ev_nil, (ev_perm E m _ _ Hp), V. ring. }
      assert (Hsub : forall t, In t (lc_merge [] (isort vars_leb ts)) -> exists u, In u ts /\ vars u = vars t).
      { intros t Ht. destruct (M3 t Ht) as [u [Hu Eu]]. exists u. split; auto. apply (Permutation_in _ Hp). auto. }
      destruct (lc_merge [] (isort vars_leb ts)) as [|r res] eqn:Er.
      - eexists _, _. split; [reflexivity|]. split; [constructor|]. split; [apply good_default|]. intros E m P. rewrite ev_default, <- (Vv E m P), <- Hval, ev_nil. auto.
      - destruct (layered_add_spec M (rev (r :: res)) G) as [M' [e [-> [A [B C]]]]].
        + assert (Hne : rev (r :: res) <> []) by (cbn; intros Hx; apply app_eq_nil in Hx; destruct Hx; discriminate).
          split; [split; [auto|]; split; [|split; [auto|]; right; apply Forall_rev; auto]| |].
          * apply Forall_rev. apply Forall_forall. intros t Ht. destruct (Hsub t Ht) as [u [Hu <-]]. rewrite Forall_forall in N. apply N; auto.
          * apply Forall_rev. apply Forall_forall. intros t Ht. destruct (Hsub t Ht) as [u [Hu <-]]. destruct T as [T _]. rewrite Forall_forall in T. apply T; auto.
          * intros y Hy. apply T. apply (e_vars_sub ts (rev (r :: res)) y); auto. intros t Ht. apply Hsub. apply in_rev; auto.
        + exists M', e. split; auto. split; auto. split; auto. intros E m P. rewrite (C E m P), (ev_perm E m _ (r :: res)) by (apply Permutation_sym, Permutation_rev).
          rewrite Hval. apply Vv. eapply mgrow_Pval; eauto. }
    destruct vs as [|[e c] [|x vs]]; auto. inversion Gv as [|? ? Ge _]; subst. cbn [fst] in Ge.
    destruct (mul_constant_good _ e c Ge) as [e' [-> [A B]]]. cbn [obind]. destruct (layered_add_spec M e' G A) as [M' [e2 [-> [P [Q R]]]]]. exists M', e2. split; auto. split; auto. split; auto.
    intros E m Hm. rewrite (R E m Hm), B. rewrite <- Vv by (eapply mgrow_Pval; eauto). rewrite lval_cons. cbn [fst snd]. unfold lval, fsum. cbn. ring.
  Qed.

  (* ---------------- products ---------------- *)
  Lemma count_spec n e : good n e -> exists d0 d1 d2, count_of_degrees e = Some (d0, d1, d2) /\ (d0 + d1 + d2 = length e)%nat /\ (d0 <= 1)%nat /\
    (lin e <-> d2 = 0%nat) /\ (sing e <-> (d2 = 0 /\ d1 <= 1)%nat) /\ length (filter (fun t => negb (is_const_term t)) e) = (d1 + d2)%nat.
  Proof.
    intros G.
    assert (H : exists d0 d1 d2, count_of_degrees e = Some (d0, d1, d2) /\ (d0 + d1 + d2 = length e)%nat /\ d0 = length (filter is_const_term e) /\
      (lin e <-> d2 = 0%nat) /\ length (filter (fun t => negb (is_const_term t)) e) = (d1 + d2)%nat).
    { pose proof (g_lq _ _ G) as H. clear G. unfold lin. induction H as [|t e Ht H IH]; cbn [count_of_degrees].
      - exists 0%nat, 0%nat, 0%nat. repeat split; auto.
      - destruct IH as [d0 [d1 [d2 [-> [L [A [B C]]]]]]]. cbn [obind filter length]. assert (Ht2 : is_const_term t = match vars t with VConst => true | _ => false end) by reflexivity. rewrite Ht2. destruct (vars t) eqn:Ev; try contradiction; cbn [negb length].
        + exists (S d0), d1, d2. split; auto. split; [lia|]. split; [lia|]. split; [|lia]. rewrite <- B. split; intros Hx; [inversion Hx; auto|constructor; auto; rewrite Ev; exact I].
        + exists d0, (S d1), d2. split; auto. split; [lia|]. split; [lia|]. split; [|lia]. rewrite <- B. split; intros Hx; [inversion Hx; auto|constructor; auto; rewrite Ev; exact I].
        + exists d0, d1, (S d2). split; auto. split; [lia|]. split; [lia|]. split; [|lia]. split; intros Hx; [|discriminate]. inversion Hx as [|? ? Hy _]; subst. rewrite Ev in Hy. destruct Hy.
        + exists d0, d1, (S d2). split; auto. split; [lia|]. split; [lia|]. split; [|lia]. split; intros Hx; [|discriminate]. inversion Hx as [|? ? Hy _]; subst. rewrite Ev in Hy. destruct Hy. }
    destruct H as [d0 [d1 [d2 [E1 [L [A [B C]]]]]]]. exists d0, d1, d2. split; auto. split; auto. split; [|split; auto; split; auto].
    - rewrite A. destruct (g_can _ _ G) as [_ [_ [Hi _]]]. assert (Hi2 : inc F (filter is_const_term e)) by (apply inc_filter; auto).
      assert (Hv : forall t, In t (filter is_const_term e) -> vars t = VConst). { intros t Ht. apply filter_In in Ht. destruct Ht as [_ Ht]. unfold is_const_term in Ht. destruct (vars t); auto; discriminate. }
      destruct (filter is_const_term e) as [|a [|b l]]; cbn; auto. exfalso. inversion Hi2 as [|? ? _ Hf]; subst. inversion Hf as [|? ? Hlt _]; subst. rewrite (Hv a), (Hv b) in Hlt by (cbn; auto). apply vs_lt_irrefl in Hlt; auto.
    - unfold sing. rewrite B, C. lia.
  Qed.
  (* the cost constants of every configuration meet this (circuit/config.rs:24-28, 63) *)
  Definition costs_ok (K : Costs) : Prop := COST_ADD K = COST_CONST K /\ (COST_ADD K <= COST_MUL K)%nat /\ (1 <= COST_VARIABLE K)%nat.

  Section Mul.
    Variable K : Costs.
    Definition pval (E : Env F) (m : nat -> F) (es : list Expr) : F := fold_right fmul 1 (map (ev E m) es).
    Lemma pval_app E m a b : pval E m (a ++ b) = pval E m a * pval E m b.
    Proof. unfold pval. induction a as [|x a IH]; cbn [app map fold_right]; [ring|rewrite IH; ring]. Qed.
    Lemma pval_perm E m a b : Permutation a b -> pval E m a = pval E m b.
    Proof. unfold pval. intros H. induction H; cbn [map fold_right]; [auto|rewrite IHPermutation; auto|ring|congruence]. Qed.
    Definition nsb (e : Expr) : bool := match count_of_degrees e with Some (_, d1, d2) => negb (Nat.eqb d2 0 && (d1 <=? 1)%nat) | None => true end.
    Lemma nsb_spec n e : good n e -> nsb e = false <-> sing e.
    Proof.
      intros G. unfold nsb. destruct (count_spec _ _ G) as [d0 [d1 [d2 [-> [_ [_ [_ [-> _]]]]]]]]. rewrite negb_false_iff, andb_true_iff, Nat.eqb_eq, Nat.leb_le. reflexivity.
    Qed.
    Definition nns (es : list Expr) : nat := length (filter nsb es).
    Lemma nns_app a b : nns (a ++ b) = (nns a + nns b)%nat.
    Proof. unfold nns. rewrite filter_app, app_length. auto. Qed.
    Lemma nns_perm a b : Permutation a b -> nns a = nns b.
    Proof.
      intros H. unfold nns. induction H; cbn [filter]; auto.
      - destruct (nsb x); cbn; auto.
      - destruct (nsb x), (nsb y); cbn; auto.
      - congruence.
    Qed.
    Lemma nns_le a : (nns a <= length a)%nat.
    Proof. unfold nns. induction a as [|x a IH]; cbn; auto. destruct (nsb x); cbn; lia. Qed.
    Definition gall (M : @Mid F) (es : list Expr) : Prop := Forall (good (mlen M)) es.
    Lemma gall_grow M M' es : mgood M -> mgrow M M' -> gall M es -> gall M' es.
    Proof. intros G H. apply Forall_impl. intros e He. eapply good_grow; eauto. Qed.

    Lemma mul_decide_spec M e1 e2 : good (mlen M) e1 -> good (mlen M) e2 -> lin e1 -> lin e2 -> ~ (exists c, e1 = e_const F c) -> ~ (exists c, e2 = e_const F c) -> (length e1 <= length e2)%nat ->
      exists s c1, mul_decide K M e1 e2 = Some (s, c1) /\ (costs_ok K -> s = true -> if c1 then ~ sing e1 else ~ sing e2).
    Proof.
      intros G1 G2 L1 L2 N1 N2 Hl. unfold mul_decide.
      assert (Hpos : forall e d0 d1 d2, good (mlen M) e -> lin e -> ~ (exists c, e = e_const F c) -> length (filter (fun t => negb (is_const_term t)) e) = (d1 + d2)%nat -> (d0 + d1 + d2 = length e)%nat -> d2 = 0%nat -> (d0 <= 1)%nat -> (1 <= d1)%nat).
      { intros e d0 d1 d2 G L N Hf Hs -> H0. destruct d1; [|lia]. exfalso. apply N. destruct (g_can _ _ G) as [X _]. destruct e as [|t [|u e]]; [contradiction| |cbn in Hs; lia].
        cbn [filter] in Hf. destruct (is_const_term t) eqn:Et; [|cbn in Hf; lia]. exists (coef t). unfold e_const, t_const. destruct t as [tc tv]. unfold is_const_term in Et. cbn in *. destruct tv; try discriminate; auto. }
      destruct (count_spec _ _ G1) as [a0 [a1 [a2 [-> [A1 [A2 [A3 [A4 A5]]]]]]]]. destruct (count_spec _ _ G2) as [b0 [b1 [b2 [-> [B1 [B2 [B3 [B4 B5]]]]]]]]. cbn [obind].
      apply A3 in L1 as Ha2. apply B3 in L2 as Hb2. pose proof (Hpos e1 a0 a1 a2 G1 L1 N1 A5 A1 Ha2 A2) as Pa. pose proof (Hpos e2 b0 b1 b2 G2 L2 N2 B5 B1 Hb2 B2) as Pb.
      rewrite Ha2, Hb2 in *. rewrite Nat.eqb_refl. cbn [andb]. clear Hpos A3 B3 A5 B5 N1 N2 L1 L2.
      destruct (Nat.eqb (layer_of_expr M e1) (layer_of_expr M e2)).
      - eexists _, _. split; [reflexivity|]. intros [C1 [C2 C3]] Hs. apply Nat.ltb_lt in Hs. revert Hs.
        set (V := COST_VARIABLE K) in *. set (A := COST_ADD K) in *. set (Mu := COST_MUL K) in *.
        unfold cost_of_compress, cost_of_multiply. fold V A Mu. rewrite <- C1. clearbody V A Mu. clear C1 G1 G2.
        destruct (_ <? Nat.min _ _)%nat eqn:Ec; intros Hs.
        + apply Nat.ltb_lt in Ec. rewrite A4. intros [_ H1]. assert (a1 = 1)%nat by lia. subst a1. assert (Mu * b1 + A >= Mu + A * b1)%nat by nia. nia.
        + apply Nat.ltb_ge in Ec. rewrite B4. intros [_ H1]. assert (b1 = 1)%nat by lia. subst b1. assert (a1 <= 2)%nat by lia.
          destruct a1 as [|[|[|a1]]]; [lia| | |lia].
          * destruct a0 as [|[|a0]]; [| |lia]; destruct b0 as [|[|b0]]; try lia; nia.
          * destruct a0 as [|a0]; [|lia]. destruct b0 as [|[|b0]]; [lia| |lia]. nia.
      - destruct (_ <? _)%nat; [eexists _, _; split; [reflexivity|]; intros _ Hs; apply Nat.ltb_lt in Hs; intros Hx; apply A4 in Hx; lia|].
        destruct (_ <? _)%nat; [eexists _, _; split; [reflexivity|]; intros _ Hs; apply Nat.ltb_lt in Hs; intros Hx; apply B4 in Hx; lia|]. eexists _, _. split; [reflexivity|]. intros _ H; discriminate.
    Qed.
    Lemma lin_degree n e : good n e -> e_degree F e = Some 1%nat -> lin e /\ ~ (exists c, e = e_const F c).
    Proof.
      intros G H. destruct (e_degree_spec _ _ G) as [d [Ed [_ [D2 _]]]]. rewrite H in Ed. injection Ed as <-. split; auto. intros [c ->]. cbn in H. discriminate.
    Qed.
    Lemma degree2_ns n e : good n e -> e_degree F e = Some 2%nat -> ~ sing e.
    Proof.
      intros _ H [L _]. assert (Hx : forall h e, Forall (fun t : Term F => linv (vars t)) e -> e_degree_loop F h e <> Some 2%nat).
      { intros h e0 H0. revert h. induction H0 as [|t e0 Ht H0 IH]; intros h; cbn [e_degree_loop]; [destruct h; discriminate|]. destruct (vars t); try contradiction; apply IH. }
      apply (Hx false e L). exact H.
    Qed.
    Lemma mul_step_spec M p1 p2 : mgood M -> good (mlen M) p1 -> good (mlen M) p2 -> exists M' l, mul_step K M p1 p2 = Some (M', l) /\ mgrow M M' /\ gall M' l /\
      (forall E m, Pval E M' m -> pval E m l = ev E m p1 * ev E m p2) /\
      (length l = 1%nat \/ (length l = 2%nat /\ (costs_ok K -> (nns l < nns [p1; p2])%nat))).
    Proof.
      intros G Gp1 Gp2. unfold mul_step.
      assert (Hsw : exists e1 e2, (if (length p2 <? length p1)%nat then (p2, p1) else (p1, p2)) = (e1, e2) /\ good (mlen M) e1 /\ good (mlen M) e2 /\ (length e1 <= length e2)%nat /\
        (forall E m, ev E m p1 * ev E m p2 = ev E m e1 * ev E m e2) /\ nns [p1; p2] = nns [e1; e2]).
      { destruct (Nat.ltb_spec (length p2) (length p1)); eexists _, _; (split; [reflexivity|]); (split; [assumption|]); (split; [assumption|]); (split; [lia|]); (split; [intros; ring|]); [apply nns_perm; constructor|auto]. }
      destruct Hsw as [e1 [e2 [-> [G1 [G2 [Hl [Hv Hn]]]]]]]. rewrite Hn.
      destruct (e_degree_spec _ _ G1) as [d1 [Ed1 [D1 [D2 D3]]]]. destruct (e_degree_spec _ _ G2) as [d2 [Ed2 [D4 [D5 D6]]]]. rewrite Ed1, Ed2. cbn [obind].
      assert (Hpair : forall E m a b, pval E m [a; b] = ev E m a * ev E m b) by (intros; unfold pval; cbn; ring).
      assert (Hone : forall E m a, pval E m [a] = ev E m a) by (intros; unfold pval; cbn; ring).
      assert (Hg2 : forall M' e, mgrow M M' -> good (mlen M') e -> forall a, good (mlen M) a -> gall M' [a; e]).
      { intros M' e Hg He a Ha. constructor; [eapply good_grow; eauto|]. constructor; [exact He|constructor]. }
      assert (Hns2 : forall a b, nns [a; b] = ((if nsb a then 1 else 0) + (if nsb b then 1 else 0))%nat).
      { intros a b. unfold nns. cbn [filter]. destruct (nsb a), (nsb b); reflexivity. }
      assert (Hs0 : forall n e, good n e -> sing e -> nsb e = false) by (intros n e Ge Se; apply (nsb_spec n); auto).
      assert (Hs1 : forall n e, good n e -> ~ sing e -> nsb e = true).
      { intros n e Ge Se. destruct (nsb e) eqn:En; [reflexivity|]. apply (nsb_spec n) in En; [contradiction|exact Ge]. }
      destruct (Nat.eqb_spec d1 0) as [->|N1].
      { destruct (D3 eq_refl) as [c ->]. unfold constant_value, e_const, t_const. cbn [vars coef obind]. destruct (mul_constant_good _ e2 c G2) as [r [-> [A B]]]. cbn [obind].
        eexists _, _. split; [reflexivity|]. split; [constructor|]. split; [constructor; [exact A|constructor]|]. split; [|left; auto]. intros E m _. rewrite Hone, Hv, B. fold (t_const F c). fold (e_const F c). rewrite ev_const. ring. }
      destruct (Nat.eqb_spec d2 0) as [->|N2].
      { destruct (D6 eq_refl) as [c ->]. unfold constant_value, e_const, t_const. cbn [vars coef obind]. destruct (mul_constant_good _ e1 c G1) as [r [-> [A B]]]. cbn [obind].
        eexists _, _. split; [reflexivity|]. split; [constructor|]. split; [constructor; [exact A|constructor]|]. split; [|left; auto]. intros E m _. rewrite Hone, Hv, B. fold (t_const F c). fold (e_const F c). rewrite ev_const. ring. }
      destruct (Nat.eqb_spec d1 2) as [->|N3].
      { assert (H2 : exists M1 r2, (if Nat.eqb d2 2 then make_single M e2 else Some (M, e2)) = Some (M1, r2) /\ mgrow M M1 /\ good (mlen M1) r2 /\ (sing e2 -> sing r2) /\ (forall E m, Pval E M1 m -> ev E m r2 = ev E m e2)).
        { destruct (Nat.eqb d2 2); [|exists M, e2; split; auto; split; [constructor|auto]]. destruct (make_single_spec M e2 G G2) as [M1 [r [-> [A [B [C D]]]]]]. exists M1, r. auto. }
        destruct H2 as [M1 [r2 [-> [A [B [C D]]]]]]. cbn [obind fst snd]. pose proof (mgrow_good _ _ G A) as GM1.
        destruct (make_single_spec M1 e1 GM1 (good_grow _ _ _ G A G1)) as [M2 [r1 [-> [P [Q [R S]]]]]]. cbn [obind fst snd].
        eexists _, _. split; [reflexivity|]. split; [eapply mgrow_trans; eauto|]. pose proof (good_grow _ _ _ GM1 P B) as GB. split; [constructor; [exact GB|]; constructor; [exact Q|constructor]|]. split.
        - intros E m Pv. rewrite Hpair, Hv, (S E m Pv), (D E m (mgrow_Pval _ _ _ _ GM1 P Pv)). ring.
        - right. split; auto. intros _. rewrite !Hns2. rewrite (Hs0 _ r1 Q R). rewrite (Hs1 _ e1 G1) by (eapply degree2_ns; eauto).
          destruct (nsb e2) eqn:E2; [destruct (nsb r2); lia|]. apply (nsb_spec _ _ G2) in E2. rewrite (Hs0 _ r2 B) by auto. lia. }
      destruct (Nat.eqb_spec d2 2) as [->|N4].
      { destruct (make_single_spec M e2 G G2) as [M1 [r [-> [A [B [C D]]]]]]. cbn [obind fst snd]. eexists _, _. split; [reflexivity|]. split; auto. split; [auto|]. split.
        - intros E m Pv. rewrite Hpair, Hv, (D E m Pv). auto.
        - right. split; auto. intros _. rewrite !Hns2. rewrite (Hs0 _ r B C), (Hs1 _ e2 G2) by (eapply degree2_ns; eauto). destruct (nsb e1); lia. }
      assert (d1 = 1)%nat by lia. assert (d2 = 1)%nat by lia. subst d1 d2. destruct (lin_degree _ _ G1 Ed1) as [Li1 Nc1]. destruct (lin_degree _ _ G2 Ed2) as [Li2 Nc2].
      destruct (mul_decide_spec M e1 e2 G1 G2 Li1 Li2 Nc1 Nc2 Hl) as [s [c1 [-> Hdec]]]. cbn [obind fst snd]. destruct s; [destruct c1|].
      - destruct (make_single_spec M e1 G G1) as [M1 [r [-> [A [B [C D]]]]]]. cbn [obind fst snd]. eexists _, _. split; [reflexivity|]. split; auto. split; [constructor; [auto|constructor; [eapply good_grow; eauto|constructor]]|]. split.
        + intros E m Pv. rewrite Hpair, Hv, (D E m Pv). auto.
        + right. split; auto. intros Hk. rewrite !Hns2. rewrite (Hs0 _ r B C), (Hs1 _ e1 G1) by auto. destruct (nsb e2); lia.
      - destruct (make_single_spec M e2 G G2) as [M1 [r [-> [A [B [C D]]]]]]. cbn [obind fst snd]. eexists _, _. split; [reflexivity|]. split; auto. split; [auto|]. split.
        + intros E m Pv. rewrite Hpair, Hv, (D E m Pv). auto.
        + right. split; auto. intros Hk. rewrite !Hns2. rewrite (Hs0 _ r B C), (Hs1 _ e2 G2) by auto. destruct (nsb e1); lia.
      - destruct (prods_spec (mlen M) e1 e2 G1 G2 Li1 Li2) as [l [-> [A B]]]. cbn [obind]. destruct (f_lin_comb_inner_spec M l G A) as [M1 [e [-> [P [Q R]]]]]. cbn [obind fst snd].
        eexists _, _. split; [reflexivity|]. split; auto. split; [constructor; [exact Q|constructor]|]. split; [|left; auto]. intros E m Pv. rewrite Hone, Hv, (R E m Pv), B. auto.
    Qed.
    Lemma mul_loop_spec fuel : forall M es, mgood M -> gall M es -> es <> [] ->
      (exists M' e, mul_loop K fuel M es = Ok (M', e) /\ mgrow M M' /\ good (mlen M') e /\ forall E m, Pval E M' m -> ev E m e = pval E m es) \/
      (mul_loop K fuel M es = OutOfFuel /\ (costs_ok K -> (fuel <= length es * S (length es) + nns es)%nat)).
    Proof.
      induction fuel as [|fuel IH]; intros M es G Ga Hne; cbn [mul_loop].
      { right. split; auto. intros; lia. }
      pose proof (isort_perm (mul_leb M) es) as Hp. assert (Ga' : gall M (isort (mul_leb M) es)) by (eapply Permutation_Forall; [apply Permutation_sym; eauto|auto]).
      pose proof (Permutation_length Hp) as Hlen. pose proof (nns_perm _ _ Hp) as Hns.
      assert (Hpv : forall E m, pval E m (isort (mul_leb M) es) = pval E m es) by (intros; apply pval_perm; auto).
      destruct (isort (mul_leb M) es) as [|e1 [|e2 rest]].
      - exfalso. apply Hne. apply Permutation_nil. auto.
      - left. exists M, e1. split; auto. split; [constructor|]. inversion Ga'; subst. split; auto. intros E m _. rewrite <- Hpv. unfold pval; cbn. ring.
      - inversion Ga' as [|? ? A1 Ga2]; subst. inversion Ga2 as [|? ? A2 Ga3]; subst. destruct (mul_step_spec M e1 e2 G A1 A2) as [M1 [l [-> [P [Q [R S]]]]]].
        assert (Hne2 : rest ++ l <> []). { intros Hx. apply app_eq_nil in Hx. destruct Hx as [_ ->]. cbn in S. lia. }
        destruct (IH M1 (rest ++ l) (mgrow_good _ _ G P)) as [[M2 [e [-> [A [B C]]]]]|[-> Hf]]; auto.
        { apply Forall_app. split; [eapply gall_grow; eauto|auto]. }
        + left. exists M2, e. split; auto. split; [eapply mgrow_trans; eauto|]. split; auto. intros E m Pv. rewrite (C E m Pv), pval_app, (R E m), <- Hpv.
          * unfold pval; cbn [map fold_right]. ring.
          * eapply mgrow_Pval; [| |exact Pv]; auto. eapply mgrow_good; eauto.
        + right. split; auto. intros Hk. specialize (Hf Hk). rewrite app_length, nns_app in Hf. cbn [length] in Hlen. pose proof (nns_le rest). pose proof (nns_le l).
          change (e1 :: e2 :: rest) with ([e1; e2] ++ rest) in Hns. rewrite nns_app in Hns. destruct S as [S1|[S1 S2]].
          * rewrite S1 in *. rewrite <- Hlen. nia.
          * specialize (S2 Hk). rewrite S1 in *. rewrite <- Hlen. replace (length rest + 2)%nat with (S (S (length rest))) in Hf by lia. lia.
    Qed.
    Lemma f_mul_vec_spec M es : mgood M -> gall M es -> (2 <= length es)%nat ->
      (exists M' e, f_mul_vec K M es = Ok (M', e) /\ mgrow M M' /\ good (mlen M') e /\ forall E m, Pval E M' m -> ev E m e = pval E m es) \/
      (f_mul_vec K M es = OutOfFuel /\ ~ costs_ok K).
    Proof.
      intros G Ga Hl. unfold f_mul_vec. destruct (Nat.leb_spec 2 (length es)); [|lia].
      assert (Hx : exists es', omap (try_make_single M) es = Some es' /\ gall M es' /\ length es' = length es /\ forall E m, Pval E M m -> pval E m es' = pval E m es).
      { clear H Hl. induction Ga as [|e es Ge Ga IH]; cbn [omap].
        - exists []. split; [auto|]. split; [constructor|]. auto.
        - destruct (try_make_single_spec M e G Ge) as [e' [-> [A B]]]. destruct IH as [es' [-> [C [D V]]]]. exists (e' :: es'). split; auto. split; [constructor; auto|]. split; [cbn; lia|].
          intros E m P. unfold pval in *. cbn [map fold_right]. rewrite (B E m P), (V E m P). auto. }
      destruct Hx as [es' [-> [A [B C]]]]. destruct (mul_loop_spec (mul_fuel (length es')) M es' G A) as [[M' [e [-> [P [Q R]]]]]|[-> Hf]].
      - destruct es'; [cbn in B; lia|discriminate].
      - left. exists M', e. split; auto. split; auto. split; auto. intros E m Pv. rewrite (R E m Pv). apply C. eapply mgrow_Pval; eauto.
      - right. split; auto. intros Hk. specialize (Hf Hk). pose proof (nns_le es'). unfold mul_fuel in Hf. nia.
    Qed.
  End Mul.
End Facts.
