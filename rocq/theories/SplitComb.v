(* Facts about ir_split.rs: expressions with random terms and the sums that stand for constraints. *)
From Verif Require Import Prelude Field Sorting Expr Topo Ir IrFacts IrInst Sim Builder BuilderFacts LaySched Layering IrSplit.
Open Scope nat_scope.

Section Comb.
  Context {F : Fld}.
  Notation DI := (DestI F false).
  Add Field Fsc : (fth F).
  Variable E : Env F.

  (* ------------------------------------------------------------ expressions with random terms *)
  Definition has_rnd (ts : list (Term F)) (y : nat) : Prop := exists t, In t ts /\ vars t = VRandom y.
  Lemma es_cons (g : nat -> F) t e v : expr_sem F E g (t :: e) v <-> exists a b, term_sem F E g t a /\ expr_sem F E g e b /\ v = fadd a b.
  Proof.
    split.
    - intros [vs [H ->]]. inversion H as [|? a ? l Ha Hl]; subst. exists a, (fsum F l). split; auto. split; [exists l; auto|reflexivity].
    - intros [a [b [Ha [[l [Hl ->]] ->]]]]. exists (a :: l). split; [constructor; auto|reflexivity].
  Qed.
  Lemma es_nil (g : nat -> F) v : expr_sem F E g [] v <-> v = f0.
  Proof. split; [intros [vs [H ->]]; inversion H; auto|intros ->; exists []; split; [constructor|reflexivity]]. Qed.
  Lemma has_rnd_cons t ts y : has_rnd (t :: ts) y <-> vars t = VRandom y \/ has_rnd ts y.
  Proof.
    split; [intros [u [[->|Hu] E1]]; [auto|right; exists u; auto]|intros [H|[u [Hu E1]]]; [exists t; split; [left|]; auto|exists u; split; [right|]; auto]].
  Qed.
  Lemma es_zero (g : nat -> F) e v : (forall y, has_rnd e y -> g y = f0) -> expr_sem F E g e v -> v = expr_val F E g e.
  Proof.
    revert v. induction e as [|t e IH]; intros v Hz H; [apply es_nil in H; auto|]. apply es_cons in H. destruct H as [a [b [Ha [Hb ->]]]].
    rewrite (IH b); auto; [|intros y Hy; apply Hz; apply has_rnd_cons; auto]. rewrite expr_val_cons. f_equal.
    unfold term_sem in Ha. unfold term_val. destruct (vars t) eqn:Et; auto. destruct Ha as [r [_ ->]]. rewrite (Hz x) by (apply has_rnd_cons; auto). cbn [vs_val]. ring.
  Qed.
  Lemma es_zero_ok (g : nat -> F) e : (exists r, e_rnd E r) -> (forall y, has_rnd e y -> g y = f0) -> expr_sem F E g e (expr_val F E g e).
  Proof.
    intros [r Hr]. induction e as [|t e IH]; intros Hz; [apply es_nil; auto|]. apply es_cons. exists (term_val F E g t), (expr_val F E g e).
    split; [|split; [apply IH; intros y Hy; apply Hz; apply has_rnd_cons; auto|reflexivity]]. unfold term_sem, term_val. destruct (vars t) eqn:Et; auto.
    exists r. split; auto. rewrite (Hz x) by (apply has_rnd_cons; auto). cbn [vs_val]. ring.
  Qed.
  Lemma es_total (g : nat -> F) e : (exists r, e_rnd E r) -> exists v, expr_sem F E g e v.
  Proof.
    intros [r Hr]. induction e as [|t e [v IH]]; [exists f0; apply es_nil; auto|].
    assert (Ht : exists a, term_sem F E g t a) by (unfold term_sem; destruct (vars t); try (eexists; reflexivity); exists (fmul (g x) r), r; auto).
    destruct Ht as [a Ha]. exists (fadd a v). apply es_cons. exists a, v; auto.
  Qed.
  Lemma es_any (g : nat -> F) e y : (forall r, e_rnd E r) -> has_rnd e y -> g y <> f0 -> forall a, expr_sem F E g e a.
  Proof.
    intros Hr. induction e as [|t e IH]; intros Hy Hn a; [destruct Hy as [u [[] _]]|]. apply has_rnd_cons in Hy. apply es_cons. destruct Hy as [Hy|Hy].
    - destruct (es_total g e) as [v Hv]; [exists f0; auto|]. exists (fsub a v), v. split; [|split; [auto|ring]]. unfold term_sem. rewrite Hy. exists (fmul (finv (g y)) (fsub a v)). split; auto.
      transitivity (fmul (fmul (finv (g y)) (g y)) (fsub a v)); [rewrite finv_l by auto; ring|ring].
    - assert (Ht : exists a, term_sem F E g t a) by (unfold term_sem; destruct (vars t); try (eexists; reflexivity); exists (fmul (g x) f0), f0; auto).
      destruct Ht as [b Hb]. exists b, (fsub a b). split; auto. split; [apply IH; auto|ring].
  Qed.

  (* merging terms keeps any weighted sum of coefficients *)
  Definition wsum (w : VarSpec -> F) (ts : list (Term F)) : F := fsum F (map (fun t => fmul (w (vars t)) (coef t)) ts).
  Lemma wsum_cons w t ts : wsum w (t :: ts) = fadd (fmul (w (vars t)) (coef t)) (wsum w ts).
  Proof. reflexivity. Qed.
  Lemma wsum_perm w a b : Permutation a b -> wsum w a = wsum w b.
  Proof. intros H. apply fsum_perm. apply Permutation_map; auto. Qed.
  Lemma compress_loop_wsum w rest : forall done cur, wsum w (compress_loop F done cur rest) = fadd (fadd (wsum w done) (fmul (w (vars cur)) (coef cur))) (wsum w rest).
  Proof.
    induction rest as [|t rest IH]; intros done cur; cbn [compress_loop].
    - rewrite (wsum_perm w (rev (cur :: done)) (cur :: done)) by (symmetry; apply Permutation_rev). rewrite wsum_cons. unfold wsum at 2 3. cbn [map fsum fold_right]. unfold wsum. cbn. ring.
    - destruct (vs_eqb (vars cur) (vars t)) eqn:Ev; rewrite IH, ?wsum_cons.
      + apply vs_eqb_spec in Ev. cbn [vars coef]. rewrite Ev. ring.
      + ring.
  Qed.
  Lemma wsum_filter w l : wsum w (filter (fun t => negb (feqb (coef t) f0)) l) = wsum w l.
  Proof.
    induction l as [|t l IH]; cbn [filter]; auto. destruct (feqb_reflect F (coef t) f0) as [e|]; cbn [negb].
    - rewrite IH, wsum_cons, e. ring.
    - rewrite !wsum_cons, IH; auto.
  Qed.
  Lemma from_terms_wsum w ts : (forall v, w (vs_normalize v) = w v) -> wsum w (from_terms F ts) = wsum w ts.
  Proof.
    intros Hw. unfold from_terms, compress_identical_terms. set (l := isort (term_leb F) (map (t_normalize F) ts)).
    assert (Hl : wsum w l = wsum w ts).
    { unfold l. rewrite (wsum_perm w _ _ (isort_perm _ _)). unfold wsum. rewrite map_map. f_equal. apply map_ext. intros t. cbn [t_normalize vars coef]. rewrite Hw. auto. }
    assert (H2 : wsum w (match l with [] => [] | t :: rest => compress_loop F [] t rest end) = wsum w l).
    { destruct l as [|t l']; auto. rewrite compress_loop_wsum, wsum_cons. unfold wsum at 1. cbn [map fsum fold_right]. ring. }
    rewrite <- Hl, <- H2, <- (wsum_filter w (match l with [] => [] | t :: rest => compress_loop F [] t rest end)).
    destruct (filter _ _) as [|t l2]; auto. unfold wsum. cbn. ring.
  Qed.
  Definition fnat (n : nat) : F := ofZ (Z.of_nat n).
  Lemma fnat_S n : fnat (S n) = fadd f1 (fnat n).
  Proof. unfold fnat. rewrite Nat2Z.inj_succ. replace (Z.succ (Z.of_nat n)) with (1 + Z.of_nat n)%Z by lia. rewrite ofZ_add, ofZ_1. auto. Qed.
  Lemma fnat_nz n : 0 < n -> (Z.of_nat n < fmod F)%Z -> fnat n <> f0.
  Proof. intros H1 H2 H. unfold fnat in H. rewrite <- ofZ_0 in H. apply ofZ_inj_small in H; lia. Qed.

  (* ------------------------------------------------------------ the terms of the sums *)
  Definition cterm (t : Term F) : Prop := (exists x, t = t_linear F f1 x) \/ (exists x, t = t_random F x).
  Lemma from_terms_has_rnd ts y : has_rnd (from_terms F ts) y -> has_rnd ts y.
  Proof.
    intros [t [Ht E1]]. destruct (from_terms_spec F E ts) as [_ [_ H3]]. destruct (H3 t Ht) as [->|[u [Hu Eu]]]; [discriminate|]. exists u. split; auto. rewrite E1 in Eu.
    destruct (vars u); cbn [vs_normalize] in Eu; try discriminate; auto. destruct (_ <? _); discriminate.
  Qed.
  Definition is_rnd (y : nat) (t : Term F) : bool := vs_eqb (vars t) (VRandom y).
  Lemma has_rnd_from_terms ts y : Forall cterm ts -> has_rnd ts y -> (Z.of_nat (length (filter (is_rnd y) ts)) < fmod F)%Z -> has_rnd (from_terms F ts) y.
  Proof.
    intros Hc [t [Ht Et]] Hn. set (w := fun v : VarSpec => if vs_eqb v (VRandom y) then (f1 : F) else f0).
    assert (Hw : forall v, w (vs_normalize v) = w v).
    { intros v. unfold w. replace (vs_eqb (vs_normalize v) (VRandom y)) with (vs_eqb v (VRandom y)); auto. apply eq_true_iff_eq. rewrite !vs_eqb_spec. destruct v; cbn [vs_normalize]; try tauto. destruct (_ <? _); split; discriminate. }
    pose proof (from_terms_wsum w ts Hw) as Hs.
    assert (Hl : wsum w ts = fnat (length (filter (is_rnd y) ts))).
    { clear - Hc. induction Hc as [|t ts Ht Hc IH]; [unfold fnat, wsum; cbn; rewrite ofZ_0; auto|]. rewrite wsum_cons, IH. cbn [filter]. unfold is_rnd at 2, w. destruct (vs_eqb (vars t) (VRandom y)) eqn:Ev.
      - cbn [length]. rewrite fnat_S. f_equal. destruct Ht as [[x ->]|[x ->]]; cbn [t_linear t_random coef]; ring.
      - ring. }
    assert (Hp : 0 < length (filter (is_rnd y) ts)).
    { assert (Hi : In t (filter (is_rnd y) ts)) by (apply filter_In; split; auto; apply vs_eqb_spec; auto). destruct (filter _ _); [destruct Hi|cbn; lia]. }
    destruct (existsb (is_rnd y) (from_terms F ts)) eqn:Ee.
    - apply existsb_exists in Ee. destruct Ee as [u [Hu Eu]]. apply vs_eqb_spec in Eu. exists u; auto.
    - exfalso. apply (fnat_nz _ Hp Hn). rewrite <- Hl, <- Hs. clear - Ee. induction (from_terms F ts) as [|u l IH]; auto. cbn [existsb] in Ee. apply orb_false_iff in Ee. destruct Ee as [E1 E2].
      rewrite wsum_cons, (IH E2). unfold w. unfold is_rnd in E1. rewrite E1. ring.
  Qed.

  (* ------------------------------------------------------------ the sums *)
  Variable cs : list (nat * Circuit DI).
  Definition vsum (g : nat -> F) (l : list nat) : F := fsum F (map g l).
  Lemma vsum_app g a b : vsum g (a ++ b) = fadd (vsum g a) (vsum g b).
  Proof. unfold vsum. rewrite map_app. apply fsum_app. Qed.
  Lemma vsum_cons g x l : vsum g (x :: l) = fadd (g x) (vsum g l).
  Proof. reflexivity. Qed.
  Lemma vsum_rev g a : vsum g (rev a) = vsum g a.
  Proof. apply fsum_perm. apply Permutation_map. symmetry. apply Permutation_rev. Qed.
  Lemma vsum_ext (g g' : nat -> F) l : (forall x, In x l -> g x = g' x) -> vsum g l = vsum g' l.
  Proof. intros H. unfold vsum. f_equal. apply map_ext_in. auto. Qed.
  Lemma vsum_split (g : nat -> F) (p q r : nat -> bool) l : (forall x, In x l -> p x = q x || r x) -> (forall x, In x l -> q x && r x = false) ->
    vsum g (filter p l) = fadd (vsum g (filter q l)) (vsum g (filter r l)).
  Proof.
    intros H1 H2. induction l as [|x l IH]; cbn [filter]; [unfold vsum; cbn; ring|]. assert (IH' := IH (fun y Hy => H1 y (or_intror Hy)) (fun y Hy => H2 y (or_intror Hy))). clear IH.
    pose proof (H1 x (or_introl eq_refl)) as E1. pose proof (H2 x (or_introl eq_refl)) as E2. destruct (q x), (r x), (p x); cbn in E1, E2; try discriminate; rewrite ?vsum_cons, IH'; ring.
  Qed.
  Lemma terms_val g l : expr_val F E g (map (fun x => t_linear F f1 x) l) = vsum g l.
  Proof. induction l as [|x l IH]; auto. cbn [map]. rewrite expr_val_cons, IH, vsum_cons. unfold term_val. cbn [t_linear vars coef vs_val]. ring. Qed.
  Lemma rnd_val g l : expr_val F E g (map (t_random F) l) = f0.
  Proof. induction l as [|x l IH]; auto. cbn [map]. rewrite expr_val_cons, IH. unfold term_val. cbn. ring. Qed.

  Variable ml0 sub cns : list nat.
  Variable root : bool.
  Definition at_layer (i : nat) (x : nat) : bool := getn ml0 x =? i.
  Definition from_layer (i n : nat) (x : nat) : bool := (i <=? getn ml0 x) && (getn ml0 x <? i + n).
  Lemma sub_split (g : nat -> F) i n : vsum g (filter (from_layer i (S n)) sub) = fadd (vsum g (filter (at_layer i) sub)) (vsum g (filter (from_layer (S i) n) sub)).
  Proof.
    apply vsum_split; intros x _; unfold from_layer, at_layer.
    - apply eq_true_iff_eq. rewrite orb_true_iff, !andb_true_iff, !Nat.leb_le, !Nat.ltb_lt, Nat.eqb_eq. lia.
    - destruct (Nat.eqb_spec (getn ml0 x) i) as [->|]; auto. rewrite (proj2 (Nat.leb_gt (S i) i)) by lia. auto.
  Qed.
  Lemma terms_cterm add i : Forall cterm (comb_terms (F := F) root ml0 sub cns add i).
  Proof.
    unfold comb_terms. apply Forall_app. split; apply Forall_forall; intros t Ht; apply in_map_iff in Ht; destruct Ht as [x [<- _]]; [left|right]; eauto.
  Qed.
  Lemma terms_expr_val g add i : expr_val F E g (comb_terms root ml0 sub cns add i) = fadd (vsum g (filter (at_layer i) sub)) (if root then vsum g add else f0).
  Proof.
    unfold comb_terms. rewrite expr_val_app, terms_val, rnd_val, vsum_app. fold (at_layer i). destruct root; [rewrite vsum_rev|unfold vsum at 2; cbn]; ring.
  Qed.
  Lemma terms_rnd add i y : has_rnd (comb_terms (F := F) root ml0 sub cns add i) y <-> In y cns /\ getn ml0 y = i.
  Proof.
    unfold comb_terms. split.
    - intros [t [Ht Et]]. apply in_app_or in Ht. destruct Ht as [Ht|Ht]; apply in_map_iff in Ht; destruct Ht as [x [<- Hx]]; cbn in Et; [discriminate|]. inversion Et; subst. apply filter_In in Hx. rewrite Nat.eqb_eq in Hx. auto.
    - intros [H1 H2]. exists (t_random F y). split; auto. apply in_or_app. right. apply in_map. apply filter_In. rewrite Nat.eqb_eq. auto.
  Qed.
  Lemma terms_vars add i x : In x (e_vars F (comb_terms root ml0 sub cns add i)) -> In x sub \/ In x add \/ In x cns.
  Proof.
    unfold e_vars, comb_terms. rewrite flat_map_app. intros H. apply in_app_or in H. destruct H as [H|H]; apply in_flat_map in H; destruct H as [t [Ht Hx]]; apply in_map_iff in Ht; destruct Ht as [y [<- Hy]]; cbn in Hx; destruct Hx as [<-|[]].
    - apply in_app_or in Hy. destruct Hy as [Hy|Hy]; [apply filter_In in Hy; tauto|]. destruct root; [apply in_rev in Hy; auto|destruct Hy].
    - apply filter_In in Hy. tauto.
  Qed.
  Lemma terms_count add i y : length (filter (is_rnd y) (comb_terms (F := F) root ml0 sub cns add i)) <= length cns.
  Proof.
    unfold comb_terms. rewrite filter_app, app_length. assert (H1 : forall l, filter (is_rnd y) (map (fun x => t_linear F f1 x) l) = []) by (induction l; auto). rewrite H1. cbn [length Nat.add].
    transitivity (length (filter (fun x => getn ml0 x =? i) cns)).
    - induction (filter _ cns) as [|z l IH]; cbn [map filter]; auto. destruct (is_rnd y _); cbn [length]; lia.
    - clear. induction cns as [|z l IH]; cbn [filter]; auto. destruct (_ =? _); cbn [length]; lia.
  Qed.
  Lemma again_cases (lst : option (nat * list (Term F))) ts : comb_again lst ts = ts \/ exists x old, lst = Some (x, old) /\ ts = [t_linear F f1 x] /\ comb_again lst ts = old.
  Proof.
    unfold comb_again. destruct ts as [|t [|u ts]]; auto. destruct lst as [[x old]|]; auto. destruct (feqb (coef t) f1 && vs_eqb (vars t) (VLinear x)) eqn:H; auto. right. exists x, old. split; auto. split; auto.
    apply andb_true_iff in H. destruct H as [H1 H2]. apply feqb_spec in H1. apply vs_eqb_spec in H2. destruct t; cbn in *; subst. auto.
  Qed.

  Notation DVars := (fun i : DInsn F => exists ts, i = DVar (from_terms F ts)).
  (* what is known of lst: variable x was given the value of [old] *)
  Definition Linv (vals : list F) (lst : option (nat * list (Term F))) : Prop :=
    forall x old, lst = Some (x, old) -> Forall cterm old /\ x < length vals /\ (forall y, In y (e_vars F old) -> y < length vals) /\
      (forall y, has_rnd old y -> In y cns) /\ expr_sem F E (getv vals) (from_terms F old) (getv vals x).
  Definition LinvA (vals : list F) (lst : option (nat * list (Term F))) : Prop :=
    forall x old, lst = Some (x, old) -> x < length vals /\ (forall y, In y (e_vars F old) -> y < length vals) /\
      (forall y, has_rnd old y -> In y cns) /\ expr_val F E (getv vals) old = getv vals x.
  Definition inr (n : nat) (l : list nat) : Prop := Forall (fun x => x < n) l.
  Lemma inr_le n m l : n <= m -> inr n l -> inr m l.
  Proof. intros H. apply Forall_impl. intros; lia. Qed.
  Lemma vsum_app_vals (vals l : list F) xs : inr (length vals) xs -> vsum (getv (vals ++ l)) xs = vsum (getv vals) xs.
  Proof. intros H. apply vsum_ext. intros x Hx. apply getv_app_l. unfold inr in H. rewrite Forall_forall in H. auto. Qed.
  Lemma inr_filter n f l : inr n l -> inr n (filter f l).
  Proof. unfold inr. rewrite !Forall_forall. intros H x Hx. apply filter_In in Hx. apply H. tauto. Qed.
  Lemma last_v (vals : list F) u : getv (vals ++ [u]) (length vals) = u.
  Proof. rewrite getv_app_r by lia. rewrite Nat.sub_diag. reflexivity. Qed.
  Lemma es_app (vals l : list F) ts v : (forall y, In y (e_vars F ts) -> y < length vals) -> expr_sem F E (getv vals) (from_terms F ts) v -> expr_sem F E (getv (vals ++ l)) (from_terms F ts) v.
  Proof. intros H. apply expr_sem_ext. intros x Hx. symmetry. apply getv_app_l. apply H. apply from_terms_vars in Hx. auto. Qed.
  Lemma ev_app (vals l : list F) ts : (forall y, In y (e_vars F ts) -> y < length vals) -> expr_val F E (getv (vals ++ l)) ts = expr_val F E (getv vals) ts.
  Proof. intros H. apply expr_val_ext. intros x Hx. apply getv_app_l. auto. Qed.
  Lemma exec_var1 (e : Expression F) is (vals vals' : list F) b : exec DI E cs (DVar e :: is) vals vals' b <->
    exists u, Forall (inb vals) (e_vars F e) /\ expr_sem F E (getv vals) e u /\ exec DI E cs is (vals ++ [u]) vals' b.
  Proof.
    rewrite exec_cons. split.
    - intros [outs [b1 [b2 [H1 [H2 ->]]]]]. unfold step in H1. cbn in H1. destruct H1 as [H3 [[u [-> H4]] ->]]. exists u. auto.
    - intros [u [H1 [H2 H3]]]. exists [u], true, b. split; [|split; auto]. unfold step. cbn. split; auto. split; auto. exists u. auto.
  Qed.

  (* the sums of layers i .. i+n-1 as instructions appended to what is there *)
  Lemma comb_more n : forall i insns ml add lst insns' ml' add', comb root ml0 sub cns n i insns ml add lst = (insns', ml', add') ->
    exists more, insns' = insns ++ more /\ length ml' = length ml + length more /\ Forall DVars more /\ exists mm, ml' = ml ++ mm.
  Proof.
    induction n as [|n IH]; intros i insns ml add lst insns' ml' add' H; cbn [comb] in H.
    - inversion H; subst. exists []. rewrite app_nil_r. cbn. split; auto. split; [lia|]. split; [constructor|exists []; rewrite app_nil_r; auto].
    - destruct (comb_terms root ml0 sub cns add i) as [|t ts]; [apply IH in H; auto|]. apply IH in H. destruct H as [more [-> [Hl [Hf [mm ->]]]]]. eexists (_ :: more). rewrite <- app_assoc. split; [reflexivity|].
      rewrite !app_length in *. cbn [length] in *. split; [lia|]. split; [constructor; eauto|]. eexists. rewrite <- app_assoc. reflexivity.
  Qed.

  Lemma Linv_app vals l lst : Linv vals lst -> Linv (vals ++ l) lst.
  Proof.
    intros H x old E1. destruct (H x old E1) as [H1 [H2 [H3 [H4 H5]]]]. rewrite app_length. split; auto. split; [lia|]. split; [intros y Hy; specialize (H3 y Hy); lia|]. split; auto.
    rewrite getv_app_l by auto. apply es_app; auto.
  Qed.
  Lemma range_ts n add i : inr n sub -> inr n add -> inr n cns -> forall y, In y (e_vars F (comb_terms root ml0 sub cns add i)) -> y < n.
  Proof. intros H1 H2 H3 y Hy. apply terms_vars in Hy. unfold inr in *. rewrite Forall_forall in *. destruct Hy as [Hy|[Hy|Hy]]; auto. Qed.

  (* one layer with something to sum up *)
  Definition add1 (add : list nat) : list nat := if root then [] else add.
  Lemma layer_sum (g : nat -> F) add i : fadd (vsum g (add1 add)) (expr_val F E g (comb_terms root ml0 sub cns add i)) = fadd (vsum g add) (vsum g (filter (at_layer i) sub)).
  Proof. rewrite terms_expr_val. unfold add1. destruct root; [unfold vsum at 1; cbn [map fsum fold_right]|]; ring. Qed.
  Lemma layer_facts (vals : list F) add lst i ts : ts = comb_terms root ml0 sub cns add i -> inr (length vals) sub -> inr (length vals) cns -> inr (length vals) add -> Linv vals lst ->
    Forall (inb vals) (e_vars F (from_terms F (comb_again lst ts))) /\
    (forall u, expr_sem F E (getv vals) (from_terms F (comb_again lst ts)) u -> Linv (vals ++ [u]) (Some (length vals, comb_again lst ts))) /\
    ((exists r, e_rnd E r) -> (forall y, In y cns -> getn ml0 y = i -> getv vals y = f0) -> expr_sem F E (getv vals) (from_terms F (comb_again lst ts)) (expr_val F E (getv vals) ts)) /\
    ((forall r, e_rnd E r) -> (Z.of_nat (length cns) < fmod F)%Z -> (exists y, In y cns /\ getn ml0 y = i /\ getv vals y <> f0) -> forall u, expr_sem F E (getv vals) (from_terms F (comb_again lst ts)) u).
  Proof.
    intros Hts Hs Hc Ha HL. assert (Hv : forall y, In y (e_vars F (comb_again lst ts)) -> y < length vals).
    { destruct (again_cases lst ts) as [->|[x [old [E1 [E2 ->]]]]]; [subst; apply range_ts; auto|]. apply (HL x old E1). }
    assert (Hr : forall y, has_rnd (comb_again lst ts) y -> In y cns).
    { destruct (again_cases lst ts) as [->|[x [old [E1 [E2 ->]]]]]; [subst; intros y Hy; apply terms_rnd in Hy; tauto|]. apply (HL x old E1). }
    split; [apply Forall_forall; intros y Hy; apply Hv; apply from_terms_vars in Hy; auto|]. split; [|split].
    - intros u Hu x old E1. inversion E1; subst x old. rewrite app_length. cbn [length]. split.
      { destruct (again_cases lst ts) as [->|[x [old [E2 [E3 ->]]]]]; [subst; apply terms_cterm|]. apply (HL x old E2). }
      split; [lia|]. split; [intros y Hy; specialize (Hv y Hy); lia|]. split; auto. rewrite last_v. apply es_app; auto.
    - intros HR Hz. destruct (again_cases lst ts) as [->|[x [old [E1 [E2 ->]]]]].
      + replace (expr_val F E (getv vals) ts) with (expr_val F E (getv vals) (from_terms F ts)) by apply from_terms_spec. apply es_zero_ok; auto. intros y Hy. apply from_terms_has_rnd in Hy. subst ts. apply terms_rnd in Hy. destruct Hy. auto.
      + rewrite E2. rewrite expr_val_cons, expr_val_nil. unfold term_val. cbn [t_linear vars coef vs_val]. replace (fadd (fmul (getv vals x) f1) f0) with (getv vals x) by ring. apply (HL x old E1).
    - intros HR Hch [y [Hy1 [Hy2 Hy3]]] u. assert (Hy : has_rnd ts y) by (subst ts; apply terms_rnd; auto). destruct (again_cases lst ts) as [->|[x [old [E1 [E2 _]]]]].
      + apply (es_any _ _ y); auto. subst ts. apply has_rnd_from_terms; [apply terms_cterm|auto|]. pose proof (terms_count add i y). lia.
      + exfalso. rewrite E2 in Hy. destruct Hy as [t [[<-|[]] Ht]]. discriminate.
  Qed.

  (* completeness: if the constraints hold the sums add up to what the sub-circuits report *)
  Lemma comb_B n : (exists r, e_rnd E r) -> forall i insns ml add lst insns' ml' add' (vals : list F), comb root ml0 sub cns n i insns ml add lst = (insns', ml', add') ->
    length vals = length ml -> inr (length vals) sub -> inr (length vals) cns -> inr (length vals) add -> Linv vals lst ->
    (forall y, In y cns -> from_layer i n y = true -> getv vals y = f0) ->
    exists more vals', insns' = insns ++ more /\ exec DI E cs more vals vals' true /\ vsum (getv vals') add' = fadd (vsum (getv vals) add) (vsum (getv vals) (filter (from_layer i n) sub)) /\ inr (length vals') add'.
  Proof.
    intros HR. induction n as [|n IH]; intros i insns ml add lst insns' ml' add' vals H Hlen Hs Hc Ha HL Hz; cbn [comb] in H.
    - inversion H; subst. exists [], vals. rewrite app_nil_r. split; auto. split; [constructor|]. split; auto. replace (filter (from_layer i 0) sub) with (@nil nat); [unfold vsum at 3; cbn; ring|].
      symmetry. clear. induction sub as [|x l IHl]; auto. cbn [filter]. unfold from_layer at 1. destruct (Nat.leb_spec i (getn ml0 x)); cbn [andb]; auto. rewrite (proj2 (Nat.ltb_ge _ _)) by lia. auto.
    - assert (Hz1 : forall y, In y cns -> getn ml0 y = i -> getv vals y = f0) by (intros y Hy El; apply Hz; auto; unfold from_layer; rewrite andb_true_iff, Nat.leb_le, Nat.ltb_lt; lia).
      assert (Hz2 : forall y, In y cns -> from_layer (S i) n y = true -> getv vals y = f0) by (intros y Hy El; apply Hz; auto; unfold from_layer in *; rewrite andb_true_iff, Nat.leb_le, Nat.ltb_lt in *; lia).
      remember (comb_terms root ml0 sub cns add i) as ts eqn:Hts. pose proof (layer_sum (getv vals) add i) as Hls. rewrite <- Hts in Hls. rewrite sub_split.
      destruct ts as [|t0 ts0].
      + fold (add1 add) in H. assert (Ha1 : inr (length vals) (add1 add)) by (unfold add1; destruct root; [constructor|auto]). destruct (IH _ _ _ _ _ _ _ _ vals H Hlen Hs Hc Ha1 HL Hz2) as [more [vals' [E1 [E2 [E3 E4]]]]].
        exists more, vals'. split; auto. split; auto. split; auto. rewrite E3. rewrite expr_val_nil in Hls. transitivity (fadd (fadd (vsum (getv vals) (add1 add)) f0) (vsum (getv vals) (filter (from_layer (S i) n) sub))); [ring|]. rewrite Hls. ring.
      + cbv zeta in H. remember (t0 :: ts0) as ts eqn:Ets. clear Ets. destruct (layer_facts vals add lst i ts Hts Hs Hc Ha HL) as [L1 [L2 [L3 _]]]. specialize (L3 HR Hz1). specialize (L2 _ L3). set (u := expr_val F E (getv vals) ts) in *.
        assert (Hl' : length (vals ++ [u]) = length (ml ++ [S i])) by (rewrite !app_length; cbn; lia). assert (Hle : length vals <= length (vals ++ [u])) by (rewrite app_length; lia).
        assert (Ha' : inr (length (vals ++ [u])) (add1 add ++ [length ml])).
        { apply Forall_app. split; [|constructor; [rewrite app_length; cbn; lia|constructor]]. unfold add1. destruct root; [constructor|]. apply (inr_le (length vals)); auto. }
        rewrite <- Hlen in H at 2. destruct (IH _ _ _ _ _ _ _ _ (vals ++ [u]) H Hl' (inr_le _ _ _ Hle Hs) (inr_le _ _ _ Hle Hc) Ha' L2) as [more [vals' [E1 [E2 [E3 E4]]]]].
        { intros y Hy El. rewrite getv_app_l; [apply Hz2; auto|]. unfold inr in Hc. rewrite Forall_forall in Hc. auto. }
        eexists (_ :: more), vals'. rewrite E1, <- app_assoc. split; [reflexivity|]. split; [apply exec_var1; exists u; auto|]. split; auto. rewrite E3. fold (add1 add). rewrite vsum_app, (vsum_app_vals vals _ (filter (from_layer (S i) n) sub)) by (apply inr_filter; auto). rewrite (vsum_app_vals vals _ (add1 add)) by (unfold add1; destruct root; [constructor|auto]). rewrite vsum_cons. rewrite <- Hlen at 1. rewrite last_v. change (vsum (getv (vals ++ [u])) []) with (@f0 F).
        transitivity (fadd (fadd (vsum (getv vals) (add1 add)) u) (vsum (getv vals) (filter (from_layer (S i) n) sub))); [ring|]. rewrite Hls. ring.
  Qed.

  (* if a constraint fails, the coefficients can be chosen to make the sums add up to anything *)
  Lemma comb_C n : (forall r, e_rnd E r) -> (Z.of_nat (length cns) < fmod F)%Z -> forall i insns ml add lst insns' ml' add' (vals : list F), comb root ml0 sub cns n i insns ml add lst = (insns', ml', add') ->
    length vals = length ml -> inr (length vals) sub -> inr (length vals) cns -> inr (length vals) add -> Linv vals lst ->
    (exists y, In y cns /\ from_layer i n y = true /\ getv vals y <> f0) -> forall a,
    exists more vals', insns' = insns ++ more /\ exec DI E cs more vals vals' true /\ vsum (getv vals') add' = a /\ inr (length vals') add'.
  Proof.
    intros HR Hch. assert (HR1 : exists r, e_rnd E r) by (exists f0; auto). induction n as [|n IH]; intros i insns ml add lst insns' ml' add' vals H Hlen Hs Hc Ha HL [y [Hy1 [Hy2 Hy3]]] a.
    - unfold from_layer in Hy2. rewrite andb_true_iff, Nat.leb_le, Nat.ltb_lt in Hy2. lia.
    - cbn [comb] in H. remember (comb_terms root ml0 sub cns add i) as ts eqn:Hts. destruct ts as [|t0 ts0].
      + apply (IH _ _ _ _ _ _ _ _ vals H); auto; [destruct root; [constructor|auto]|]. exists y. split; auto. split; auto. unfold from_layer in *. rewrite andb_true_iff, Nat.leb_le, Nat.ltb_lt in *. split; [|lia].
        destruct (Nat.eq_dec (getn ml0 y) i) as [Ei|]; [|lia]. exfalso. assert (Hh : has_rnd (comb_terms (F := F) root ml0 sub cns add i) y) by (apply terms_rnd; auto). rewrite <- Hts in Hh. destruct Hh as [t [[] _]].
      + cbv zeta in H. remember (t0 :: ts0) as ts eqn:Ets. clear Ets. destruct (layer_facts vals add lst i ts Hts Hs Hc Ha HL) as [L1 [L2 [L3 L4]]].
        assert (Hstep : forall u, length (vals ++ [u]) = length (ml ++ [S i]) /\ length vals <= length (vals ++ [u]) /\ inr (length (vals ++ [u])) (add1 add ++ [length ml])).
        { intros u. split; [rewrite !app_length; cbn; lia|]. split; [rewrite app_length; lia|]. apply Forall_app. split; [|constructor; [rewrite app_length; cbn; lia|constructor]]. unfold add1. destruct root; [constructor|]. apply (inr_le (length vals)); auto. rewrite app_length. lia. }
        assert (Hin : forall z, In z cns -> z < length vals) by (unfold inr in Hc; rewrite Forall_forall in Hc; auto).
        rewrite <- Hlen in H at 2. destruct (existsb (fun z => from_layer (S i) n z && negb (is0 F (getv vals z))) cns) eqn:Ee.
        * apply existsb_exists in Ee. destruct Ee as [z [Hz1 Hz2]]. apply andb_true_iff in Hz2. destruct Hz2 as [Hz2 Hz3]. apply negb_true_iff in Hz3.
          destruct (es_total (getv vals) (from_terms F (comb_again lst ts)) HR1) as [u Hu]. destruct (Hstep u) as [S1 [S2 S3]].
          destruct (IH _ _ _ _ _ _ _ _ (vals ++ [u]) H S1 (inr_le _ _ _ S2 Hs) (inr_le _ _ _ S2 Hc) S3 (L2 _ Hu)) with (a := a) as [more [vals' [E1 [E2 E3]]]].
          { exists z. split; auto. split; auto. rewrite getv_app_l by auto. intros E0. rewrite <- is0_spec in E0. congruence. }
          eexists (_ :: more), vals'. rewrite E1, <- app_assoc. split; [reflexivity|]. split; [apply exec_var1; exists u; auto|auto].
        * assert (Hn : forall z, In z cns -> from_layer (S i) n z = true -> getv vals z = f0).
          { intros z Hz1 Hz2. rewrite <- not_true_iff_false in Ee. destruct (is0 F (getv vals z)) eqn:E0; [apply is0_spec; auto|]. exfalso. apply Ee. apply existsb_exists. exists z. rewrite Hz2, E0. auto. }
          assert (Hi : getn ml0 y = i).
          { destruct (Nat.eq_dec (getn ml0 y) i) as [|Hne]; auto. exfalso. apply Hy3. apply Hn; auto. unfold from_layer in *. rewrite andb_true_iff, Nat.leb_le, Nat.ltb_lt in *. lia. }
          set (u := fsub (fsub a (vsum (getv vals) (filter (from_layer (S i) n) sub))) (vsum (getv vals) (add1 add))). assert (Hu : expr_sem F E (getv vals) (from_terms F (comb_again lst ts)) u) by (apply L4; eauto).
          destruct (Hstep u) as [S1 [S2 S3]]. destruct (comb_B n HR1 _ _ _ _ _ _ _ _ (vals ++ [u]) H S1 (inr_le _ _ _ S2 Hs) (inr_le _ _ _ S2 Hc) S3 (L2 _ Hu)) as [more [vals' [E1 [E2 [E3 E4]]]]].
          { intros z Hz El. rewrite getv_app_l by auto. auto. }
          eexists (_ :: more), vals'. rewrite E1, <- app_assoc. split; [reflexivity|]. split; [apply exec_var1; exists u; auto|]. split; auto. rewrite E3. fold (add1 add). rewrite vsum_app, (vsum_app_vals vals _ (filter (from_layer (S i) n) sub)) by (apply inr_filter; auto). rewrite (vsum_app_vals vals _ (add1 add)) by (unfold add1; destruct root; [constructor|auto]). rewrite vsum_cons. rewrite <- Hlen at 1. rewrite last_v. change (vsum (getv (vals ++ [u])) []) with (@f0 F). unfold u. ring.
  Qed.

  (* soundness of the values: whenever the constraints hold, the sums add up to what the sub-circuits report *)
  Lemma comb_A n : forall i insns ml add lst insns' ml' add' (vals : list F), comb root ml0 sub cns n i insns ml add lst = (insns', ml', add') ->
    length vals = length ml -> inr (length vals) sub -> inr (length vals) cns -> inr (length vals) add -> LinvA vals lst ->
    (forall y, In y cns -> getv vals y = f0) ->
    exists more, insns' = insns ++ more /\ forall vals' b, exec DI E cs more vals vals' b -> vsum (getv vals') add' = fadd (vsum (getv vals) add) (vsum (getv vals) (filter (from_layer i n) sub)).
  Proof.
    induction n as [|n IH]; intros i insns ml add lst insns' ml' add' vals H Hlen Hs Hc Ha HL Hz; cbn [comb] in H.
    - inversion H; subst. exists []. rewrite app_nil_r. split; auto. intros vals' b Hx. apply exec_nil in Hx. destruct Hx as [-> _]. replace (filter (from_layer i 0) sub) with (@nil nat); [unfold vsum at 3; cbn; ring|].
      symmetry. clear. induction sub as [|x l IHl]; auto. cbn [filter]. unfold from_layer at 1. destruct (Nat.leb_spec i (getn ml0 x)); cbn [andb]; auto. rewrite (proj2 (Nat.ltb_ge _ _)) by lia. auto.
    - remember (comb_terms root ml0 sub cns add i) as ts eqn:Hts. pose proof (layer_sum (getv vals) add i) as Hls. rewrite <- Hts in Hls.
      destruct ts as [|t0 ts0].
      + fold (add1 add) in H. assert (Ha1 : inr (length vals) (add1 add)) by (unfold add1; destruct root; [constructor|auto]). destruct (IH _ _ _ _ _ _ _ _ vals H Hlen Hs Hc Ha1 HL Hz) as [more [E1 E2]].
        exists more. split; auto. intros vals' b Hx. rewrite (E2 _ _ Hx), sub_split. rewrite expr_val_nil in Hls. transitivity (fadd (fadd (vsum (getv vals) (add1 add)) f0) (vsum (getv vals) (filter (from_layer (S i) n) sub))); [ring|]. rewrite Hls. ring.
      + cbv zeta in H. remember (t0 :: ts0) as ts eqn:Ets. clear Ets. set (ts' := comb_again lst ts) in *.
        assert (Hv : forall y, In y (e_vars F ts') -> y < length vals) by (unfold ts'; destruct (again_cases lst ts) as [->|[x [old [E1 [E2 ->]]]]]; [subst; apply range_ts; auto|apply (HL x old E1)]).
        assert (Hr : forall y, has_rnd ts' y -> In y cns) by (unfold ts'; destruct (again_cases lst ts) as [->|[x [old [E1 [E2 ->]]]]]; [subst; intros y Hy; apply terms_rnd in Hy; tauto|apply (HL x old E1)]).
        assert (Hval : expr_val F E (getv vals) ts' = expr_val F E (getv vals) ts).
        { unfold ts'. destruct (again_cases lst ts) as [->|[x [old [E1 [E2 ->]]]]]; auto. destruct (HL x old E1) as [_ [_ [_ ->]]]. rewrite E2, expr_val_cons, expr_val_nil. unfold term_val. cbn [t_linear vars coef vs_val]. ring. }
        set (u := expr_val F E (getv vals) ts) in *.
        assert (Hl' : length (vals ++ [u]) = length (ml ++ [S i])) by (rewrite !app_length; cbn; lia). assert (Hle : length vals <= length (vals ++ [u])) by (rewrite app_length; lia).
        assert (Ha' : inr (length (vals ++ [u])) (add1 add ++ [length ml])).
        { apply Forall_app. split; [|constructor; [rewrite app_length; cbn; lia|constructor]]. unfold add1. destruct root; [constructor|]. apply (inr_le (length vals)); auto. }
        assert (HL' : LinvA (vals ++ [u]) (Some (length vals, ts'))).
        { intros x old E1. inversion E1; subst x old. rewrite app_length. cbn [length]. split; [lia|]. split; [intros y Hy; specialize (Hv y Hy); lia|]. split; auto. rewrite last_v, ev_app; auto. }
        rewrite <- Hlen in H at 2. destruct (IH _ _ _ _ _ _ _ _ (vals ++ [u]) H Hl' (inr_le _ _ _ Hle Hs) (inr_le _ _ _ Hle Hc) Ha' HL') as [more [E1 E2]].
        { intros y Hy. rewrite getv_app_l; [apply Hz; auto|]. unfold inr in Hc. rewrite Forall_forall in Hc. auto. }
        eexists (_ :: more). rewrite E1, <- app_assoc. split; [reflexivity|]. intros vals' b Hx. apply exec_var1 in Hx. destruct Hx as [u' [_ [Hu Hx]]].
        assert (Eu : u' = u).
        { apply es_zero in Hu; [|intros y Hy; apply from_terms_has_rnd in Hy; auto]. rewrite Hu. transitivity (expr_val F E (getv vals) ts'); [apply from_terms_spec|auto]. }
        subst u'. rewrite (E2 _ _ Hx), sub_split. fold (add1 add). rewrite vsum_app, (vsum_app_vals vals _ (filter (from_layer (S i) n) sub)) by (apply inr_filter; auto). rewrite (vsum_app_vals vals _ (add1 add)) by (unfold add1; destruct root; [constructor|auto]). rewrite vsum_cons. rewrite <- Hlen at 1. rewrite last_v. change (vsum (getv (vals ++ [u])) []) with (@f0 F).
        transitivity (fadd (fadd (vsum (getv vals) (add1 add)) u) (vsum (getv vals) (filter (from_layer (S i) n) sub))); [ring|]. rewrite Hls. ring.
  Qed.

  (* whether anything comes out *)
  Lemma comb_len n : forall i insns ml add lst insns' ml' add', comb (F := F) root ml0 sub cns n i insns ml add lst = (insns', ml', add') ->
    (add <> [] \/ exists x, (In x sub \/ In x cns) /\ from_layer i n x = true) -> add' <> [].
  Proof.
    induction n as [|n IH]; intros i insns ml add lst insns' ml' add' H Hne; cbn [comb] in H.
    - inversion H; subst. destruct Hne as [|[x [_ Hx]]]; auto. unfold from_layer in Hx. rewrite andb_true_iff, Nat.leb_le, Nat.ltb_lt in Hx. lia.
    - remember (comb_terms root ml0 sub cns add i) as ts eqn:Hts. destruct ts as [|t0 ts0].
      + apply IH in H; auto. symmetry in Hts. unfold comb_terms in Hts. apply app_eq_nil in Hts. destruct Hts as [H1 H2]. apply map_eq_nil in H1, H2. apply app_eq_nil in H1. destruct H1 as [H1 H3]. destruct Hne as [Hne|[x [Hx Hl]]].
        * left. destruct root; auto. destruct add; auto. cbn in H3. apply app_eq_nil in H3. destruct H3; discriminate.
        * right. exists x. split; auto. unfold from_layer in *. rewrite andb_true_iff, Nat.leb_le, Nat.ltb_lt in *. split; [|lia]. destruct (Nat.eq_dec (getn ml0 x) i) as [Ei|]; [|lia]. exfalso.
          destruct Hx as [Hx|Hx]; [assert (Hf : In x (filter (fun x => getn ml0 x =? i) sub)) by (apply filter_In; rewrite Nat.eqb_eq; auto); rewrite H1 in Hf|assert (Hf : In x (filter (fun x => getn ml0 x =? i) cns)) by (apply filter_In; rewrite Nat.eqb_eq; auto); rewrite H2 in Hf]; destruct Hf.
      + apply IH in H; auto. left. destruct root; [|destruct add]; discriminate.
  Qed.
  Lemma comb_root1 n : root = true -> forall i insns ml add lst insns' ml' add', comb (F := F) root ml0 sub cns n i insns ml add lst = (insns', ml', add') -> length add <= 1 -> length add' <= 1.
  Proof.
    intros Hr. induction n as [|n IH]; intros i insns ml add lst insns' ml' add' H Hl; cbn [comb] in H; [inversion H; subst; auto|].
    destruct (comb_terms root ml0 sub cns add i) as [|t0 ts0]; apply IH in H; auto; rewrite Hr; cbn; lia.
  Qed.
  Lemma comb_add_range n : forall i insns ml add lst insns' ml' add', comb (F := F) root ml0 sub cns n i insns ml add lst = (insns', ml', add') -> Forall (fun x => 0 < x < length ml) add -> 0 < length ml -> Forall (fun x => 0 < x < length ml') add'.
  Proof.
    induction n as [|n IH]; intros i insns ml add lst insns' ml' add' H Ha Hm; cbn [comb] in H; [inversion H; subst; auto|].
    destruct (comb_terms root ml0 sub cns add i) as [|t0 ts0].
    - apply IH in H; auto. destruct root; auto.
    - apply IH in H; auto; [|rewrite app_length; cbn; lia]. rewrite app_length. cbn [length]. apply Forall_app. split; [|constructor; [lia|constructor]]. destruct root; [constructor|]. eapply Forall_impl; [|exact Ha]. cbn. intros; lia.
  Qed.
  Lemma comb_wf n : forall i insns ml add lst insns' ml' add' nin, comb (F := F) root ml0 sub cns n i insns ml add lst = (insns', ml', add') ->
    wf_insns DI insns nin -> length ml = S (nin + nouts DI insns) -> Forall (fun x => 0 < x < length ml) sub -> Forall (fun x => 0 < x < length ml) cns -> Forall (fun x => 0 < x < length ml) add ->
    (forall x old, lst = Some (x, old) -> forall y, In y (e_vars F old) -> 0 < y < length ml) ->
    wf_insns DI insns' nin /\ length ml' = S (nin + nouts DI insns').
  Proof.
    induction n as [|n IH]; intros i insns ml add lst insns' ml' add' nin H Hw Hl Hs Hc Ha HL; cbn [comb] in H; [inversion H; subst; auto|].
    remember (comb_terms root ml0 sub cns add i) as ts eqn:Hts. destruct ts as [|t0 ts0].
    - apply (IH _ _ _ _ _ _ _ _ nin) in H; auto. destruct root; auto.
    - cbv zeta in H. remember (t0 :: ts0) as ts eqn:Ets. clear Ets.
      assert (Hv : forall y, In y (e_vars F (comb_again lst ts)) -> 0 < y < length ml).
      { destruct (again_cases lst ts) as [->|[x [old [E1 [E2 ->]]]]]; [|apply (HL x old E1)]. subst ts. intros y Hy. apply terms_vars in Hy. rewrite Forall_forall in Hs, Hc, Ha. destruct Hy as [Hy|[Hy|Hy]]; auto. }
      apply (IH _ _ _ _ _ _ _ _ nin) in H; auto.
      + apply wf_insns_app. split; auto. cbn [wf_insns]. split; auto. apply Forall_forall. cbn [i_inputs DestI d_inputs]. intros y Hy. apply from_terms_vars in Hy. specialize (Hv y Hy). cbn beta. lia.
      + rewrite app_length, nouts_app. cbn [nouts length i_nout DestI d_nout]. lia.
      + eapply Forall_impl; [|exact Hs]. rewrite app_length. cbn. intros; lia.
      + eapply Forall_impl; [|exact Hc]. rewrite app_length. cbn. intros; lia.
      + rewrite app_length. cbn [length]. apply Forall_app. split; [|constructor; [lia|constructor]]. destruct root; [constructor|]. eapply Forall_impl; [|exact Ha]. cbn. intros; lia.
      + intros x old E1 y Hy. inversion E1; subst x old. specialize (Hv y Hy). rewrite app_length. lia.
  Qed.
End Comb.
