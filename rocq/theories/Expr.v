(* Model of expander_compiler/src/circuit/ir/expr.rs *)
From Verif Require Import Prelude Field Sorting.

(* expr.rs:18-28 *)
Inductive VarSpec :=
| VConst
| VLinear (x : nat)
| VQuad (x y : nat)
| VCustom (gate_type : nat) (inputs : list nat)
| VRandom (x : nat).

(* The environment an execution depends on besides its inputs:
   e_pub    values of the public inputs (Coef::PublicInput, layered/mod.rs:31-57)
   e_gate   the function of a custom gate type (hints::stub_impl(gate_type, args, 1)[0] in eval_unsafe)
   e_hint   which outputs a hint may produce (hint id, number of outputs, arguments, outputs): honest runs use
            the hint's function, adversarial runs allow anything
   e_rnd    which values a random coefficient may take *)
Record Env (F : Fld) := {
  e_pub : nat -> F;
  e_gate : nat -> list F -> F;
  e_hint : N -> nat -> list F -> list F -> Prop;
  e_rnd : F -> Prop
}.
Arguments e_pub {F}. Arguments e_gate {F}. Arguments e_hint {F}. Arguments e_rnd {F}.

Section Expr.
  Variable F : Fld.
  Add Field Ff : (fth F).
  Open Scope fld_scope.

  (* expr.rs:12-16 *)
  Record Term := { coef : F; vars : VarSpec }.
  (* expr.rs:208-211 *)
  Definition Expression := list Term.

  (* expr.rs:31-43 *)
  Definition vs_normalize (v : VarSpec) : VarSpec :=
    match v with VQuad x y => if (x <? y)%nat then VQuad y x else VQuad x y | _ => v end.
  (* expr.rs:44-52 *)
  Definition vs_is_normalized (v : VarSpec) : bool :=
    match v with VQuad x y => (y <=? x)%nat | _ => true end.
  (* expr.rs:53-80; None = panic *)
  Definition vs_mul (a b : VarSpec) : option VarSpec :=
    match a, b with
    | VRandom _, _ => None
    | _, VRandom _ => None
    | VConst, _ => Some b
    | _, VConst => Some a
    | VLinear x, VLinear y => Some (VQuad x y)
    | _, _ => None
    end.
  (* expr.rs:81-92 *)
  Definition vs_replace (f : nat -> nat) (v : VarSpec) : VarSpec :=
    match v with
    | VConst => VConst | VLinear x => VLinear (f x) | VQuad x y => VQuad (f x) (f y)
    | VCustom g l => VCustom g (map f l) | VRandom x => VRandom (f x)
    end.
  (* derived Ord (expr.rs:18): variant first, then the fields from left to right *)
  Definition vs_key (v : VarSpec) : list nat :=
    match v with
    | VConst => [0%nat] | VLinear x => [1%nat; x] | VQuad x y => [2%nat; x; y]
    | VCustom g l => (3 :: g :: l)%nat | VRandom x => [4%nat; x]
    end.
  Definition vs_cmp (a b : VarSpec) : comparison := lexc (vs_key a) (vs_key b).
  Definition vs_eqb (a b : VarSpec) : bool := match vs_cmp a b with Eq => true | _ => false end.
  Definition vs_ltb (a b : VarSpec) : bool := match vs_cmp a b with Lt => true | _ => false end.
  (* expr.rs:95-104; the field's own order is taken to be that of the canonical representatives
     (it only orders terms that are merged afterwards) *)
  Definition term_leb (a b : Term) : bool :=
    match vs_cmp (vars a) (vars b) with
    | Lt => true | Gt => false | Eq => (toZ (coef a) <=? toZ (coef b))%Z
    end.

  (* expr.rs:112-137 *)
  Definition t_const (c : F) : Term := {| coef := c; vars := VConst |}.
  Definition t_linear (c : F) (x : nat) : Term := {| coef := c; vars := VLinear x |}.
  Definition t_quad (c : F) (x y : nat) : Term :=
    {| coef := c; vars := if (x <? y)%nat then VQuad y x else VQuad x y |}.
  Definition t_random (x : nat) : Term := {| coef := 1; vars := VRandom x |}.
  (* expr.rs:138-140 *)
  Definition t_normalize (t : Term) : Term := {| coef := coef t; vars := vs_normalize (vars t) |}.
  (* expr.rs:149-153 *)
  Definition t_default : Term := t_const 0.
  (* expr.rs:156-161 *)
  Definition t_mul (a b : Term) : option Term :=
    let* v := vs_mul (vars a) (vars b) in Some {| coef := coef a * coef b; vars := v |}.

  (* expr.rs:247-255: the merging loop; [cur] is terms[i], [done] the terms before it in reverse, the in-place
     writes and the truncation are expressed on these *)
  Fixpoint compress_loop (done : list Term) (cur : Term) (rest : list Term) : list Term :=
    match rest with
    | [] => rev (cur :: done)
    | t :: rest =>
        if vs_eqb (vars cur) (vars t)
        then compress_loop done {| coef := coef cur + coef t; vars := vars cur |} rest
        else compress_loop (cur :: done) t rest
    end.
  (* expr.rs:245-261 *)
  Definition compress_identical_terms (ts : list Term) : list Term :=
    let ts := match ts with [] => [] | t :: rest => compress_loop [] t rest end in
    let ts := filter (fun t => negb (coef t =? 0)) ts in
    match ts with [] => [t_default] | _ => ts end.

  (* expr.rs:264-286 *)
  Definition e_const (c : F) : Expression := [t_const c].
  Definition e_linear (c : F) (x : nat) : Expression := [t_linear c x].
  Definition e_quad (c : F) (x y : nat) : Expression := [t_quad c x y].
  Definition e_custom (c : F) (g : nat) (l : list nat) : Expression := [{| coef := c; vars := VCustom g l |}].
  (* expr.rs:287-294 *)
  Definition from_terms (ts : list Term) : Expression :=
    compress_identical_terms (isort term_leb (map t_normalize ts)).
  (* expr.rs:295-304; None = assertion failure *)
  Fixpoint strictly_increasing (ts : list Term) : bool :=
    match ts with
    | a :: ((b :: _) as t) => vs_ltb (vars a) (vars b) && strictly_increasing t
    | _ => true
    end.
  Definition from_terms_sorted (ts : list Term) : option Expression :=
    let ts := match ts with [] => [t_default] | _ => ts end in
    if forallb (fun t => vs_is_normalized (vars t)) ts && strictly_increasing ts then Some ts else None.
  (* expr.rs:308-318 *)
  Definition vs_vars (v : VarSpec) : list nat :=
    match v with VConst => [] | VLinear x => [x] | VQuad x y => [x; y] | VCustom _ l => l | VRandom x => [x] end.
  Definition e_vars (e : Expression) : list nat := flat_map (fun t => vs_vars (vars t)) e.
  (* expr.rs:319-328 *)
  Definition e_replace (f : nat -> nat) (e : Expression) : Expression :=
    map (fun t => {| coef := coef t; vars := vs_replace f (vars t) |}) e.
  (* expr.rs:329-345; None = panic on RandomLinear.  The code returns at the first term of degree 2 *)
  Fixpoint e_degree_loop (has_linear : bool) (e : Expression) : option nat :=
    match e with
    | [] => Some (if has_linear then 1 else 0)%nat
    | t :: e => match vars t with
                | VConst => e_degree_loop has_linear e
                | VLinear _ => e_degree_loop true e
                | VQuad _ _ | VCustom _ _ => Some 2%nat
                | VRandom _ => None
                end
    end.
  Definition e_degree (e : Expression) : option nat := e_degree_loop false e.
  (* expr.rs:359-365 *)
  Definition constant_value (e : Expression) : option F :=
    match e with [t] => match vars t with VConst => Some (coef t) | _ => None end | _ => None end.
  (* expr.rs:366-378 *)
  Definition mul_constant (e : Expression) (c : F) : option Expression :=
    if c =? 0 then Some [t_default]
    else from_terms_sorted (map (fun t => {| coef := coef t * c; vars := vars t |}) e).

  (* ---------- value of an expression: dest/mod.rs:123-153 (eval_unsafe) ---------- *)
  Variable E : Env F.
  (* a term without random coefficient *)
  Definition vs_val (g : nat -> F) (v : VarSpec) : F :=
    match v with
    | VConst => 1 | VLinear x => g x | VQuad x y => g x * g y
    | VCustom t l => e_gate E t (map g l) | VRandom _ => 0
    end.
  Definition term_sem (g : nat -> F) (t : Term) (v : F) : Prop :=
    match vars t with
    | VRandom x => exists r, e_rnd E r /\ v = g x * r
    | vs => v = vs_val g vs * coef t
    end.
  Definition expr_sem (g : nat -> F) (e : Expression) (v : F) : Prop :=
    exists vs, Forall2 (term_sem g) e vs /\ v = fsum F vs.

  Definition no_random (e : list Term) : Prop := Forall (fun t => match vars t with VRandom _ => False | _ => True end) e.
  Definition term_val (g : nat -> F) (t : Term) : F := vs_val g (vars t) * coef t.
  (* the sum of the terms *)
  Definition expr_val (g : nat -> F) (e : list Term) : F := fsum F (map (term_val g) e).

  (* ---------------------------------------------------------------- proofs *)
  Lemma vs_key_inj a b : vs_key a = vs_key b -> a = b.
  Proof. destruct a, b; cbn; intros H; inversion H; auto. Qed.
  Lemma vs_cmp_eq a b : vs_cmp a b = Eq <-> a = b.
  Proof. unfold vs_cmp. rewrite lexc_eq. split; [apply vs_key_inj|congruence]. Qed.
  Lemma vs_cmp_opp a b : vs_cmp b a = CompOpp (vs_cmp a b).
  Proof. apply lexc_opp. Qed.
  Lemma vs_eqb_spec a b : vs_eqb a b = true <-> a = b.
  Proof. unfold vs_eqb. rewrite <- vs_cmp_eq. destruct (vs_cmp a b); split; congruence. Qed.
  Definition vs_lt a b := vs_cmp a b = Lt.
  Lemma vs_lt_trans a b c : vs_lt a b -> vs_lt b c -> vs_lt a c.
  Proof. apply lexc_lt_trans. Qed.
  Lemma vs_lt_irrefl a : ~ vs_lt a a.
  Proof. unfold vs_lt, vs_cmp. rewrite lexc_refl. discriminate. Qed.
  Definition vs_le a b := vs_lt a b \/ a = b.
  Lemma vs_le_trans a b c : vs_le a b -> vs_le b c -> vs_le a c.
  Proof. intros [H1| ->] [H2| ->]; unfold vs_le; auto. left; eapply vs_lt_trans; eauto. Qed.
  Lemma vs_le_lt_trans a b c : vs_le a b -> vs_lt b c -> vs_lt a c.
  Proof. intros [H1| ->] H2; auto. eapply vs_lt_trans; eauto. Qed.
  Lemma vs_lt_le_trans a b c : vs_lt a b -> vs_le b c -> vs_lt a c.
  Proof. intros H [H1| <-]; auto. eapply vs_lt_trans; eauto. Qed.

  Lemma term_leb_le a b : term_leb a b = true -> vs_le (vars a) (vars b).
  Proof.
    unfold term_leb, vs_le, vs_lt. destruct (vs_cmp (vars a) (vars b)) eqn:Ec; intros H; auto; try discriminate.
    right. apply vs_cmp_eq; auto.
  Qed.
  Lemma term_leb_total a b : term_leb a b = true \/ term_leb b a = true.
  Proof.
    unfold term_leb. rewrite (vs_cmp_opp (vars a) (vars b)). destruct (vs_cmp (vars a) (vars b)); cbn; auto.
    destruct (Z.leb_spec (toZ (coef a)) (toZ (coef b))); auto. right. apply Z.leb_le; lia.
  Qed.
  Lemma term_leb_trans a b c : term_leb a b = true -> term_leb b c = true -> term_leb a c = true.
  Proof.
    unfold term_leb. destruct (vs_cmp (vars a) (vars b)) eqn:E1; try discriminate;
      destruct (vs_cmp (vars b) (vars c)) eqn:E2; try discriminate; intros H1 H2.
    - apply vs_cmp_eq in E1, E2. rewrite E1, E2. unfold vs_cmp; rewrite lexc_refl.
      apply Z.leb_le. apply Z.leb_le in H1, H2. lia.
    - apply vs_cmp_eq in E1. rewrite E1, E2; auto.
    - apply vs_cmp_eq in E2. rewrite <- E2, E1; auto.
    - assert (H : vs_lt (vars a) (vars c)) by (eapply vs_lt_trans; eauto). unfold vs_lt in H. rewrite H; auto.
  Qed.

  Lemma term_sem_val g t v : match vars t with VRandom _ => False | _ => True end -> (term_sem g t v <-> v = term_val g t).
  Proof. unfold term_sem, term_val. destruct (vars t); tauto. Qed.
  Lemma expr_sem_val g e v : no_random e -> (expr_sem g e v <-> v = expr_val g e).
  Proof.
    intros H. unfold expr_sem, expr_val. split.
    - intros [vs [Hf ->]]. f_equal. induction Hf as [|t u e vs Ht Hf IH]; auto. inversion H; subst. cbn. f_equal; auto.
      apply term_sem_val; auto.
    - intros ->. exists (map (term_val g) e). split; auto. induction H; cbn; constructor; auto. apply term_sem_val; auto.
  Qed.

  Lemma expr_val_app g a b : expr_val g (a ++ b) = expr_val g a + expr_val g b.
  Proof. unfold expr_val. rewrite map_app, fsum_app; auto. Qed.
  Lemma expr_val_cons g t e : expr_val g (t :: e) = term_val g t + expr_val g e.
  Proof. reflexivity. Qed.
  Lemma expr_val_nil g : expr_val g [] = 0.
  Proof. reflexivity. Qed.
  Lemma expr_val_perm g a b : Permutation a b -> expr_val g a = expr_val g b.
  Proof. intros H. apply fsum_perm. apply Permutation_map; auto. Qed.
  Lemma vs_normalize_val g v : vs_val g (vs_normalize v) = vs_val g v.
  Proof. destruct v; cbn [vs_val vs_normalize]; auto. destruct (x <? y)%nat; cbn; auto. ring. Qed.
  Lemma vs_normalize_norm v : vs_is_normalized (vs_normalize v) = true.
  Proof. destruct v; cbn [vs_normalize vs_is_normalized]; auto. destruct (Nat.ltb_spec x y); cbn [vs_is_normalized]; apply Nat.leb_le; lia. Qed.
  Lemma t_normalize_val g t : term_val g (t_normalize t) = term_val g t.
  Proof. unfold term_val; cbn. rewrite vs_normalize_val; auto. Qed.
  Lemma vs_normalize_vars v : Permutation (vs_vars (vs_normalize v)) (vs_vars v).
  Proof. destruct v; cbn [vs_normalize]; auto. destruct (x <? y)%nat; cbn; auto. constructor. Qed.

  Lemma compress_loop_val g rest : forall done cur,
    expr_val g (compress_loop done cur rest) = expr_val g done + term_val g cur + expr_val g rest.
  Proof.
    induction rest as [|t rest IH]; intros done cur; cbn [compress_loop].
    - rewrite (expr_val_perm g (rev (cur :: done)) (cur :: done)) by (symmetry; apply Permutation_rev).
      rewrite expr_val_cons, expr_val_nil. ring.
    - destruct (vs_eqb (vars cur) (vars t)) eqn:Ev; rewrite IH, ?expr_val_cons.
      + apply vs_eqb_spec in Ev. unfold term_val; cbn. rewrite Ev. ring.
      + ring.
  Qed.
  (* invariant of the loop: [done] reversed followed by cur strictly increasing; rest above cur *)
  Definition inc := StronglySorted (fun a b : Term => vs_lt (vars a) (vars b)).
  Definition ninc := StronglySorted (fun a b : Term => vs_le (vars a) (vars b)).
  Lemma inc_app l1 l2 : inc l1 -> inc l2 -> (forall a b, In a l1 -> In b l2 -> vs_lt (vars a) (vars b)) -> inc (l1 ++ l2).
  Proof.
    induction l1 as [|a l1 IH]; intros H1 H2 H; cbn; auto. inversion H1 as [|? ? Hs Hf]; subst. constructor.
    - apply IH; auto. intros; apply H; auto. right; auto.
    - apply Forall_app; split; auto. apply Forall_forall. intros b Hb; apply H; auto. left; auto.
  Qed.
  Lemma compress_loop_inc rest : forall done cur, inc (rev done) ->
    (forall t, In t done -> vs_lt (vars t) (vars cur)) -> ninc rest -> (forall t, In t rest -> vs_le (vars cur) (vars t)) ->
    inc (compress_loop done cur rest).
  Proof.
    induction rest as [|t rest IH]; intros done cur Hd Hc Hr Hle; cbn [compress_loop].
    - cbn [rev]. apply inc_app; auto. repeat constructor.
      intros a b Ha [<-|[]]. apply Hc. apply in_rev; auto.
    - inversion Hr as [|? ? Hr2 Hf]; subst. rewrite Forall_forall in Hf.
      destruct (vs_eqb (vars cur) (vars t)) eqn:Ev.
      + apply IH; auto. intros u Hu; apply Hle; right; auto.
      + assert (Hlt : vs_lt (vars cur) (vars t)).
        { destruct (Hle t (or_introl eq_refl)) as [|Eq]; auto. rewrite Eq in Ev.
          rewrite (proj2 (vs_eqb_spec _ _) eq_refl) in Ev; discriminate. }
        apply IH; auto.
        * cbn [rev]. apply inc_app; auto. repeat constructor.
          intros a b Ha [<-|[]]. apply Hc. apply in_rev; auto.
        * intros u [<-|Hu]; auto. eapply vs_lt_trans; eauto.
  Qed.
  Lemma compress_loop_vars (P : VarSpec -> Prop) rest : forall done cur,
    Forall (fun t => P (vars t)) done -> P (vars cur) -> Forall (fun t => P (vars t)) rest ->
    Forall (fun t => P (vars t)) (compress_loop done cur rest).
  Proof.
    induction rest as [|t rest IH]; intros done cur H1 H2 H3; cbn [compress_loop].
    - apply Forall_rev. constructor; auto.
    - inversion H3; subst. destruct (vs_eqb _ _); apply IH; auto.
  Qed.
  Lemma inc_filter f l : inc l -> inc (filter f l).
  Proof.
    induction l as [|a l IH]; intros H; cbn; auto. inversion H as [|? ? Hs Hf]; subst.
    destruct (f a); [|apply IH; auto]. constructor; [apply IH; auto|]. apply Forall_forall. intros x Hx. apply filter_In in Hx.
    rewrite Forall_forall in Hf. apply Hf; tauto.
  Qed.
  Lemma expr_val_filter g l : expr_val g (filter (fun t => negb (coef t =? 0)) l) = expr_val g l.
  Proof.
    induction l as [|t l IH]; cbn [filter]; auto. destruct (feqb_reflect F (coef t) 0); cbn [negb].
    - rewrite IH, expr_val_cons. unfold term_val. rewrite e. ring.
    - rewrite !expr_val_cons, IH; auto.
  Qed.

  (* canonical: non-empty, normalised, strictly increasing, and no zero coefficient except the expression 0 *)
  Definition canonical (e : Expression) : Prop :=
    e <> [] /\ Forall (fun t => vs_is_normalized (vars t) = true) e /\ inc e /\
    (e = [t_default] \/ Forall (fun t => coef t <> 0) e).
  Lemma sorted_ninc l : sorted term_leb l -> ninc l.
  Proof.
    induction 1 as [|t l H IH Hf]; constructor; auto. eapply Forall_impl; [|exact Hf].
    intros; apply term_leb_le; auto.
  Qed.
  Lemma compress_spec ts : ninc ts -> Forall (fun t => vs_is_normalized (vars t) = true) ts ->
    canonical (compress_identical_terms ts) /\
    (forall g, expr_val g (compress_identical_terms ts) = expr_val g ts) /\
    (forall t, In t (compress_identical_terms ts) -> t = t_default \/ exists u, In u ts /\ vars u = vars t).
  Proof.
    intros Hs Hn. unfold compress_identical_terms.
    set (l := match ts with [] => [] | t :: rest => compress_loop [] t rest end).
    assert (Hl : inc l /\ Forall (fun t => vs_is_normalized (vars t) = true) l /\ (forall g, expr_val g l = expr_val g ts)
      /\ (forall t, In t l -> exists u, In u ts /\ vars u = vars t)).
    { subst l. destruct ts as [|t rest].
      - split; [constructor|]. split; [constructor|]. split; auto. intros t [].
      - inversion Hs as [|? ? Hs2 Hf]; subst. inversion Hn; subst. rewrite Forall_forall in Hf.
        split; [|split; [|split]].
        + apply compress_loop_inc; auto. constructor. intros ? [].
        + apply compress_loop_vars with (P := fun v => vs_is_normalized v = true); auto.
        + intros g. rewrite compress_loop_val, expr_val_cons, expr_val_nil. ring.
        + intros u Hu. assert (HF : Forall (fun x => exists w, In w (t :: rest) /\ vars w = vars x) (compress_loop [] t rest)).
          { apply compress_loop_vars with (P := fun v => exists w, In w (t :: rest) /\ vars w = v); auto.
            - exists t; split; auto. left; auto.
            - apply Forall_forall. intros x Hx. exists x; split; auto. right; auto. }
          rewrite Forall_forall in HF; auto. }
    destruct Hl as [H1 [H2 [H3 H4]]].
    set (l2 := filter (fun t => negb (coef t =? 0)) l).
    assert (G1 : inc l2) by (apply inc_filter; auto).
    assert (G2 : Forall (fun t => vs_is_normalized (vars t) = true) l2).
    { apply Forall_forall. intros x Hx. apply filter_In in Hx. rewrite Forall_forall in H2. apply H2; tauto. }
    assert (G3 : forall g, expr_val g l2 = expr_val g ts). { intros g. unfold l2. rewrite expr_val_filter; auto. }
    assert (G4 : Forall (fun t => coef t <> 0) l2).
    { apply Forall_forall. intros x Hx. apply filter_In in Hx. destruct Hx as [_ Hx].
      destruct (feqb_reflect F (coef x) 0); auto. discriminate. }
    assert (G5 : forall t, In t l2 -> exists u, In u ts /\ vars u = vars t).
    { intros t Ht. apply filter_In in Ht. apply H4; tauto. }
    clearbody l2. destruct l2 as [|t l2].
    - repeat split; try discriminate; auto; try (repeat constructor; fail).
      intros g. rewrite <- G3. rewrite expr_val_cons, expr_val_nil. unfold term_val; cbn. ring. intros t [<-|[]]; auto.
    - repeat split; try discriminate; auto.
  Qed.

  Lemma from_terms_spec ts :
    canonical (from_terms ts) /\ (forall g, expr_val g (from_terms ts) = expr_val g ts) /\
    (forall t, In t (from_terms ts) -> t = t_default \/ exists u, In u ts /\ vars t = vs_normalize (vars u)).
  Proof.
    unfold from_terms. set (l := isort term_leb (map t_normalize ts)).
    assert (Hp : Permutation l (map t_normalize ts)) by apply isort_perm.
    assert (Hs : ninc l). { apply sorted_ninc. apply isort_sorted. apply term_leb_total. apply term_leb_trans. }
    assert (Hn : Forall (fun t => vs_is_normalized (vars t) = true) l).
    { apply Forall_forall. intros t Ht. apply (Permutation_in _ Hp) in Ht. apply in_map_iff in Ht.
      destruct Ht as [u [<- _]]. apply vs_normalize_norm. }
    destruct (compress_spec l Hs Hn) as [H1 [H2 H3]]. split; [auto|split].
    - intros g. rewrite H2, (expr_val_perm g _ _ Hp). unfold expr_val. rewrite map_map. f_equal. apply map_ext.
      intros; apply t_normalize_val.
    - intros t Ht. destruct (H3 t Ht) as [|[u [Hu Eu]]]; auto. right.
      apply (Permutation_in _ Hp) in Hu. apply in_map_iff in Hu. destruct Hu as [w [<- Hw]]. exists w; auto.
  Qed.

  Lemma no_random_from_terms_E ts : no_random ts -> no_random (from_terms ts).
  Proof.
    intros H. apply Forall_forall. intros t Ht. destruct (from_terms_spec ts) as [_ [_ H3]].
    destruct (H3 t Ht) as [->|[u [Hu Eu]]]; cbn; auto. unfold no_random in H. rewrite Forall_forall in H.
    specialize (H u Hu). rewrite Eu. destruct (vars u); cbn [vs_normalize]; auto. destruct (_ <? _)%nat; auto.
  Qed.
  Lemma from_terms_vars_E ts x : In x (e_vars (from_terms ts)) -> In x (e_vars ts).
  Proof.
    unfold e_vars. rewrite !in_flat_map. intros [t [Ht Hx]]. destruct (from_terms_spec ts) as [_ [_ H3]].
    destruct (H3 t Ht) as [->|[u [Hu Eu]]]. destruct Hx. exists u; split; auto. rewrite Eu in Hx.
    eapply Permutation_in; [apply vs_normalize_vars|]; auto.
  Qed.

  Lemma strictly_increasing_inc l : strictly_increasing l = true <-> inc l.
  Proof.
    induction l as [|a [|b l] IH]; cbn [strictly_increasing].
    - split; auto; constructor.
    - split; auto; repeat constructor.
    - rewrite andb_true_iff, IH. unfold vs_ltb. split.
      + intros [H1 H2]. constructor; auto. inversion H2 as [|? ? Hs Hf]; subst.
        assert (Hlt : vs_lt (vars a) (vars b)). { unfold vs_lt. destruct (vs_cmp (vars a) (vars b)); auto; discriminate. }
        constructor; auto. eapply Forall_impl; [|exact Hf]. cbn. intros c Hc. eapply vs_lt_trans; eauto.
      + intros H. inversion H as [|? ? Hs Hf]; subst. inversion Hf as [|? ? Hab Hf2]; subst. unfold vs_lt in Hab. rewrite Hab; auto.
  Qed.
  Lemma from_terms_sorted_spec ts e : from_terms_sorted ts = Some e ->
    e <> [] /\ inc e /\ Forall (fun t => vs_is_normalized (vars t) = true) e /\ (e = ts \/ (ts = [] /\ e = [t_default])).
  Proof.
    unfold from_terms_sorted. destruct (_ && _) eqn:Ec; [|discriminate]. intros H; inversion H; subst; clear H.
    apply andb_true_iff in Ec. destruct Ec as [H1 H2]. apply strictly_increasing_inc in H2. rewrite forallb_forall in H1.
    split; [destruct ts; discriminate|]. split; [auto|]. split; [apply Forall_forall; auto|]. destruct ts; auto.
  Qed.
  Lemma from_terms_sorted_ok ts : ts <> [] -> inc ts -> Forall (fun t => vs_is_normalized (vars t) = true) ts ->
    from_terms_sorted ts = Some ts.
  Proof.
    intros H1 H2 H3. unfold from_terms_sorted. destruct ts as [|t ts]; [contradiction|].
    rewrite (proj2 (strictly_increasing_inc _) H2). rewrite (proj2 (forallb_forall _ _)); auto. apply Forall_forall; auto.
  Qed.
  Lemma from_terms_sorted_val ts e g : from_terms_sorted ts = Some e -> expr_val g e = expr_val g ts.
  Proof.
    intros H. destruct (from_terms_sorted_spec _ _ H) as (_ & _ & _ & [->|[-> ->]]); auto.
    rewrite expr_val_cons, expr_val_nil. unfold term_val; cbn. ring.
  Qed.
  Lemma mul_constant_spec e c : canonical e ->
    exists e', mul_constant e c = Some e' /\ canonical e' /\ (forall g, expr_val g e' = expr_val g e * c) /\
      (forall x, In x (e_vars e') -> In x (e_vars e)) /\ (no_random e -> no_random e').
  Proof.
    intros [H1 [H2 [H3 H4]]]. unfold mul_constant. destruct (feqb_reflect F c 0) as [->|Hc].
    - exists [t_default]. split; [auto|]. split; [|split; [|split]].
      + repeat split; try discriminate; auto; repeat constructor.
      + intros g. rewrite expr_val_cons, expr_val_nil. unfold term_val; cbn. ring.
      + intros x [].
      + intros _. repeat constructor.
    - set (f := fun t => {| coef := coef t * c; vars := vars t |}).
      assert (Hf : forall P : VarSpec -> Prop, Forall (fun t => P (vars t)) e -> Forall (fun t => P (vars t)) (map f e)).
      { intros P H. rewrite Forall_forall in H. apply Forall_forall. intros t Ht. apply in_map_iff in Ht. destruct Ht as [u [<- Hu]]. exact (H u Hu). }
      assert (Hi : inc (map f e)).
      { clear -H3. induction H3 as [|t l H IH Hl]; [constructor|]. constructor; [exact IH|].
        rewrite Forall_forall in Hl. apply Forall_forall. intros u Hu. apply in_map_iff in Hu. destruct Hu as [w [<- Hw]]. exact (Hl w Hw). }
      exists (map f e). split; [|split; [|split; [|split]]].
      + apply from_terms_sorted_ok; auto. destruct e; [contradiction|discriminate].
        apply (Hf (fun v => vs_is_normalized v = true)); auto.
      + split; [destruct e; [contradiction|discriminate]|]. split; [apply (Hf (fun v => vs_is_normalized v = true)); auto|].
        split; auto. destruct H4 as [->|H4].
        * left. cbn. unfold f, t_default, t_const; cbn. repeat f_equal. ring.
        * right. clear -H4 Hc. induction H4 as [|t l H H4 IH]; cbn; constructor; auto. cbn. intros E0. apply fmul_0 in E0. tauto.
      + intros g. clear. induction e as [|t e IH]; [rewrite expr_val_nil; cbn [map]; rewrite expr_val_nil; ring|].
        cbn [map]. rewrite !expr_val_cons, IH. unfold term_val; cbn. ring.
      + intros x. unfold e_vars. rewrite !in_flat_map. intros [t [Ht Hx]]. apply in_map_iff in Ht. destruct Ht as [u [<- Hu]].
        exists u; auto.
      + intros Hr. apply (Hf (fun v => match v with VRandom _ => False | _ => True end)); auto.
  Qed.

  (* two expressions with the same value for every assignment: canonical forms of degree <= 1 coincide *)
  Lemma vs_replace_val f g v : vs_val g (vs_replace f v) = vs_val (fun x => g (f x)) v.
  Proof. destruct v; cbn; auto. rewrite map_map; auto. Qed.
  Lemma vs_val_ext g g' v : (forall x, In x (vs_vars v) -> g x = g' x) -> vs_val g v = vs_val g' v.
  Proof. destruct v; cbn; intros H; auto; try (rewrite !H; auto; fail). f_equal. apply map_ext_in; auto. Qed.
  Lemma expr_val_ext g g' e : (forall x, In x (e_vars e) -> g x = g' x) -> expr_val g e = expr_val g' e.
  Proof.
    unfold e_vars, expr_val. intros H. f_equal. apply map_ext_in. intros t Ht. unfold term_val. f_equal.
    apply vs_val_ext. intros x Hx; apply H. apply in_flat_map; eauto.
  Qed.
  Lemma e_replace_vars f e : e_vars (e_replace f e) = map f (e_vars e).
  Proof.
    unfold e_vars, e_replace. induction e as [|t e IH]; cbn; auto. rewrite map_app, IH. f_equal. destruct (vars t); cbn; auto.
  Qed.
  Lemma expr_sem_replace f g e v : expr_sem g (e_replace f e) v <-> expr_sem (fun x => g (f x)) e v.
  Proof.
    assert (Ht : forall t w, term_sem g {| coef := coef t; vars := vs_replace f (vars t) |} w <-> term_sem (fun x => g (f x)) t w).
    { intros t w. unfold term_sem; cbn. destruct (vars t); cbn; try reflexivity. rewrite map_map; reflexivity. }
    unfold expr_sem, e_replace. split; intros [vs [H ->]]; exists vs; split; auto; clear -H Ht.
    - revert vs H; induction e as [|t e IH]; intros vs H; inversion H; subst; constructor; auto. apply Ht; auto.
    - induction H; cbn; constructor; auto. apply Ht; auto.
  Qed.
  Lemma expr_sem_ext g g' e v : (forall x, In x (e_vars e) -> g x = g' x) -> expr_sem g e v -> expr_sem g' e v.
  Proof.
    intros Hg [vs [H ->]]. exists vs; split; auto. induction H as [|t u e vs Ht H IH]; constructor.
    - unfold e_vars in Hg; cbn in Hg. unfold term_sem in *. destruct (vars t) eqn:Ev; cbn in *; auto.
      + rewrite <- Hg by auto; auto.
      + rewrite <- !Hg by auto; auto.
      + subst. do 2 f_equal. apply map_ext_in. intros; apply Hg. apply in_or_app; auto.
      + destruct Ht as [r [H1 H2]]. exists r; split; auto. rewrite <- Hg by auto; auto.
    - apply IH. intros x Hx. apply Hg. unfold e_vars in *. cbn. apply in_or_app; auto.
  Qed.
End Expr.
Arguments coef {F}. Arguments vars {F}.

(* an arbitrary environment, to instantiate statements that do not depend on it *)
Definition env0 (F : Fld) : Env F :=
  {| e_pub := fun _ => f0; e_gate := fun _ _ => f0; e_hint := fun _ _ _ _ => False; e_rnd := fun _ => False |}.
Lemma no_random_from_terms F ts : no_random F ts -> no_random F (from_terms F ts).
Proof. apply (no_random_from_terms_E F (env0 F)). Qed.
Lemma from_terms_vars F ts x : In x (e_vars F (from_terms F ts)) -> In x (e_vars F ts).
Proof. apply (from_terms_vars_E F (env0 F)). Qed.
Lemma from_terms_canonical F ts : canonical F (from_terms F ts).
Proof. apply (from_terms_spec F (env0 F)). Qed.
