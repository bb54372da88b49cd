(* Facts about the layered optimisations: gates and segments up to what they compute. *)
From Verif Require Import Prelude Field Zp Expr Topo Ir UnionFind Sorting Layered LayeredFacts LayeredOpt.

Lemma Forall2_perm {A B} (R : A -> B -> Prop) l l' : Permutation l l' -> forall r, Forall2 R l r -> exists r', Permutation r r' /\ Forall2 R l' r'.
Proof.
  induction 1 as [|x l l' Hp IH|x y l|l l' l'' H1 IH1 H2 IH2]; intros r Hr.
  - inversion Hr; subst. exists []. split; auto.
  - inversion Hr as [|? b ? r0 Hb Hr0]; subst. destruct (IH _ Hr0) as [r' [P1 P2]]. exists (b :: r'). split; auto.
  - inversion Hr as [|? b ? r0 Hb Hr0]; subst. inversion Hr0 as [|? b2 ? r2 Hb2 Hr2]; subst. exists (b2 :: b :: r2). split; [constructor|]. repeat constructor; auto.
  - destruct (IH1 _ Hr) as [r1 [P1 P2]]. destruct (IH2 _ P2) as [r2 [P3 P4]]. exists r2. split; [etransitivity; eauto|auto].
Qed.
Lemma filter_perm {A} (f : A -> bool) l l' : Permutation l l' -> Permutation (filter f l) (filter f l').
Proof.
  induction 1 as [|x l l' Hp IH|x y l|l l' l'' H1 IH1 H2 IH2]; cbn; auto.
  - destruct (f x); auto.
  - destruct (f x), (f y); auto. constructor.
  - etransitivity; eauto.
Qed.
Lemma flat_map_perm {A B} (f : A -> list B) l l' : Permutation l l' -> Permutation (flat_map f l) (flat_map f l').
Proof. apply Permutation_flat_map. Qed.

(* Two readings of "the same", told apart by a flag: with [full = false] for every set of values the random constants may take; with
   [full = true] only when they may take every value of the field, and then a repeated gate with a random coefficient counts once. *)
Class Mode := full : bool.
Section LOF.
  Context {F : Fld} {MD : Mode}.
  Add Field LOFf : (fth F).
  Notation UG := (UG F). Notation Segment := (Segment F). Notation LCircuit := (LCircuit F). Notation Gate := (Gate F).

  (* ------------------------------------------------------------ gates over a valuation of the wires *)
  Definition kindw (E : Env F) (w : Inp -> F) (k : Kind) : F :=
    match k with KMul a b => fmul (w a) (w b) | KAdd a => w a | KConst => f1 | KCustom t l => e_gate E t (map w l) end.
  Definition contribw (E : Env F) (w : Inp -> F) (g : UG) (ov : nat * F) : Prop :=
    fst ov = g_out g /\ exists c, coef_sem E (g_coef g) c /\ snd ov = fmul (kindw E w (g_in g)) c.
  Lemma contrib_w E cur g p : contrib E cur g p <-> contribw E (wireF cur) g p.
  Proof. unfold contrib, contribw. destruct (g_in g); cbn; reflexivity. Qed.
  (* the gates that must not be repeated (nor merged) *)
  Definition nconst (g : UG) : bool := match g_coef g with CConst _ => false | CRandom => negb full | CPub _ => true end.
  Definition drawn (E : Env F) : Prop := full = true -> forall r, e_rnd E r.
  Definition gle (gs gs' : list UG) : Prop := forall E w cs, drawn E -> Forall2 (contribw E w) gs cs ->
    exists cs', Forall2 (contribw E w) gs' cs' /\ forall o, at_out o cs' = at_out o cs.
  Definition same_outs (gs gs' : list UG) : Prop := forall o, In o (map g_out gs) <-> In o (map g_out gs').
  (* gs' does what gs does, reading no other wires *)
  Definition gq (gs gs' : list UG) : Prop :=
    gle gs gs' /\ gle gs' gs /\ (forall i, In i (all_ins gs') -> In i (all_ins gs)) /\ Permutation (filter nconst gs) (filter nconst gs').
  Definition fequiv (gs gs' : list UG) : Prop := gq gs gs' /\ same_outs gs gs'.

  Lemma gle_refl gs : gle gs gs.
  Proof. intros E w cs _ H. eauto. Qed.
  Lemma gle_trans a b c : gle a b -> gle b c -> gle a c.
  Proof. intros H1 H2 E w cs D H. destruct (H1 _ _ _ D H) as [c1 [A1 A2]]. destruct (H2 _ _ _ D A1) as [c2 [B1 B2]]. exists c2. split; auto. intros o. congruence. Qed.
  Lemma gle_app a b c d : gle a b -> gle c d -> gle (a ++ c) (b ++ d).
  Proof.
    intros H1 H2 E w cs D H. apply Forall2_app_inv_l in H. destruct H as [c1 [c2 [A1 [A2 ->]]]]. destruct (H1 _ _ _ D A1) as [d1 [B1 B2]]. destruct (H2 _ _ _ D A2) as [d2 [C1 C2]].
    exists (d1 ++ d2). split; [apply Forall2_app; auto|]. intros o. rewrite !at_out_app, B2, C2. auto.
  Qed.
  Lemma gle_perm a b : Permutation a b -> gle a b.
  Proof. intros H E w cs _ Hc. destruct (Forall2_perm _ _ _ H _ Hc) as [r [P1 P2]]. exists r. split; auto. intros o. symmetry. apply at_out_perm; auto. Qed.
  Lemma all_ins_app a b : all_ins (a ++ b) = all_ins a ++ all_ins (b : list UG).
  Proof. apply flat_map_app. Qed.
  Lemma gq_refl a : gq a a.
  Proof. split; [apply gle_refl|]. split; [apply gle_refl|]. split; auto. Qed.
  Lemma gq_trans a b c : gq a b -> gq b c -> gq a c.
  Proof. intros [A1 [A2 [A3 A4]]] [B1 [B2 [B3 B4]]]. split; [eapply gle_trans; eauto|]. split; [eapply gle_trans; eauto|]. split; [auto|]. etransitivity; eauto. Qed.
  Lemma gq_app a b c d : gq a b -> gq c d -> gq (a ++ c) (b ++ d).
  Proof.
    intros [A1 [A2 [A3 A4]]] [B1 [B2 [B3 B4]]]. split; [apply gle_app; auto|]. split; [apply gle_app; auto|]. split.
    - intros i. rewrite !all_ins_app, !in_app_iff. intuition.
    - rewrite !filter_app. apply Permutation_app; auto.
  Qed.
  Lemma all_ins_perm (a b : list UG) i : Permutation a b -> In i (all_ins b) -> In i (all_ins a).
  Proof. intros H. unfold all_ins. apply Permutation_in. symmetry. apply Permutation_flat_map; auto. Qed.
  Lemma gq_perm a b : Permutation a b -> gq a b.
  Proof. intros H. split; [apply gle_perm; auto|]. split; [apply gle_perm; symmetry; auto|]. split; [intros i; apply all_ins_perm; auto|]. apply filter_perm; auto. Qed.
  Lemma outs_refl a : same_outs a a. Proof. intros o. reflexivity. Qed.
  Lemma outs_trans a b c : same_outs a b -> same_outs b c -> same_outs a c.
  Proof. intros H1 H2 o. specialize (H1 o). specialize (H2 o). tauto. Qed.
  Lemma outs_app a b c d : same_outs a b -> same_outs c d -> same_outs (a ++ c) (b ++ d).
  Proof. intros H1 H2 o. specialize (H1 o). specialize (H2 o). rewrite !map_app, !in_app_iff. tauto. Qed.
  Lemma outs_perm a b : Permutation a b -> same_outs a b.
  Proof. intros H o. split; apply Permutation_in; [|symmetry]; apply Permutation_map; auto. Qed.
  Lemma fe_refl a : fequiv a a. Proof. split; [apply gq_refl|apply outs_refl]. Qed.
  Lemma fe_trans a b c : fequiv a b -> fequiv b c -> fequiv a c.
  Proof. intros [A1 A2] [B1 B2]. split; [eapply gq_trans; eauto|eapply outs_trans; eauto]. Qed.
  Lemma fe_app a b c d : fequiv a b -> fequiv c d -> fequiv (a ++ c) (b ++ d).
  Proof. intros [A1 A2] [B1 B2]. split; [apply gq_app; auto|apply outs_app; auto]. Qed.
  Lemma fe_perm a b : Permutation a b -> fequiv a b.
  Proof. intros H. split; [apply gq_perm; auto|apply outs_perm; auto]. Qed.

  (* placing gates somewhere else *)
  Definition shv (a : Alloc) (p : nat * F) : nat * F := (a_out a + fst p, snd p).
  Lemma kindw_map E w f k : kindw E w (k_map f k) = kindw E (fun i => w (f i)) k.
  Proof. destruct k; cbn; auto. rewrite map_map. auto. Qed.
  Lemma contribw_shift E w a g p : contribw E w (ushift a g) p <-> exists p0, contribw E (fun i => w (shift (a_in a) i)) g p0 /\ p = shv a p0.
  Proof.
    unfold contribw, shv. cbn [ushift g_in g_out g_coef]. rewrite kindw_map. destruct p as [o v]. cbn [fst snd]. split.
    - intros [-> [c [H1 ->]]]. exists (g_out g, fmul (kindw E (fun i => w (shift (a_in a) i)) (g_in g)) c). cbn. eauto.
    - intros [[o0 v0] [[H1 [c [H2 H3]]] H4]]. cbn [fst snd] in *. injection H4 as -> ->. split; [lia|]. eauto.
  Qed.
  Lemma contribw_shift_list E w a gs : forall cs, Forall2 (contribw E w) (map (ushift a) gs) cs <-> exists cs0, Forall2 (contribw E (fun i => w (shift (a_in a) i))) gs cs0 /\ cs = map (shv a) cs0.
  Proof.
    induction gs as [|g gs IH]; intros cs; cbn [map]; split.
    - intros H. inversion H; subst. exists []. split; auto.
    - intros [cs0 [H ->]]. inversion H; subst. constructor.
    - intros H. inversion H as [|? p ? r Hp Hr]; subst. apply contribw_shift in Hp. destruct Hp as [p0 [P1 ->]]. apply IH in Hr. destruct Hr as [r0 [R1 ->]]. exists (p0 :: r0). split; auto.
    - intros [cs0 [H ->]]. inversion H as [|? p ? r Hp Hr]; subst. cbn [map]. constructor; [apply contribw_shift; eauto|]. apply IH. eauto.
  Qed.
  Lemma at_out_shv o a (cs : list (nat * F)) : at_out o (map (shv a) cs) = if a_out a <=? o then at_out (o - a_out a) cs else f0.
  Proof.
    induction cs as [|p cs IH]; cbn [map]; [destruct (_ <=? _); auto|]. rewrite at_out_cons, IH. cbn [shv fst snd].
    destruct (Nat.leb_spec (a_out a) o) as [H|H].
    - rewrite at_out_cons. destruct (Nat.eqb_spec (a_out a + fst p) o), (Nat.eqb_spec (fst p) (o - a_out a)); try lia; auto.
    - destruct (Nat.eqb_spec (a_out a + fst p) o); [lia|]. ring.
  Qed.
  Lemma gle_shift a gs gs' : gle gs gs' -> gle (map (ushift a) gs) (map (ushift a) gs').
  Proof.
    intros H E w cs D Hc. apply contribw_shift_list in Hc. destruct Hc as [c0 [A ->]]. destruct (H _ _ _ D A) as [c1 [B1 B2]]. exists (map (shv a) c1). split; [apply contribw_shift_list; eauto|].
    intros o. rewrite !at_out_shv. destruct (_ <=? _); auto.
  Qed.
  Lemma all_ins_shift a (gs : list UG) i : In i (all_ins (map (ushift a) gs)) <-> exists j, In j (all_ins gs) /\ i = shift (a_in a) j.
  Proof.
    unfold all_ins. rewrite in_flat_map. split.
    - intros [g [Hg Hi]]. apply in_map_iff in Hg. destruct Hg as [g0 [<- Hg]]. cbn [ushift g_in] in Hi. rewrite k_ins_map in Hi. apply in_map_iff in Hi. destruct Hi as [j [<- Hj]]. exists j. split; auto. apply in_flat_map. eauto.
    - intros [j [Hj ->]]. apply in_flat_map in Hj. destruct Hj as [g [Hg Hj]]. exists (ushift a g). split; [apply in_map; auto|]. cbn. rewrite k_ins_map. apply in_map; auto.
  Qed.
  Lemma filter_shift a gs : filter nconst (map (ushift a) gs) = map (ushift a) (filter nconst gs).
  Proof. induction gs as [|g gs IH]; cbn [map filter]; auto. change (nconst (ushift a g)) with (nconst g). destruct (nconst g); cbn [map]; rewrite IH; auto. Qed.
  Lemma gq_shift a gs gs' : gq gs gs' -> gq (map (ushift a) gs) (map (ushift a) gs').
  Proof.
    intros [A1 [A2 [A3 A4]]]. split; [apply gle_shift; auto|]. split; [apply gle_shift; auto|]. split.
    - intros i. rewrite !all_ins_shift. intros [j [H1 H2]]. exists j. auto.
    - rewrite !filter_shift. apply Permutation_map; auto.
  Qed.
  Lemma fe_shift a gs gs' : fequiv gs gs' -> fequiv (map (ushift a) gs) (map (ushift a) gs').
  Proof.
    intros [A B]. split; [apply gq_shift; auto|]. intros o. rewrite !map_map. cbn [ushift g_out]. rewrite !in_map_iff. split; intros [g [H1 H2]].
    - assert (H3 : In (g_out g) (map g_out gs')) by (apply B; apply in_map; auto). apply in_map_iff in H3. destruct H3 as [g' [H3 H4]]. exists g'. split; auto. lia.
    - assert (H3 : In (g_out g) (map g_out gs)) by (apply B; apply in_map; auto). apply in_map_iff in H3. destruct H3 as [g' [H3 H4]]. exists g'. split; auto. lia.
  Qed.
  Lemma fe_flat_map {A} (f f' : A -> list UG) l : (forall x, In x l -> fequiv (f x) (f' x)) -> fequiv (flat_map f l) (flat_map f' l).
  Proof. induction l as [|x l IH]; intros H; cbn [flat_map]; [apply fe_refl|]. apply fe_app; [apply H; left; auto|]. apply IH. intros y Hy. apply H. right; auto. Qed.

  (* ------------------------------------------------------------ keys *)
  Lemma inp_key_inj l : forall l' r r', length l = length l' -> inp_key l ++ r = inp_key l' ++ r' -> l = l' /\ r = r'.
  Proof.
    induction l as [|[a b] l IH]; intros [|[a' b'] l'] r r' Hl He; cbn in *; try discriminate; auto. injection He as -> -> He. injection Hl as Hl.
    destruct (IH _ _ _ Hl He) as [-> ->]. auto.
  Qed.
  Lemma kind_key_inj k k' r r' : kind_key k ++ r = kind_key k' ++ r' -> k = k' /\ r = r'.
  Proof.
    destruct k as [[a1 a2] [b1 b2]|[a1 a2]| |t l], k' as [[c1 c2] [d1 d2]|[c1 c2]| |t' l']; cbn; intros H; try discriminate; try (injection H; intros; subst; auto; fail).
    injection H as -> Hl He. destruct (inp_key_inj _ _ _ _ Hl He) as [-> ->]. auto.
  Qed.
  Lemma kind_eqb_spec k k' : kind_eqb k k' = true <-> k = k'.
  Proof.
    unfold kind_eqb. split.
    - destruct (lexc _ _) eqn:E; try discriminate. apply lexc_eq in E. intros _. apply (kind_key_inj k k' [] []). congruence.
    - intros ->. rewrite lexc_refl. auto.
  Qed.
  Lemma toZ_inj (x y : F) : toZ x = toZ y -> x = y.
  Proof. intros H. rewrite <- (ofZ_toZ F x), <- (ofZ_toZ F y). congruence. Qed.
  Lemma ug_eqb_spec (g h : UG) : ug_eqb g h = true <-> g = h.
  Proof.
    unfold ug_eqb. split.
    - destruct (lexc _ _) eqn:E; try discriminate. apply lexc_eq in E. intros H. apply Z.eqb_eq in H. unfold ug_key in E. apply kind_key_inj in E. destruct E as [E1 E2]. injection E2 as E2 E3.
      destruct g as [a o c], h as [b o' c']. cbn in *. subst. f_equal. destruct c, c'; cbn in *; try discriminate; auto; [f_equal; apply toZ_inj; auto|congruence].
    - intros ->. rewrite lexc_refl. apply Z.eqb_refl.
  Qed.
  Lemma ug_mem_spec (g : UG) l : ug_mem g l = true <-> In g l.
  Proof. unfold ug_mem. rewrite existsb_exists. split; [intros [h [H1 H2]]; apply ug_eqb_spec in H2; subst; auto|]. intros H. exists g. split; auto. apply ug_eqb_spec; auto. Qed.
  Lemma ug_leb_total (g h : UG) : ug_leb g h = true \/ ug_leb h g = true.
  Proof.
    unfold ug_leb. rewrite (lexc_opp (ug_key g)). destruct (lexc (ug_key g) (ug_key h)); cbn; auto.
    destruct (Z.leb_spec (coef_valZ (g_coef g)) (coef_valZ (g_coef h))); auto. right. apply Z.leb_le. lia.
  Qed.
  Lemma ug_leb_trans (a b c : UG) : ug_leb a b = true -> ug_leb b c = true -> ug_leb a c = true.
  Proof.
    unfold ug_leb. destruct (lexc (ug_key a) (ug_key b)) eqn:E1; try discriminate; destruct (lexc (ug_key b) (ug_key c)) eqn:E2; try discriminate; intros H1 H2.
    - apply lexc_eq in E1, E2. rewrite E1, E2, lexc_refl. apply Z.leb_le in H1, H2. apply Z.leb_le. lia.
    - apply lexc_eq in E1. rewrite E1, E2. auto.
    - apply lexc_eq in E2. rewrite <- E2, E1. auto.
    - rewrite (lexc_lt_trans _ _ _ E1 E2). auto.
  Qed.
  Lemma ug_leb_key (a b : UG) : ug_leb a b = true -> lexc (ug_key a) (ug_key b) <> Gt.
  Proof. unfold ug_leb. destruct (lexc _ _); discriminate. Qed.

  (* ------------------------------------------------------------ merging *)
  Section Merge.
    Context {A : Type} (k : A -> Kind).
    Definition ul (l : list (Gate A)) : list UG := map (uni k) l.
    Lemma gsort_perm (l : list (Gate A)) : Permutation (gsort k l) l.
    Proof. apply isort_perm. Qed.
    Lemma merge2_gle (g h : UG) c d i o : g_in g = i -> g_in h = i -> g_out g = o -> g_out h = o -> g_coef g = CConst c -> g_coef h = CConst d ->
      gq [g; h] [ {| g_in := i; g_out := o; g_coef := CConst (fadd c d) |} ].
    Proof.
      intros G1 H1 G2 H2 G3 H3. repeat split.
      - intros E w cs _ Hc. inversion Hc as [|? [po pv] ? r [P1 [c1 [P2 P3]]] Hr]; subst. inversion Hr as [|? [qo qv] ? r2 [Q1 [c2 [Q2 Q3]]] Hr2]; subst. inversion Hr2; subst. cbn [fst snd] in *.
        rewrite G3 in P2. rewrite H3 in Q2. cbn in P2, Q2. subst. exists [(g_out g, fmul (kindw E w (g_in g)) (fadd c d))]. split.
        + constructor; [|constructor]. split; cbn; auto. eexists. split; [reflexivity|auto].
        + intros o. rewrite !at_out_cons. cbn [fst snd]. rewrite H2. rewrite H1. unfold at_out at 1 2. cbn [filter map fsum]. destruct (g_out g =? o); cbn; ring.
      - intros E w cs _ Hc. inversion Hc as [|? [po pv] ? r [P1 [c1 [P2 P3]]] Hr]; subst. inversion Hr; subst. cbn [fst snd g_in g_out g_coef] in *. cbn in P2. subst.
        exists [(g_out g, fmul (kindw E w (g_in g)) c); (g_out g, fmul (kindw E w (g_in g)) d)]. split.
        + constructor; [|constructor; [|constructor]]; split; cbn; auto; [exists c|exists d]; rewrite ?G3, ?H3, ?H1; cbn; auto.
        + intros o. rewrite !at_out_cons. cbn [fst snd]. unfold at_out at 1 2. cbn [filter map fsum]. destruct (g_out g =? o); cbn; ring.
      - intros j. unfold all_ins. cbn [flat_map g_in]. rewrite !in_app_iff. subst. intuition.
      - unfold nconst. cbn [filter g_coef]. rewrite G3, H3. cbn. auto.
    Qed.
    Lemma can_merge_spec (g h : Gate A) : can_merge k g h = true -> k (g_in g) = k (g_in h) /\ g_out g = g_out h /\ exists c d, g_coef g = CConst c /\ g_coef h = CConst d.
    Proof.
      unfold can_merge. rewrite !andb_true_iff, kind_eqb_spec, Nat.eqb_eq. intros [[[H1 H2] H3] H4]. split; auto. split; auto.
      destruct (g_coef g) as [c| |]; try discriminate. destruct (g_coef h) as [d| |]; try discriminate. eauto.
    Qed.
    Lemma merge_fe l : forall cur, fequiv (ul (cur :: l)) (ul (merge k cur l)).
    Proof.
      induction l as [|g l IH]; intros cur; cbn [merge]; [apply fe_refl|]. destruct (can_merge k cur g) eqn:Ec.
      - apply can_merge_spec in Ec. destruct Ec as [H1 [H2 [c [d [H3 H4]]]]].
        eapply fe_trans; [|apply IH]. rewrite H3, H4. cbn [coef_plus ul map]. change (uni k cur :: uni k g :: map (uni k) l) with ([uni k cur; uni k g] ++ ul l).
        match goal with |- fequiv _ (?x :: _) => change (fequiv ([uni k cur; uni k g] ++ ul l) ([x] ++ ul l)) end. apply fe_app; [|apply fe_refl]. split.
        + apply (merge2_gle (uni k cur) (uni k g) c d); cbn; auto.
        + intros o. cbn. rewrite H2. intuition.
      - change (ul (cur :: g :: l)) with ([uni k cur] ++ ul (g :: l)). change (ul (cur :: merge k g l)) with ([uni k cur] ++ ul (merge k g l)). apply fe_app; [apply fe_refl|apply IH].
    Qed.
    Lemma gq_drop (g : UG) gs : (exists c, g_coef g = CConst c /\ is0 F c = true) -> gq (g :: gs) gs.
    Proof.
      intros [c [H1 H2]]. apply is0_spec in H2. repeat split.
      - intros E w cs _ Hc. inversion Hc as [|? p ? r [P1 [c1 [P2 P3]]] Hr]; subst. exists r. split; auto. intros o. rewrite at_out_cons, P3. rewrite H1 in P2. cbn in P2. subst. destruct (_ =? _); ring.
      - intros E w cs _ Hc. exists ((g_out g, fmul (kindw E w (g_in g)) c) :: cs). split; [constructor; auto; split; cbn; auto; exists c; rewrite H1; cbn; auto|].
        intros o. rewrite at_out_cons. cbn [fst snd]. subst. destruct (_ =? _); ring.
      - intros i Hi. unfold all_ins. cbn [flat_map]. apply in_or_app. auto.
      - cbn [filter]. unfold nconst at 1. rewrite H1. cbn. auto.
    Qed.
    Lemma trim_gq l : gq (ul l) (ul (filter (fun g => negb (zero_gate g)) l)).
    Proof.
      induction l as [|g l IH]; cbn [filter ul map]; [apply gq_refl|]. unfold zero_gate at 1. destruct (g_coef g) as [c| |] eqn:Ec; cbn [negb].
      - destruct (is0 F c) eqn:E0; cbn [negb].
        + eapply gq_trans; [apply gq_drop; exists c; cbn; auto|exact IH].
        + cbn [map]. change (gq ([uni k g] ++ ul l) ([uni k g] ++ ul (filter (fun g => negb (zero_gate g)) l))). apply gq_app; [apply gq_refl|exact IH].
      - cbn [map]. change (gq ([uni k g] ++ ul l) ([uni k g] ++ ul (filter (fun g => negb (zero_gate g)) l))). apply gq_app; [apply gq_refl|exact IH].
      - cbn [map]. change (gq ([uni k g] ++ ul l) ([uni k g] ++ ul (filter (fun g => negb (zero_gate g)) l))). apply gq_app; [apply gq_refl|exact IH].
    Qed.
    Definition merged (l : list (Gate A)) : list (Gate A) := match gsort k l with [] => [] | g :: l => merge k g l end.
    Lemma merged_fe l : fequiv (ul l) (ul (merged l)).
    Proof.
      unfold merged. pose proof (gsort_perm l) as H. destruct (gsort k l) as [|g l'] eqn:E.
      - apply Permutation_nil in H. subst. apply fe_refl.
      - eapply fe_trans; [apply fe_perm; apply Permutation_map; symmetry; exact H|]. apply merge_fe.
    Qed.
    Lemma dedup_gq trim l : gq (ul l) (ul (dedup k trim l)).
    Proof. unfold dedup. fold (merged l). destruct trim; [eapply gq_trans; [apply merged_fe|apply trim_gq]|apply merged_fe]. Qed.
    Lemma merge_outs (l : list (Gate A)) : forall cur g, In g (merge k cur l) -> exists h, In h (cur :: l) /\ g_out g = g_out h /\ g_in g = g_in h.
    Proof.
      induction l as [|x l IH]; intros cur g; cbn [merge]; [intros [<-|[]]; exists cur; cbn; auto|]. destruct (can_merge k cur x).
      - intros H. apply IH in H. destruct H as [h [[<-|H] H2]]; cbn in *; [exists cur; auto|exists h; auto].
      - intros [<-|H]; [exists cur; cbn; auto|]. apply IH in H. destruct H as [h [H H2]]. exists h. split; [right; auto|auto].
    Qed.
    Lemma dedup_outs trim (l : list (Gate A)) g : In g (dedup k trim l) -> exists h, In h l /\ g_out g = g_out h /\ g_in g = g_in h.
    Proof.
      unfold dedup. fold (merged l). intros H. assert (Hm : In g (merged l)) by (destruct trim; [apply filter_In in H; tauto|auto]).
      unfold merged in Hm. pose proof (gsort_perm l) as Hp. destruct (gsort k l) as [|x l'] eqn:E; [destruct Hm|]. apply merge_outs in Hm. destruct Hm as [h [H1 H2]]. exists h. split; auto. eapply Permutation_in; eauto.
    Qed.
    (* the constants of a deduplicated list are at different places *)
    Definition ckeys (l : list (Gate A)) : list (list nat) := map ug_key (filter (fun g => is_const (g_coef g)) (ul l)).
    Definition key_le (g h : Gate A) : Prop := lexc (ug_key (uni k g)) (ug_key (uni k h)) <> Gt.
    Lemma merge_head (l : list (Gate A)) : forall cur x r, merge k cur l = x :: r -> ug_key (uni k x) = ug_key (uni k cur).
    Proof.
      induction l as [|g l IH]; intros cur x r; cbn [merge]; [intros H; injection H as <- _; auto|]. destruct (can_merge k cur g) eqn:Ec; [|intros H; injection H as <- _; auto].
      intros H. apply IH in H. rewrite H. apply can_merge_spec in Ec. destruct Ec as [_ [_ [c [d [H3 H4]]]]]. unfold ug_key. cbn. rewrite H3, H4. auto.
    Qed.
    Lemma merge_keys l : forall cur, StronglySorted key_le (cur :: l) -> NoDup (ckeys (merge k cur l)) /\ forall y, In y (merge k cur l) -> lexc (ug_key (uni k cur)) (ug_key (uni k y)) <> Gt.
    Proof.
      induction l as [|g l IH]; intros cur Hs; cbn [merge].
      - split; [|intros y [<-|[]]; rewrite lexc_refl; discriminate]. unfold ckeys. cbn. destruct (is_const _); cbn; repeat constructor; auto.
      - inversion Hs as [|? ? Hs2 Hf]; subst. inversion Hs2 as [|? ? Hs3 Hf2]; subst. inversion Hf as [|? ? Hcg Hf3]; subst. destruct (can_merge k cur g) eqn:Ec.
        + apply can_merge_spec in Ec. destruct Ec as [_ [_ [c [d [H3 H4]]]]]. rewrite H3, H4. cbn [coef_plus].
          set (m := {| g_in := g_in cur; g_out := g_out cur; g_coef := CConst (fadd c d) |}). assert (Hk : ug_key (uni k m) = ug_key (uni k cur)) by (unfold ug_key, m; cbn; rewrite H3; auto).
          destruct (IH m) as [I1 I2]. { constructor; auto. eapply Forall_impl; [|exact Hf3]. unfold key_le. rewrite Hk. auto. } split; auto. intros y Hy. rewrite <- Hk. auto.
        + destruct (IH g Hs2) as [I1 I2]. split.
          * unfold ckeys. cbn [ul map filter]. destruct (is_const (g_coef (uni k cur))) eqn:Ek; [|exact I1]. cbn [map]. constructor; [|exact I1].
            intros Hin. apply in_map_iff in Hin. destruct Hin as [y [Hy1 Hy2]]. apply filter_In in Hy2. destruct Hy2 as [Hy2 Hy3]. apply in_map_iff in Hy2. destruct Hy2 as [z [<- Hz]].
            specialize (I2 z Hz). rewrite Hy1 in I2. assert (Heq : ug_key (uni k g) = ug_key (uni k cur)).
            { unfold key_le in Hcg. rewrite (lexc_opp (ug_key (uni k cur))) in I2. destruct (lexc (ug_key (uni k cur)) (ug_key (uni k g))) eqn:E; cbn in *; try congruence. apply lexc_eq in E. auto. }
            clear -Heq Ek Ec. unfold ug_key in Heq. apply kind_key_inj in Heq. destruct Heq as [E1 E2]. cbn in E1, E2, Ek. injection E2 as E2 E3.
            unfold can_merge in Ec. rewrite E1, E2, Nat.eqb_refl in Ec. rewrite (proj2 (kind_eqb_spec _ _) eq_refl) in Ec. rewrite Ek in Ec. destruct (g_coef g), (g_coef cur); cbn in *; try discriminate.
          * intros y [<-|Hy]; [rewrite lexc_refl; discriminate|]. specialize (I2 y Hy). unfold key_le in Hcg.
            destruct (lexc (ug_key (uni k cur)) (ug_key (uni k g))) eqn:E1; [apply lexc_eq in E1; rewrite E1; auto| |congruence].
            destruct (lexc (ug_key (uni k g)) (ug_key (uni k y))) eqn:E2; [apply lexc_eq in E2; rewrite <- E2, E1; discriminate| |congruence]. rewrite (lexc_lt_trans _ _ _ E1 E2). discriminate.
    Qed.
    Lemma gsort_keys (l : list (Gate A)) : StronglySorted key_le (gsort k l).
    Proof.
      assert (H : StronglySorted (fun g h => ug_leb (uni k g) (uni k h) = true) (gsort k l)).
      { apply (isort_sorted (fun g h => ug_leb (uni k g) (uni k h))); [intros; apply ug_leb_total|intros a b c; apply ug_leb_trans]. }
      induction H as [|x l' Hs IH Hf]; constructor; auto. eapply Forall_impl; [|exact Hf]. intros y. apply ug_leb_key.
    Qed.
    Lemma NoDup_ckeys_filter (f : Gate A -> bool) l : NoDup (ckeys l) -> NoDup (ckeys (filter f l)).
    Proof.
      unfold ckeys. induction l as [|g l IH]; cbn [ul map filter]; auto. intros H. destruct (is_const (g_coef (uni k g))) eqn:Ek.
      - cbn [map] in H. inversion H as [|? ? H1 H2]; subst. specialize (IH H2). destruct (f g); auto. cbn [map filter]. rewrite Ek. cbn [map]. constructor; auto.
        intros Hin. apply H1. apply in_map_iff in Hin. destruct Hin as [y [Y1 Y2]]. apply in_map_iff. exists y. split; auto. apply filter_In in Y2. destruct Y2 as [Y2 Y3]. apply filter_In. split; auto.
        apply in_map_iff in Y2. destruct Y2 as [z [<- Hz]]. apply in_map. apply filter_In in Hz. tauto.
      - specialize (IH H). destruct (f g); auto. cbn [map filter]. rewrite Ek. auto.
    Qed.
    Lemma dedup_keys trim (l : list (Gate A)) : NoDup (ckeys (dedup k trim l)).
    Proof.
      unfold dedup. assert (Hm : NoDup (ckeys (merged l))).
      { unfold merged. pose proof (gsort_keys l) as Hs. destruct (gsort k l) as [|g l']; [constructor|]. apply merge_keys; auto. }
      fold (merged l). destruct trim; auto. apply NoDup_ckeys_filter; auto.
    Qed.
  End Merge.
End LOF.
