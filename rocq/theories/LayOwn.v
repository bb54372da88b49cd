(* One circuit instance: who writes and who reads which slot. *)
From Verif Require Import Prelude Field Zp Sorting Expr Topo Ir IrInst InputMapping Layered SolveDuplicates LayeredFacts LayeredOpt LayeredOptFacts LayeredExpand LayeredCommon IrFacts Sim Layering LaySem LaySched LayInst LayLayout.
Open Scope nat_scope.

(* ------------------------------------------------------------ sums of gates *)
Section GSum.
  Context {F : Fld}.
  Add Field GSf : (fth F).
  Notation UG := (UG F).
  Variable E : Env F.
  Definition gval (w : Inp -> F) (g : UG) (v : F) : Prop := exists c, coef_sem E (g_coef g) c /\ v = fmul (kindw E w (g_in g)) c.
  Definition gsum (w : Inp -> F) (l : list UG) (v : F) : Prop := exists vs, Forall2 (gval w) l vs /\ v = fsum F vs.
  Definition at_o (o : nat) (l : list UG) : list UG := filter (fun g => g_out g =? o) l.
  Lemma gsum_perm w l l' v : Permutation l l' -> gsum w l v -> gsum w l' v.
  Proof. intros Hp [vs [H ->]]. destruct (Forall2_perm _ _ _ Hp _ H) as [r [R1 R2]]. exists r. split; auto. apply fsum_perm; auto. Qed.
  Lemma gsum_app w a b v : gsum w (a ++ b) v <-> exists x y, gsum w a x /\ gsum w b y /\ v = fadd x y.
  Proof.
    split.
    - intros [vs [H ->]]. apply Forall2_app_inv_l in H. destruct H as [v1 [v2 [H1 [H2 ->]]]]. exists (fsum F v1), (fsum F v2). split; [exists v1; auto|]. split; [exists v2; auto|]. apply fsum_app.
    - intros [x [y [[v1 [H1 ->]] [[v2 [H2 ->]] ->]]]]. exists (v1 ++ v2). split; [apply Forall2_app; auto|]. symmetry. apply fsum_app.
  Qed.
  Lemma gsum_nil w v : gsum w [] v <-> v = f0.
  Proof. split; [intros [vs [H ->]]; inversion H; auto|]. intros ->. exists []. split; auto. Qed.
  Lemma kindw_ext w w' k : (forall i, In i (k_ins k) -> w i = w' i) -> kindw E w k = kindw E w' k.
  Proof. destruct k as [a b|a| |t l]; cbn; intros H; auto; [rewrite (H a), (H b); auto|]. f_equal. apply map_ext_in. auto. Qed.
  Lemma gsum_ext w w' l v : (forall g i, In g l -> In i (k_ins (g_in g)) -> w i = w' i) -> gsum w l v -> gsum w' l v.
  Proof.
    intros H [vs [Hv ->]]. exists vs. split; auto. clear -H Hv. induction Hv as [|g x l vs Hg Hv IH]; constructor.
    - destruct Hg as [c [H1 ->]]. exists c. split; auto. f_equal. apply kindw_ext. intros i Hi. apply (H g i); auto. left; auto.
    - apply IH. intros g' i Hg' Hi. apply (H g' i); auto. right; auto.
  Qed.
  Lemma at_shift (a : Alloc) s (l : list UG) : at_o (a_out a + s) (map (ushift a) l) = map (ushift a) (at_o s l).
  Proof.
    induction l as [|g l IH]; auto. cbn [map at_o filter]. cbn [ushift g_out]. destruct (Nat.eqb_spec (g_out g) s) as [He|He].
    - rewrite (proj2 (Nat.eqb_eq (a_out a + g_out g) (a_out a + s))) by lia. cbn [map]. f_equal. exact IH.
    - rewrite (proj2 (Nat.eqb_neq (a_out a + g_out g) (a_out a + s))) by lia. exact IH.
  Qed.
  Lemma gsum_shift w (a : Alloc) (l : list UG) v : gsum w (map (ushift a) l) v <-> gsum (fun i => w (shift (a_in a) i)) l v.
  Proof.
    unfold gsum. assert (H : forall vs, Forall2 (gval w) (map (ushift a) l) vs <-> Forall2 (gval (fun i => w (shift (a_in a) i))) l vs).
    { induction l as [|g l IH]; intros vs; cbn [map]; split; intros H; inversion H as [|? x ? vs' Hg Hr]; subst; constructor; try (apply IH; auto).
      - destruct Hg as [c [H1 ->]]. exists c. split; auto. cbn [ushift g_in]. rewrite kindw_map. auto.
      - destruct Hg as [c [H1 ->]]. exists c. split; auto. cbn [ushift g_in]. rewrite kindw_map. auto. }
    split; intros [vs [Hv ->]]; exists vs; split; auto; apply H; auto.
  Qed.
  Lemma at_app o (a b : list UG) : at_o o (a ++ b) = at_o o a ++ at_o o b.
  Proof. apply filter_app. Qed.
  Lemma at_none o (l : list UG) : (forall g, In g l -> g_out g <> o) -> at_o o l = [].
  Proof. induction l as [|g l IH]; intros H; auto. cbn [at_o filter]. rewrite (proj2 (Nat.eqb_neq _ _) (H g (or_introl eq_refl))). apply IH. intros h Hh. apply H. right; auto. Qed.
  Lemma at_all o (l : list UG) : (forall g, In g l -> g_out g = o) -> at_o o l = l.
  Proof. induction l as [|g l IH]; intros H; auto. cbn [at_o filter]. rewrite (proj2 (Nat.eqb_eq _ _) (H g (or_introl eq_refl))). f_equal. apply IH. intros h Hh. apply H. right; auto. Qed.
  Lemma at_perm o (a b : list UG) : Permutation a b -> Permutation (at_o o a) (at_o o b).
  Proof. apply filter_perm. Qed.
  Lemma at_concat o (gs : list (list UG)) : forall x gx, nth_error gs x = Some gx -> (forall y gy g, nth_error gs y = Some gy -> y <> x -> In g gy -> g_out g <> o) -> at_o o (concat gs) = at_o o gx.
  Proof.
    induction gs as [|g0 gs IH]; intros x gx Hx Hy; [destruct x; discriminate|]. cbn [concat]. rewrite at_app. destruct x as [|x]; cbn [nth_error] in Hx.
    - apply Some_inj in Hx. subst g0. rewrite (at_none o (concat gs)); [apply app_nil_r|]. intros g Hg. apply in_concat in Hg. destruct Hg as [gy [H1 H2]]. apply In_nth_error in H1. destruct H1 as [y H1]. apply (Hy (S y) gy g); auto.
    - rewrite (at_none o g0) by (intros g Hg; apply (Hy 0 g0 g); auto). cbn [app]. apply (IH x); auto. intros y gy g H1 H2 H3. apply (Hy (S y) gy g); auto.
  Qed.
  Lemma at_flat_none o {A} (f : A -> list UG) l : (forall x g, In x l -> In g (f x) -> g_out g <> o) -> at_o o (flat_map f l) = [].
  Proof. intros H. apply at_none. intros g Hg. apply in_flat_map in Hg. destruct Hg as [x [H1 H2]]. eauto. Qed.
  Lemma at_flat_one o {A} (f : A -> list UG) l x : In x l -> NoDup l -> (forall y g, In y l -> y <> x -> In g (f y) -> g_out g <> o) -> at_o o (flat_map f l) = at_o o (f x).
  Proof.
    induction l as [|z l IH]; intros Hx Hn H; [destruct Hx|]. inversion Hn as [|? ? Hz Hn']; subst. cbn [flat_map]. rewrite at_app. destruct Hx as [->|Hx].
    - rewrite (at_flat_none o f l); [apply app_nil_r|]. intros y g Hy Hg. apply (H y g); [right; auto| |auto]. intros ->. contradiction.
    - rewrite (at_none o (f z)); [cbn [app]; apply IH; auto; intros y g Hy; apply H; right; auto|]. intros g Hg. apply (H z g); [left; auto| |auto]. intros ->. contradiction.
  Qed.
  Definition rd (V : nat -> nat -> F) (i : nat) (w : Inp) : F := V (i - 1 - il w) (io w).
  Lemma F2_omap_in {A B C} (f : A -> option B) : forall (l : list A) (gs : list B) (P : B -> C -> Prop) (Q : A -> C -> Prop), omap f l = Some gs -> (forall t g v, In t l -> f t = Some g -> (P g v <-> Q t v)) -> forall vs, Forall2 P gs vs <-> Forall2 Q l vs.
  Proof.
    induction l as [|t l IH]; intros gs P Q H HPQ vs; cbn [omap] in H; [apply Some_inj in H; subst; split; intros H; inversion H; constructor|].
    destruct (f t) as [g|] eqn:Ef; [|discriminate]. cbn [obind] in H. destruct (omap f l) as [r|]; [|discriminate]. cbn [obind] in H. apply Some_inj in H. subst gs.
    assert (IH' := IH r P Q eq_refl (fun t g v Ht => HPQ t g v (or_intror Ht))). split; intros H; inversion H; subst; constructor; try (apply (HPQ t g); [left; auto|auto|auto]; fail); apply IH'; auto.
  Qed.
  Lemma F2_map {A C} (f : A -> C) (l : list A) : forall vs, Forall2 (fun k a => a = f k) l vs <-> vs = map f l.
  Proof. induction l as [|k l IH]; intros vs; cbn [map]; split; intros H; [inversion H; auto|subst; constructor| |]; [inversion H; subst; f_equal; apply IH; auto|subst; constructor; auto; apply IH; auto]. Qed.
  Lemma F2_imp_in {A C} (P Q : A -> C -> Prop) (l : list A) : forall vs, (forall x a, In x l -> P x a -> Q x a) -> Forall2 P l vs -> Forall2 Q l vs.
  Proof. induction l as [|x l IH]; intros vs H H2; inversion H2; subst; constructor; [apply H; [left|]; auto|]. apply IH; auto. intros y0 a0 Hy0. apply H. right; auto. Qed.
End GSum.

Lemma undup_in x : forall l acc, In x (undup l acc) <-> In x l \/ In x acc.
Proof.
  induction l as [|y l IH]; intros acc; cbn [undup]; [rewrite <- in_rev; cbn; tauto|]. destruct (memb y acc) eqn:Em.
  - apply memb_spec in Em. rewrite IH. cbn [In]. intuition. subst. auto.
  - rewrite IH. cbn [In]. intuition.
Qed.
Lemma undup_nodup : forall l acc, NoDup acc -> NoDup (undup l acc).
Proof.
  induction l as [|y l IH]; intros acc H; cbn [undup]; [apply NoDup_rev; auto|]. destruct (memb y acc) eqn:Em; auto. apply IH. constructor; auto. intros Hy. apply memb_spec in Hy. congruence.
Qed.

(* ------------------------------------------------------------ layouts *)
Definition mids (L : Layout) : list (Layout * nat * nat) := match L with LSparse _ _ _ _ subs => subs | LDense _ _ _ => [] end.
Lemma cell_cases L o : cell L o <-> (exists v, In (o, v) (layout_slots L)) \/ exists s of k s', In (s, of, k) (mids L) /\ cell s s' /\ o = of + s'.
Proof.
  split.
  - intros H. destruct H as [c l p o v H|c l sz p subs o v H|c l sz p subs s of k o H Hc].
    + left. exists v. apply dense_slots. auto.
    + left. exists v. auto.
    + right. exists s, of, k, o. auto.
  - intros [[v H]|[s [of [k [s' [H1 [H2 ->]]]]]]].
    + destruct L as [c l p|c l sz p subs]; [apply dense_slots in H; econstructor; eauto|]. eapply cell_p; eauto.
    + destruct L as [c l p|c l sz p subs]; [destruct H1|]. eapply cell_s; eauto.
Qed.
Section Lok.
  Context {F : Fld}.
  Variable ctxs : list (nat * Ctx (F := F)).
  Lemma lok_slot L o v v' : lok ctxs L -> In (o, v) (layout_slots L) -> In (o, v') (layout_slots L) -> v = v'.
  Proof.
    intros H. destruct H as [c l p|c l sz p subs X H1 H2 H3 H4 H5 H6 H7 H8]; [rewrite !dense_slots; congruence|]. cbn [layout_slots]. eauto.
  Qed.
  Lemma lok_mid L X s of k : lok ctxs L -> lookup (ly_circ L) ctxs = Some X -> In (s, of, k) (mids L) ->
    lok ctxs s /\ of + ly_size s <= ly_size L /\ k < length (x_calls X) /\ start_of X k < ly_layer L < end_of X k.
  Proof.
    intros H HX Hi. destruct H as [c l p|c l sz p subs X0 H1 H2 H3 H4 H5 H6 H7 H8]; [destruct Hi|]. cbn [mids ly_circ ly_size ly_layer] in *. rewrite HX in H1. apply Some_inj in H1. subst X0. specialize (H5 _ _ _ Hi). split; [eauto|]. tauto.
  Qed.
  Lemma lok_own_mid L s of k o v s' : lok ctxs L -> In (s, of, k) (mids L) -> In (o, v) (layout_slots L) -> cell s s' -> o <> of + s'.
  Proof.
    intros H Hi Ho Hc. destruct H as [c l p|c l sz p subs X0 H1 H2 H3 H4 H5 H6 H7 H8]; [destruct Hi|]. cbn [mids layout_slots] in *. specialize (H6 _ _ _ _ _ Hi Ho). pose proof (cell_lt ctxs _ _ Hc (H4 _ _ _ Hi)). lia.
  Qed.
  Lemma lok_mid_mid L s of k o s' of' k' o' : lok ctxs L -> In (s, of, k) (mids L) -> In (s', of', k') (mids L) -> o < ly_size s -> o' < ly_size s' -> of + o = of' + o' -> s = s' /\ of = of' /\ k = k'.
  Proof.
    intros H Hi Hi' Hc Hc' He. destruct H as [c l p|c l sz p subs X0 H1 H2 H3 H4 H5 H6 H7 H8]; [destruct Hi|]. cbn [mids] in *.
    apply In_nth_error in Hi, Hi'. destruct Hi as [a Ha], Hi' as [b Hb]. destruct (Nat.eq_dec a b) as [->|Hne]; [rewrite Ha in Hb; apply Some_inj in Hb; injection Hb; auto|]. specialize (H7 _ _ _ _ _ _ _ _ Ha Hb Hne). lia.
  Qed.
  Lemma lok_mid_fun L s of k s' of' : lok ctxs L -> In (s, of, k) (mids L) -> In (s', of', k) (mids L) -> s = s' /\ of = of'.
  Proof.
    intros H Hi Hi'. destruct H as [c l p|c l sz p subs X0 H1 H2 H3 H4 H5 H6 H7 H8]; [destruct Hi|]. cbn [mids] in *.
    apply In_nth_error in Hi, Hi'. destruct Hi as [a Ha], Hi' as [b Hb]. assert (a = b). { rewrite NoDup_nth_error in H8. apply H8; [rewrite map_length; eapply nth_error_Some_lt; eauto|]. rewrite !nth_error_map, Ha, Hb. auto. }
    subst. rewrite Ha in Hb. apply Some_inj in Hb. injection Hb; auto.
  Qed.
End Lok.

Section LayOwn.
  Context {F : Fld}.
  Add Field LOf : (fth F).
  Notation DI := (DestI F true).
  Notation Ctx := (Ctx (F := F)).
  Notation UG := (UG F).
  Variable cross : bool.
  Variable cs : list (nat * Circuit DI).
  Variable ctxs : list (nat * Ctx).
  Hypothesis Hwf : wf_circuits DI cs.
  Hypothesis Hok : forall id X, lookup id ctxs = Some X -> ctx_ok cross cs ctxs id X.

  Lemma in_vars id X i C x : ctx_ok cross cs ctxs id X -> nth_error (x_lcs X) i = Some C ->
    (In x (lc_vars C) <-> (1 <= x < x_nv X /\ in_layer cross X x i = true) \/ exists c, nth_error (x_cc X) i = Some (Some c) /\ x = cc_id c).
  Proof.
    intros K HC. destruct (ok_lc _ _ _ _ _ K _ _ HC) as [Hv _]. unfold vars_at in Hv. destruct (nth_error (x_cc X) i) as [o|] eqn:Eo; [|discriminate]. cbn [obind] in Hv. apply Some_inj in Hv. rewrite <- Hv, undup_in, !in_app_iff, filter_In, in_seq. split.
    - intros [[H|[H|[H1 H2]]]|[]].
      + right. destruct o as [c|]; [|destruct H]. destruct H as [<-|[]]. eauto.
      + left. destruct (Nat.eqb_spec i (x_out X)) as [->|]; [|destruct H]. split; [|apply (ok_outs _ _ _ _ _ K); auto].
        pose proof (wf_out _ _ (wf_each _ _ Hwf _ _ (ok_c _ _ _ _ _ K))) as W. rewrite Forall_forall in W. apply W in H. rewrite (nv_eq _ _ _ _ _ K). lia.
      + left. split; [lia|auto].
    - intros [[H1 H2]|[c [H1 ->]]]; left; [right; right; split; [lia|auto]|left]. apply Some_inj in H1. subst o. left; auto.
  Qed.
  (* the slot of a variable in layer i *)
  Definition slotq (X : Ctx) (layouts : list Layout) (i x : nat) : option nat :=
    let* L := nth_error layouts i in let* C := nth_error (x_lcs X) i in let* lq := layout_query L (lc_vars C) in lookup x lq.
  (* every slot in use holds the sum of its gates *)
  Definition Sat (E : Env F) (layouts : list Layout) (G : nat -> list UG) (V : nat -> nat -> F) : Prop :=
    forall i L o, 1 <= i -> nth_error layouts i = Some L -> cell L o -> gsum E (rd V i) (at_o o (G i)) (V i o).
  (* V is what an instance with these inputs, outputs and combined constraints computes *)
  Definition agrees (X : Ctx) (layouts : list Layout) (V : nat -> nat -> F) (ins outs : list F) (w : nat -> F) : Prop :=
    length ins = num_inputs (x_c X) /\ length outs = length (outputs (x_c X)) /\
    (forall t s, t < num_inputs (x_c X) -> slotq X layouts 0 (S t) = Some s -> nth_error ins t = Some (V 0 s)) /\
    (forall t x s, nth_error (outputs (x_c X)) t = Some x -> slotq X layouts (x_out X) x = Some s -> nth_error outs t = Some (V (x_out X) s)) /\
    (forall i c s, nth_error (x_cc X) i = Some (Some c) -> slotq X layouts i (cc_id c) = Some s -> w i = V i s) /\
    (forall i, cc_at (x_cc X) i = false -> w i = f0).
  (* what an instance knows about its layouts *)
  Lemma Inst_lq n id layouts G X : Inst cross ctxs n id layouts G -> lookup id ctxs = Some X -> length layouts = S (x_out X) /\
    forall i L, nth_error layouts i = Some L -> lok ctxs L /\ ly_circ L = id /\ ly_layer L = i /\ exists C lq, nth_error (x_lcs X) i = Some C /\ layout_query L (lc_vars C) = Some lq /\
      (i < x_out X -> forall x, In x (lc_vars C) -> exists s, lookup x lq = Some s).
  Proof.
    destruct n as [|n]; intros H HX; [destruct H|]. cbn [Inst] in H. destruct H as [X' [lqs [ch [GK [OW [HX' [Hlen [Hl [Hlq [Hpl _]]]]]]]]]]. rewrite HX in HX'. apply Some_inj in HX'. subst X'. split; auto.
    intros i L HL. destruct (Hl i L HL) as [A [B D]]. split; auto. split; auto. split; auto. destruct (omap_at _ _ _ i L Hlq HL) as [lq [Q1 Q2]]. unfold qry in Q2. rewrite D in Q2.
    destruct (nth_error (x_lcs X) i) as [C|] eqn:EC; [|discriminate]. cbn [obind] in Q2. exists C, lq. split; auto. split; auto. intros Hi x Hx. eapply Hpl; eauto.
  Qed.

  Section Level.
    Variables (n id : nat) (layouts : list Layout) (G : nat -> list UG) (X : Ctx) (lqs : list (list (nat * nat))) (ch : nat -> list (Layout * nat)) (GK : nat -> nat -> list UG) (OW : nat -> list UG).
    Hypothesis HX : lookup id ctxs = Some X.
    Hypothesis Hlen : length layouts = S (x_out X).
    Hypothesis Hl : forall i L, nth_error layouts i = Some L -> lok ctxs L /\ ly_circ L = id /\ ly_layer L = i.
    Hypothesis Hlq : omap (qry X) layouts = Some lqs.
    Hypothesis Hpl : forall i C lq, i < x_out X -> nth_error (x_lcs X) i = Some C -> nth_error lqs i = Some lq -> forall x, In x (lc_vars C) -> exists s, lookup x lq = Some s.
    Hypothesis Hcall : forall k l, nth_error (x_calls X) k = Some l ->
           omap (sub_layout ctxs X layouts lqs k) (seq (start_of X k) (S (end_of X k - start_of X k))) = Some (ch k) /\ Inst cross ctxs n (cl_sub l) (map fst (ch k)) (GK k).
    Hypothesis HG : forall i, 1 <= i <= x_out X -> own_gates cross ctxs X layouts lqs i = Some (OW i) /\
           Permutation (G i) (OW i ++ flat_map (fun k => if (start_of X k <? i) && (i <=? end_of X k)
             then map (ushift (alloc_of (sub_ctx ctxs X k) (ch k) (i - start_of X k))) (GK k (i - start_of X k)) else []) (seq 0 (length (x_calls X)))).
    Let K : ctx_ok cross cs ctxs id X := Hok _ _ HX.

    Definition slot (i x : nat) : option nat := match nth_error lqs i with Some lq => lookup x lq | None => None end.
    Lemma lq_at i : i <= x_out X -> exists L lq C, nth_error layouts i = Some L /\ nth_error lqs i = Some lq /\ nth_error (x_lcs X) i = Some C /\ layout_query L (lc_vars C) = Some lq /\ lok ctxs L /\ ly_circ L = id /\ ly_layer L = i.
    Proof.
      intros Hi. destruct (nth_error_Some_ex layouts i) as [L HL]; [lia|]. destruct (omap_at _ _ _ i L Hlq HL) as [lq [Q1 Q2]]. destruct (Hl _ _ HL) as [A [B D]].
      unfold qry in Q2. rewrite D in Q2. destruct (nth_error (x_lcs X) i) as [C|] eqn:EC; [|discriminate]. cbn [obind] in Q2. exists L, lq, C. auto 10.
    Qed.
    Lemma slot_le i x o : slot i x = Some o -> i <= x_out X.
    Proof. unfold slot. destruct (nth_error lqs i) eqn:Eq; [|discriminate]. intros _. apply nth_error_Some_lt in Eq. rewrite (omap_length _ _ _ Hlq), Hlen in Eq. lia. Qed.
    Lemma slot_in i x o L : slot i x = Some o -> nth_error layouts i = Some L -> exists v, In (o, v) (layout_slots L).
    Proof.
      intros H HL. destruct (lq_at i (slot_le _ _ _ H)) as [L' [lq [C [A1 [A2 [A3 [A4 [A5 [A6 A7]]]]]]]]]. rewrite HL in A1. apply Some_inj in A1. subst L'. unfold slot in H. rewrite A2 in H.
      apply (query_lookup _ _ _ _ _ A4) in H. destruct H as [v [H _]]. eauto.
    Qed.
    Lemma slot_of i o v L : nth_error layouts i = Some L -> In (o, v) (layout_slots L) -> exists x, slot i x = Some o.
    Proof.
      intros HL Hv. assert (Hi : i <= x_out X) by (apply nth_error_Some_lt in HL; lia). destruct (lq_at i Hi) as [L' [lq [C [A1 [A2 [A3 [A4 [A5 [A6 A7]]]]]]]]]. rewrite HL in A1. apply Some_inj in A1. subst L'.
      assert (Hex : exists x, nth_error (lc_vars C) v = Some x).
      { unfold layout_query in A4. destruct (omap _ _) as [l|] eqn:Eom in A4; [|discriminate]. apply In_nth_error in Hv. destruct Hv as [t Ht]. destruct (omap_at _ _ _ t _ Eom Ht) as [y [_ Y2]]. cbn [snd fst] in Y2. destruct (nth_error (lc_vars C) v); [eauto|discriminate]. }
      destruct Hex as [x Hx]. exists x. unfold slot. rewrite A2. apply (query_lookup _ _ _ _ _ A4). eauto.
    Qed.
    Lemma slot_cell i x o L : slot i x = Some o -> nth_error layouts i = Some L -> cell L o.
    Proof. intros H HL. apply cell_cases. left. eapply slot_in; eauto. Qed.
    Lemma slot_inj i x y o : slot i x = Some o -> slot i y = Some o -> x = y.
    Proof.
      intros H H'. destruct (lq_at i (slot_le _ _ _ H)) as [L [lq [C [A1 [A2 [A3 [A4 [A5 [A6 A7]]]]]]]]]. unfold slot in H, H'. rewrite A2 in H, H'.
      apply (query_lookup _ _ _ _ _ A4) in H, H'. destruct H as [v [H1 H2]], H' as [v' [H1' H2']]. assert (v = v') by (eapply lok_slot; eauto). subst. congruence.
    Qed.
    Lemma slot_var i x o : slot i x = Some o -> (1 <= x < x_nv X /\ in_layer cross X x i = true) \/ exists c, nth_error (x_cc X) i = Some (Some c) /\ x = cc_id c.
    Proof.
      intros H. destruct (lq_at i (slot_le _ _ _ H)) as [L [lq [C [A1 [A2 [A3 [A4 [A5 [A6 A7]]]]]]]]]. unfold slot in H. rewrite A2 in H. apply (query_lookup _ _ _ _ _ A4) in H. destruct H as [v [_ H]].
      apply (in_vars _ _ _ _ _ K A3). eapply nth_error_In; eauto.
    Qed.
    Lemma placed i x : i < x_out X -> (1 <= x < x_nv X /\ in_layer cross X x i = true) \/ (exists c, nth_error (x_cc X) i = Some (Some c) /\ x = cc_id c) -> exists o, slot i x = Some o.
    Proof.
      intros Hi H. destruct (lq_at i (Nat.lt_le_incl _ _ Hi)) as [L [lq [C [A1 [A2 [A3 [A4 [A5 [A6 A7]]]]]]]]]. apply (in_vars _ _ _ _ _ K A3) in H. unfold slot. rewrite A2. eapply Hpl; eauto.
    Qed.

    (* ---------------------------------------------------------- the calls *)
    Lemma call_at k l : nth_error (x_calls X) k = Some l -> exists Y, lookup (cl_sub l) ctxs = Some Y /\ sub_ctx ctxs X k = Y /\ end_of X k = start_of X k + x_out Y /\ length (ch k) = S (x_out Y) /\ end_of X k <= x_out X /\ 1 <= x_out Y.
    Proof.
      intros Hk. destruct (ok_sub _ _ _ _ _ K _ _ Hk) as [_ [Y [HY Hd]]]. exists Y. split; auto. split; [unfold sub_ctx; rewrite Hk, HY; auto|]. assert (He : end_of X k = start_of X k + x_out Y) by (unfold end_of, start_of; rewrite Hd; auto).
      split; auto. destruct (Hcall k l Hk) as [Hc _]. split; [rewrite (omap_length _ _ _ Hc), seq_length; lia|]. split; [apply (ok_end _ _ _ _ _ K _ _ Hk)|]. apply (ok_out _ _ _ _ _ (Hok _ _ HY)).
    Qed.
    Lemma call_outs_len k l Y : nth_error (x_calls X) k = Some l -> lookup (cl_sub l) ctxs = Some Y -> length (cl_outs l) = length (outputs (x_c Y)).
    Proof.
      intros Hk HY. pose proof (wf_calls _ _ Hwf _ _ (ok_c _ _ _ _ _ K)) as Wc. rewrite (ok_calls _ _ _ _ _ K) in Hk. apply nth_error_In in Hk. unfold calls_of in Hk. pose proof (ok_c _ _ _ _ _ (Hok _ _ HY)) as Hc.
      revert Hk Wc. generalize (S (num_inputs (x_c X))). induction (instructions (x_c X)) as [|[e|id' l' n'|c] is IH]; intros cur Hk Wc; cbn [calls_from] in Hk; [destruct Hk| | |]; inversion Wc as [|? ? Wi Wc']; subst; eauto.
      destruct Hk as [<-|Hk]; eauto. cbn [cl_sub cl_outs] in *. rewrite seq_length. destruct (Wi id' l' n' eq_refl) as [c [H1 [_ H2]]]. congruence.
    Qed.
    (* the child's own view of its layout j *)
    Definition cslot (k j f s : nat) : Prop := exists l Y Ls of C lq, nth_error (x_calls X) k = Some l /\ lookup (cl_sub l) ctxs = Some Y /\ nth_error (ch k) j = Some (Ls, of) /\ nth_error (x_lcs Y) j = Some C /\
      layout_query Ls (lc_vars C) = Some lq /\ In (f, s) lq.
    Lemma child_lq k l Y j Ls of : nth_error (x_calls X) k = Some l -> lookup (cl_sub l) ctxs = Some Y -> nth_error (ch k) j = Some (Ls, of) -> lok ctxs Ls /\ exists C lq, nth_error (x_lcs Y) j = Some C /\ layout_query Ls (lc_vars C) = Some lq /\
      (j < x_out Y -> forall x, In x (lc_vars C) -> exists s, lookup x lq = Some s).
    Proof.
      intros Hk HY Hj. destruct (Hcall k l Hk) as [_ HI]. destruct (Inst_lq _ _ _ _ _ HI HY) as [_ H]. specialize (H j Ls). rewrite nth_error_map, Hj in H. destruct (H eq_refl) as [A [_ [_ B]]]. split; auto.
    Qed.
    Lemma ch_case k l Y j Ls of C : nth_error (x_calls X) k = Some l -> lookup (cl_sub l) ctxs = Some Y -> nth_error (ch k) j = Some (Ls, of) -> nth_error (x_lcs Y) j = Some C ->
      (j = 0 /\ exists lq, nth_error lqs (start_of X k) = Some lq /\ query lq (cl_ins l) (seq 1 (length (cl_ins l))) (lc_vars C) (cl_sub l) 0 = Some (Ls, of)) \/
      (0 < j < x_out Y /\ exists L, nth_error layouts (start_of X k + j) = Some L /\ In (Ls, of, k) (mids L)) \/
      (j = x_out Y /\ exists lq, nth_error lqs (end_of X k) = Some lq /\ query lq (cl_outs l) (outputs (x_c Y)) (lc_vars C) (cl_sub l) (x_out Y) = Some (Ls, of)).
    Proof.
      intros Hk HY Hj HC. destruct (call_at k l Hk) as [Y' [HY' [_ [He [Hlc [Heo Ho]]]]]]. rewrite HY in HY'. apply Some_inj in HY'. subst Y'. destruct (Hcall k l Hk) as [Hc _].
      assert (Hlt : j < S (x_out Y)) by (rewrite <- Hlc; eapply nth_error_Some_lt; eauto).
      assert (Hs : sub_layout ctxs X layouts lqs k (start_of X k + j) = Some (Ls, of)).
      { destruct (omap_at _ _ _ j (start_of X k + j) Hc) as [y [Y1 Y2]]; [rewrite nth_error_seq; [auto|lia]|]. rewrite Hj in Y1. apply Some_inj in Y1. subst. auto. }
      unfold sub_layout in Hs. rewrite Hk in Hs. cbn [obind] in Hs. rewrite HY in Hs. cbn [obind] in Hs. destruct (lq_at (start_of X k + j)) as [L [lq [C' [A1 [A2 [A3 [A4 [A5 [A6 A7]]]]]]]]]; [lia|]. rewrite A1 in Hs. cbn [obind] in Hs. rewrite A2 in Hs. cbn [obind] in Hs.
      assert (Hm : forall Ls0 of0 k0, In (Ls0, of0, k0) (mids L) -> k0 = k -> 0 < j < x_out Y).
      { intros Ls0 of0 k0 Hm ->. assert (HX' : lookup (ly_circ L) ctxs = Some X) by (rewrite A6; auto). destruct (lok_mid _ _ _ _ _ _ A5 HX' Hm) as [_ [_ [_ M]]]. rewrite A7 in M. lia. }
      assert (Hq : (if start_of X k + j =? end_of X k then let* Cs := nth_error (x_lcs Y) (x_out Y) in query lq (cl_outs l) (outputs (x_c Y)) (lc_vars Cs) (cl_sub l) (x_out Y)
               else if start_of X k + j =? start_of X k then let* Cs := nth_error (x_lcs Y) 0 in query lq (cl_ins l) (seq 1 (length (cl_ins l))) (lc_vars Cs) (cl_sub l) 0 else None) = Some (Ls, of) ->
        (j = 0 /\ exists lq, nth_error lqs (start_of X k) = Some lq /\ query lq (cl_ins l) (seq 1 (length (cl_ins l))) (lc_vars C) (cl_sub l) 0 = Some (Ls, of)) \/
        (j = x_out Y /\ exists lq, nth_error lqs (end_of X k) = Some lq /\ query lq (cl_outs l) (outputs (x_c Y)) (lc_vars C) (cl_sub l) (x_out Y) = Some (Ls, of))).
      { destruct (Nat.eqb_spec (start_of X k + j) (end_of X k)) as [H1|H1].
        - assert (Hj' : j = x_out Y) by lia. rewrite <- Hj', HC. cbn [obind]. intros Hq. right. split; auto. exists lq. rewrite <- H1. auto.
        - destruct (Nat.eqb_spec (start_of X k + j) (start_of X k)) as [H2|H2]; [|discriminate]. assert (Hj' : j = 0) by lia. rewrite Hj' in HC. rewrite HC. cbn [obind]. intros Hq. left. split; auto. exists lq. rewrite <- H2. auto. }
      destruct L as [c ly pl|c ly sz pl subs]; [destruct (Hq Hs) as [H|H]; auto|]. destruct (find _ _) as [[[Ls0 of0] k0]|] eqn:Ef in Hs; [|destruct (Hq Hs) as [H|H]; auto].
      apply Some_inj in Hs. injection Hs as -> ->. apply find_some in Ef. cbn [snd] in Ef. destruct Ef as [Ef Ek]. apply Nat.eqb_eq in Ek. subst k0. apply in_rev in Ef. right. left. split; [eapply Hm; eauto|]. eexists. split; [exact A1|auto].
    Qed.
    Lemma mid_ch i L Ls of k : nth_error layouts i = Some L -> In (Ls, of, k) (mids L) -> k < length (x_calls X) /\ start_of X k < i < end_of X k /\ nth_error (ch k) (i - start_of X k) = Some (Ls, of).
    Proof.
      intros HL Hm. destruct (Hl _ _ HL) as [A [B D]]. assert (HX' : lookup (ly_circ L) ctxs = Some X) by (rewrite B; auto). destruct (lok_mid _ _ _ _ _ _ A HX' Hm) as [_ [_ [Hk M]]]. rewrite D in M. split; auto. split; auto.
      destruct (nth_error_Some_ex (x_calls X) k Hk) as [l El]. destruct (call_at k l El) as [Y [HY [_ [He [Hlc [Heo Ho]]]]]].
      destruct (nth_error_Some_ex (ch k) (i - start_of X k)) as [[Ls' of'] Hc]; [lia|]. destruct (child_lq _ _ _ _ _ _ El HY Hc) as [_ [C [lq [HC _]]]].
      destruct (ch_case _ _ _ _ _ _ _ El HY Hc HC) as [[H _]|[[H [L' [HL' Hm']]]|[H _]]]; [lia| |lia]. replace (start_of X k + (i - start_of X k)) with i in HL' by lia. rewrite HL in HL'. apply Some_inj in HL'. subst L'.
      destruct (lok_mid_fun _ _ _ _ _ _ _ A Hm Hm') as [<- <-]. auto.
    Qed.
    (* child slots at its first and last layer are slots of ours *)
    Lemma cslot_in k l s : nth_error (x_calls X) k = Some l -> forall f, cslot k 0 f s -> exists t x, f = S t /\ nth_error (cl_ins l) t = Some x /\ slot (start_of X k) x = Some (off (ch k) 0 + s).
    Proof.
      intros Hk f [l' [Y [Ls [of [C [lq [H1 [H2 [H3 [H4 [H5 H6]]]]]]]]]]]. rewrite Hk in H1. apply Some_inj in H1. subst l'. destruct (call_at k l Hk) as [Y' [HY' [_ [He [Hlc [Heo Ho]]]]]]. rewrite H2 in HY'. apply Some_inj in HY'. subst Y'.
      destruct (ch_case _ _ _ _ _ _ _ Hk H2 H3 H4) as [[_ [lq0 [Hl0 Hq]]]|[[H _]|[H _]]]; [|lia|lia]. destruct (query_q1 _ _ _ _ _ _ _ _ _ _ _ Hq H5 H6) as [t [x [T1 [T2 T3]]]].
      exists t, x. assert (Htl : t < length (cl_ins l)) by (eapply nth_error_Some_lt; eauto). rewrite nth_error_seq in T1 by auto. apply Some_inj in T1. split; [lia|]. split; auto. unfold slot. rewrite Hl0. unfold off. rewrite (nth_error_nth _ _ 0 (map_nth_error snd _ _ H3)). auto.
    Qed.
    Lemma cslot_out k l Y s : nth_error (x_calls X) k = Some l -> lookup (cl_sub l) ctxs = Some Y -> forall f, cslot k (x_out Y) f s ->
      exists t x, nth_error (outputs (x_c Y)) t = Some f /\ nth_error (cl_outs l) t = Some x /\ slot (end_of X k) x = Some (off (ch k) (x_out Y) + s).
    Proof.
      intros Hk HY f [l' [Y' [Ls [of [C [lq [H1 [H2 [H3 [H4 [H5 H6]]]]]]]]]]]. rewrite Hk in H1. apply Some_inj in H1. subst l'. rewrite HY in H2. apply Some_inj in H2. subst Y'. destruct (call_at k l Hk) as [Y' [HY' [_ [He [Hlc [Heo Ho]]]]]]. rewrite HY in HY'. apply Some_inj in HY'. subst Y'.
      destruct (ch_case _ _ _ _ _ _ _ Hk HY H3 H4) as [[H _]|[[H _]|[_ [lq0 [Hl0 Hq]]]]]; [lia|lia|]. destruct (query_q1 _ _ _ _ _ _ _ _ _ _ _ Hq H5 H6) as [t [x [T1 [T2 T3]]]].
      exists t, x. split; auto. split; auto. unfold slot. rewrite Hl0. unfold off. rewrite (nth_error_nth _ _ 0 (map_nth_error snd _ _ H3)). auto.
    Qed.
    Lemma slot_cslot_out k l Y t x f o : nth_error (x_calls X) k = Some l -> lookup (cl_sub l) ctxs = Some Y -> nth_error (cl_outs l) t = Some x -> nth_error (outputs (x_c Y)) t = Some f -> slot (end_of X k) x = Some o ->
      exists s, o = off (ch k) (x_out Y) + s /\ cslot k (x_out Y) f s.
    Proof.
      intros Hk HY Ht Hf Hs. destruct (call_at k l Hk) as [Y' [HY' [_ [He [Hlc [Heo Ho]]]]]]. rewrite HY in HY'. apply Some_inj in HY'. subst Y'.
      destruct (nth_error_Some_ex (ch k) (x_out Y)) as [[Ls of] Hc]; [lia|]. destruct (child_lq _ _ _ _ _ _ Hk HY Hc) as [_ [C [lq [HC [Hcq _]]]]].
      destruct (ch_case _ _ _ _ _ _ _ Hk HY Hc HC) as [[H _]|[[H _]|[_ [lq0 [Hl0 Hq]]]]]; [lia|lia|].
      assert (Hs0 := Hs). unfold slot in Hs0. rewrite Hl0 in Hs0.
      assert (Hinj : forall y z q, lookup y lq0 = Some q -> lookup z lq0 = Some q -> y = z) by (intros y z q Hy Hz; apply (slot_inj (end_of X k) y z q); unfold slot; rewrite Hl0; auto).
      assert (Hfv : In f (lc_vars C)).
      { apply (in_vars _ _ _ _ _ (Hok _ _ HY) HC). left. apply nth_error_In in Hf. split; [|apply (ok_outs _ _ _ _ _ (Hok _ _ HY)); auto].
        pose proof (wf_out _ _ (wf_each _ _ Hwf _ _ (ok_c _ _ _ _ _ (Hok _ _ HY)))) as W. rewrite Forall_forall in W. apply W in Hf. rewrite (nv_eq _ _ _ _ _ (Hok _ _ HY)). lia. }
      destruct (query_q2 _ _ _ _ _ _ _ _ _ _ _ _ _ Hq Hcq (call_outs_nodup _ _ _ _ _ _ _ K Hk) Hinj Hfv Ht Hf Hs0) as [s [-> Hin]]. exists s. unfold off. rewrite (nth_error_nth _ _ 0 (map_nth_error snd _ _ Hc)). split; auto.
      exists l, Y, Ls, of, C, lq. auto 10.
    Qed.
    Lemma cell_cslot k l Y j Ls of s : nth_error (x_calls X) k = Some l -> lookup (cl_sub l) ctxs = Some Y -> nth_error (ch k) j = Some (Ls, of) -> j = 0 \/ j = x_out Y -> cell Ls s -> exists f, cslot k j f s.
    Proof.
      intros Hk HY Hc Hj Hcl. destruct (call_at k l Hk) as [Y' [HY' [_ [He [Hlc [Heo Ho]]]]]]. rewrite HY in HY'. apply Some_inj in HY'. subst Y'. destruct (child_lq _ _ _ _ _ _ Hk HY Hc) as [_ [C [lq [HC [Hcq _]]]]].
      assert (Hd : exists p, Ls = LDense (cl_sub l) j p).
      { destruct (ch_case _ _ _ _ _ _ _ Hk HY Hc HC) as [[-> [lq0 [Hl0 Hq]]]|[[H _]|[-> [lq0 [Hl0 Hq]]]]]; [|lia|]; eapply query_shape; eauto. }
      destruct Hd as [p ->]. apply cell_cases in Hcl. destruct Hcl as [[v Hv]|[s0 [of0 [k0 [s' [[] _]]]]]].
      assert (Hex : exists x, nth_error (lc_vars C) v = Some x).
      { assert (A4 := Hcq). unfold layout_query in A4. destruct (omap _ _) as [l0|] eqn:Eom in A4; [|discriminate]. apply In_nth_error in Hv. destruct Hv as [t Ht]. destruct (omap_at _ _ _ t _ Eom Ht) as [y [_ Y2]]. cbn [snd fst] in Y2. destruct (nth_error (lc_vars C) v); [eauto|discriminate]. }
      destruct Hex as [x Hx]. exists x. exists l, Y, (LDense (cl_sub l) j p), of, C, lq. split; auto. split; auto. split; auto. split; auto. split; auto. apply (query_in _ _ _ _ _ Hcq). eauto.
    Qed.
    (* a cell of a child is a cell of ours *)
    Lemma child_cell k l Y j Ls of s L : nth_error (x_calls X) k = Some l -> lookup (cl_sub l) ctxs = Some Y -> nth_error (ch k) j = Some (Ls, of) -> cell Ls s -> nth_error layouts (start_of X k + j) = Some L -> cell L (of + s).
    Proof.
      intros Hk HY Hc Hcl HL. destruct (call_at k l Hk) as [Y' [HY' [_ [He [Hlc [Heo Ho]]]]]]. rewrite HY in HY'. apply Some_inj in HY'. subst Y'. destruct (child_lq _ _ _ _ _ _ Hk HY Hc) as [_ [C [lq [HC [Hcq _]]]]].
      assert (Hof : off (ch k) j = of) by (unfold off; rewrite (nth_error_nth _ _ 0 (map_nth_error snd _ _ Hc)); auto).
      destruct (ch_case _ _ _ _ _ _ _ Hk HY Hc HC) as [[-> _]|[[Hj [L' [HL' Hm]]]|[-> _]]].
      - destruct (cell_cslot _ _ _ _ _ _ _ Hk HY Hc (or_introl eq_refl) Hcl) as [f Hf]. destruct (cslot_in _ _ _ Hk f Hf) as [t [x [_ [_ Hs]]]]. rewrite Hof in Hs. rewrite Nat.add_0_r in HL. eapply slot_cell; eauto.
      - rewrite HL in HL'. apply Some_inj in HL'. subst L'. apply cell_cases. right. exists Ls, of, k, s. auto.
      - destruct (cell_cslot _ _ _ _ _ _ _ Hk HY Hc (or_intror eq_refl) Hcl) as [f Hf]. destruct (cslot_out _ _ _ _ Hk HY f Hf) as [t [x [_ [_ Hs]]]]. rewrite Hof in Hs. rewrite <- He in HL. eapply slot_cell; eauto.
    Qed.
    Lemma level_cell i L o : nth_error layouts i = Some L -> cell L o -> (exists x, slot i x = Some o) \/
      exists k Ls of s, k < length (x_calls X) /\ start_of X k < i < end_of X k /\ nth_error (ch k) (i - start_of X k) = Some (Ls, of) /\ cell Ls s /\ o = of + s.
    Proof.
      intros HL Hc. apply cell_cases in Hc. destruct Hc as [[v Hv]|[Ls [of [k [s [Hm [Hs ->]]]]]]]; [left; eapply slot_of; eauto|]. right. exists k, Ls, of, s. destruct (mid_ch _ _ _ _ _ HL Hm) as [A [B D]]. auto 10.
    Qed.
    Lemma ch_mid k i Ls of L : k < length (x_calls X) -> start_of X k < i < end_of X k -> nth_error (ch k) (i - start_of X k) = Some (Ls, of) -> nth_error layouts i = Some L -> In (Ls, of, k) (mids L).
    Proof.
      intros Hk Hi Hc HL. destruct (nth_error_Some_ex (x_calls X) k Hk) as [l El]. destruct (call_at k l El) as [Y [HY [_ [He [Hlc [Heo Ho]]]]]]. destruct (child_lq _ _ _ _ _ _ El HY Hc) as [_ [C [lq [HC _]]]].
      destruct (ch_case _ _ _ _ _ _ _ El HY Hc HC) as [[H _]|[[H [L' [HL' Hm']]]|[H _]]]; [lia| |lia]. replace (start_of X k + (i - start_of X k)) with i in HL' by lia. rewrite HL in HL'. apply Some_inj in HL'. subst L'. auto.
    Qed.
    Lemma own_mid i x o k Ls of s : slot i x = Some o -> k < length (x_calls X) -> start_of X k < i < end_of X k -> nth_error (ch k) (i - start_of X k) = Some (Ls, of) -> cell Ls s -> o <> of + s.
    Proof.
      intros Hs Hk Hi Hc Hcl. destruct (lq_at i (slot_le _ _ _ Hs)) as [L [lq [C [A1 [A2 [A3 [A4 [A5 [A6 A7]]]]]]]]]. destruct (slot_in _ _ _ _ Hs A1) as [v Hv]. pose proof (ch_mid _ _ _ _ _ Hk Hi Hc A1) as Hm. eapply lok_own_mid; eauto.
    Qed.
    Lemma mid_mid i k k' Ls of s Ls' of' s' : k < length (x_calls X) -> start_of X k < i < end_of X k -> nth_error (ch k) (i - start_of X k) = Some (Ls, of) -> s < ly_size Ls ->
      k' < length (x_calls X) -> start_of X k' < i < end_of X k' -> nth_error (ch k') (i - start_of X k') = Some (Ls', of') -> s' < ly_size Ls' -> of + s = of' + s' -> k = k' /\ of = of' /\ Ls = Ls' /\ s = s'.
    Proof.
      intros Hk Hi Hc Hcl Hk' Hi' Hc' Hcl' He. destruct (nth_error_Some_ex (x_calls X) k Hk) as [l El]. destruct (call_at k l El) as [Y [HY [_ [_ [_ [Heo _]]]]]].
      destruct (lq_at i ltac:(lia)) as [L [lq [C [A1 [A2 [A3 [A4 [A5 [A6 A7]]]]]]]]]. pose proof (ch_mid _ _ _ _ _ Hk Hi Hc A1) as Hm. pose proof (ch_mid _ _ _ _ _ Hk' Hi' Hc' A1) as Hm'.
      destruct (lok_mid_mid _ _ _ _ _ _ _ _ _ _ A5 Hm Hm' Hcl Hcl' He) as [-> [-> ->]]. split; auto. split; auto. split; auto. lia.
    Qed.
    (* ---------------------------------------------------------- gates *)
    Lemma term_gate_spec aq o (t : Term F) (g : UG) : term_gate aq o t = Some g -> g_out g = o /\ forall w, In w (k_ins (g_in g)) -> il w = 0 /\ exists v, In v (vs_vars (vars t)) /\ lookup v aq = Some (io w).
    Proof.
      unfold term_gate. destruct (vars t) as [|v|v0 v1|ty vl|v]; intros H.
      - apply Some_inj in H. subst g. split; auto. intros w [].
      - destruct (lookup v aq) as [p|] eqn:Ev; [|discriminate]. cbn [obind] in H. apply Some_inj in H. subst g. split; auto. intros w [<-|[]]. split; auto. exists v. split; [left; auto|auto].
      - destruct (lookup v0 aq) as [x|] eqn:E0; [|discriminate]. cbn [obind] in H. destruct (lookup v1 aq) as [y|] eqn:E1; [|discriminate]. cbn [obind] in H. apply Some_inj in H. subst g.
        destruct (x <? y); split; auto; intros w [<-|[<-|[]]]; (split; [auto|]); [exists v0|exists v1|exists v1|exists v0]; (split; [cbn; auto|auto]).
      - destruct (omap _ vl) as [ps|] eqn:Ep; [|discriminate]. cbn [obind] in H. apply Some_inj in H. subst g. split; auto. cbn [mkg g_in k_ins]. intros w Hw. apply (omap_in _ _ _ w Ep) in Hw. destruct Hw as [v [H1 H2]].
        destruct (lookup v aq) as [p|] eqn:Ev; [|discriminate]. cbn [obind] in H2. apply Some_inj in H2. subst w. split; auto. exists v. auto.
      - destruct (lookup v aq) as [p|] eqn:Ev; [|discriminate]. cbn [obind] in H. apply Some_inj in H. subst g. split; auto. intros w [<-|[]]. split; auto. exists v. split; [left; auto|auto].
    Qed.
    Lemma first_spec i x a : first_gates X lqs i x = Some a -> forall g, In g a -> slot i x = Some (g_out g) /\ forall w, In w (k_ins (g_in g)) -> il w = 0 /\ exists v, slot (i - 1) v = Some (io w).
    Proof.
      unfold first_gates. destruct (getn (x_min X) x =? i); [|intros H; apply Some_inj in H; subst; intros g []]. destruct (nth_error lqs (i - 1)) as [aq|] eqn:Ea; [|discriminate]. cbn [obind]. destruct (nth_error lqs i) as [bq|] eqn:Eb; [|discriminate]. cbn [obind].
      intros H g Hg. unfold slot. rewrite Ea, Eb. destruct (lookup x bq) as [o|]; [|destruct (i =? x_out X); [apply Some_inj in H; subst; destruct Hg|discriminate]].
      destruct (nth_error (x_kinds X) x) as [[|e|c|k]|]; try (apply Some_inj in H; subst a; destruct Hg; fail).
      - apply (omap_in _ _ _ g H) in Hg. destruct Hg as [t [_ Ht]]. apply term_gate_spec in Ht. destruct Ht as [-> Ht]. split; auto. intros w Hw. destruct (Ht w Hw) as [A [v [_ B]]]. eauto.
      - apply Some_inj in H. subst a. destruct Hg as [<-|[]]. split; auto. intros w [].
    Qed.
    Lemma relay_gate_spec x cur next b : relay_gate X lqs x cur next = Some b -> forall g, In g b -> exists p o, slot next x = Some o /\ slot cur x = Some p /\ b = [mkg (KAdd (mkInp (next - cur - 1) p)) o (CConst f1)] /\ g = mkg (KAdd (mkInp (next - cur - 1) p)) o (CConst f1).
    Proof.
      unfold relay_gate, slot. destruct (nth_error lqs cur) as [aq|]; [|discriminate]. cbn [obind]. destruct (nth_error lqs next) as [bq|]; [|discriminate]. cbn [obind]. destruct (lookup x bq) as [o|].
      - destruct (lookup x aq) as [p|]; [|discriminate]. cbn [obind]. intros H. apply Some_inj in H. subst b. intros g [<-|[]]. exists p, o. auto.
      - destruct (next =? x_out X); [|discriminate]. intros H. apply Some_inj in H. subst b. intros g [].
    Qed.
    Lemma pairs_lt : forall l a p q, StronglySorted lt (a :: l) -> In (p, q) (pairs (a :: l)) -> p < q /\ a <= p /\ In q l.
    Proof.
      induction l as [|b l IH]; intros a p q Hs Hi; [destruct Hi|]. change (pairs (a :: b :: l)) with ((a, b) :: pairs (b :: l)) in Hi. inversion Hs as [|? ? Hs' Hf]; subst. assert (a < b) by (inversion Hf; auto).
      destruct Hi as [Hi|Hi]; [injection Hi as <- <-; split; auto; split; auto; left; auto|]. destruct (IH _ _ _ Hs' Hi) as [A [B D]]. split; auto. split; [lia|]. right; auto.
    Qed.
    Lemma omap_pairs {B} (h : nat * nat -> option (list B)) i : forall l a r, StronglySorted lt (a :: l) -> omap (fun p => if snd p =? i then h p else Some []) (pairs (a :: l)) = Some r ->
      match find (fun p => snd p =? i) (pairs (a :: l)) with Some p => h p = Some (concat r) | None => concat r = [] end.
    Proof.
      induction l as [|b l IH]; intros a r Hs H; [cbn in H; apply Some_inj in H; subst; cbn; reflexivity|]. change (pairs (a :: b :: l)) with ((a, b) :: pairs (b :: l)) in *. inversion Hs as [|? ? Hs' Hf]; subst.
      cbn [omap find snd] in *. destruct (Nat.eqb_spec b i) as [->|Hne].
      - destruct (h (a, i)) as [r0|]; [|discriminate]. cbn [obind] in H. destruct (omap _ (pairs (i :: l))) as [r1|] eqn:E1; [|discriminate]. cbn [obind] in H. apply Some_inj in H. subst r. cbn [concat].
        specialize (IH i r1 Hs' E1). destruct (find _ _) as [[p q]|] eqn:Ef in IH.
        + exfalso. apply find_some in Ef. cbn [snd] in Ef. destruct Ef as [Ef Eq]. apply Nat.eqb_eq in Eq. subst q. pose proof (pairs_lt _ _ _ _ Hs' Ef). lia.
        + rewrite IH, app_nil_r. auto.
      - cbn [obind] in H. destruct (omap _ (pairs (b :: l))) as [r1|] eqn:E1; [|discriminate]. cbn [obind] in H. apply Some_inj in H. subst r. cbn [concat app]. apply (IH b r1 Hs' E1).
    Qed.
    Lemma relay_spec i x b : relay_gates cross X lqs i x = Some b -> 1 <= x < x_nv X ->
      (if (getn (x_min X) x <? i) && in_layer cross X x i then relay_gate X lqs x (prevl cross X x i) i = Some b /\ (cross = true -> In (prevl cross X x i, i) (pairs (nth x (x_occ X) []))) else b = []).
    Proof.
      intros H Hx. unfold relay_gates in H. destruct (Bool.bool_dec cross true) as [Hcr|Hcr].
      - rewrite Hcr in H at 1. destruct (omap _ _) as [r|] eqn:Er in H; [|discriminate]. cbn [obind] in H. apply Some_inj in H. subst b. destruct (ok_occ _ _ _ _ _ K Hcr x Hx) as [t [Ho Hs]].
        unfold in_layer, prevl. rewrite Hcr. rewrite Ho in *. pose proof (omap_pairs (fun p => relay_gate X lqs x (fst p) (snd p)) i _ _ r Hs Er) as Hp.
        destruct (memb i (getn (x_min X) x :: t)) eqn:Em.
        + apply memb_spec in Em. destruct (Nat.ltb_spec (getn (x_min X) x) i) as [Hlt|Hge]; cbn [andb].
          * destruct Em as [Em|Em]; [lia|]. destruct (find_pairs _ _ _ Hs Em) as [p [Ef [_ [_ Hin]]]]. rewrite Ef in *. cbn [fst snd] in *. auto.
          * destruct (find _ _) as [[p q]|] eqn:Ef in Hp; auto. exfalso. apply find_some in Ef. cbn [snd] in Ef. destruct Ef as [Ef Eq]. apply Nat.eqb_eq in Eq. subst q. pose proof (pairs_lt _ _ _ _ Hs Ef). lia.
        + rewrite andb_false_r. destruct (find _ _) as [[p q]|] eqn:Ef in Hp; auto. exfalso. apply find_some in Ef. cbn [snd] in Ef. destruct Ef as [Ef Eq]. apply Nat.eqb_eq in Eq. subst q. pose proof (pairs_lt _ _ _ _ Hs Ef) as [_ [_ Hin]].
          assert (memb i (getn (x_min X) x :: t) = true) by (apply memb_spec; right; auto). congruence.
      - apply Bool.not_true_is_false in Hcr. rewrite Hcr in H at 1. unfold in_layer, prevl. rewrite Hcr. destruct (Nat.ltb_spec (getn (x_min X) x) i) as [Hlt|Hge]; cbn [andb] in *; [|apply Some_inj in H; auto].
        rewrite (proj2 (Nat.leb_le (getn (x_min X) x) i)) by lia. cbn [andb]. destruct (i <=? getn (x_max X) x); [|apply Some_inj in H; auto]. split; auto. intros Hc. congruence.
    Qed.
    Lemma cc_spec i c g : cc_gates ctxs X layouts lqs i = Some c -> In g c -> exists cc, nth_error (x_cc X) i = Some (Some cc) /\ slot i (cc_id cc) = Some (g_out g) /\
      exists w, k_ins (g_in g) = [w] /\ il w = 0 /\ ((exists v, In v (cc_vars cc) /\ slot (i - 1) v = Some (io w)) \/
        exists k, In k (cc_subs cc) /\ exists l Y cs0 Ls of s, nth_error (x_calls X) k = Some l /\ lookup (cl_sub l) ctxs = Some Y /\ nth_error (x_cc Y) (i - 1 - start_of X k) = Some (Some cs0) /\
          sub_layout ctxs X layouts lqs k (i - 1) = Some (Ls, of) /\ io w = of + s /\ cell Ls s).
    Proof.
      unfold cc_gates. destruct (nth_error (x_cc X) i) as [[cc|]|]; intros H Hg; try (apply Some_inj in H; subst; destruct Hg; fail). exists cc. split; auto.
      destruct (nth_error lqs (i - 1)) as [aq|] eqn:Ea; [|discriminate]. cbn [obind] in H. destruct (nth_error lqs i) as [bq|] eqn:Eb; [|discriminate]. cbn [obind] in H. destruct (lookup (cc_id cc) bq) as [o|] eqn:Eo; [|discriminate]. cbn [obind] in H.
      destruct (omap _ (cc_vars cc)) as [g1|] eqn:E1; [|discriminate]. cbn [obind] in H. destruct (omap _ (cc_subs cc)) as [g2|] eqn:E2; [|discriminate]. cbn [obind] in H. apply Some_inj in H. subst c. apply in_app_iff in Hg. destruct Hg as [Hg|Hg].
      - apply (omap_in _ _ _ g E1) in Hg. destruct Hg as [v [V1 V2]]. destruct (lookup v aq) as [p|] eqn:Ev; [|discriminate]. cbn [obind] in V2. apply Some_inj in V2. subst g. split; [unfold slot; rewrite Eb; auto|]. exists (mkInp 0 p). split; auto. split; auto. left. exists v. split; auto. unfold slot. rewrite Ea. auto.
      - apply (omap_in _ _ _ g E2) in Hg. destruct Hg as [k [V1 V2]]. destruct (nth_error (x_calls X) k) as [l|] eqn:El; [|discriminate]. cbn [obind] in V2. destruct (lookup (cl_sub l) ctxs) as [Y|] eqn:EY; [|discriminate]. cbn [obind] in V2.
        destruct (nth_error (x_cc Y) _) as [[cs0|]|] eqn:Ecs in V2; try discriminate. cbn [obind] in V2. destruct (nth_error (x_lcs Y) _) as [Cs|] in V2; [|discriminate]. cbn [obind] in V2. destruct (index_of _ _) as [v|] in V2; [|discriminate]. cbn [obind] in V2.
        destruct (sub_layout _ _ _ _ _ _) as [[Ls of]|] eqn:Es in V2; [|discriminate]. cbn [obind fst snd] in V2. destruct (find _ _) as [[s v']|] eqn:Ef in V2; [|discriminate]. cbn [obind fst snd] in V2. apply Some_inj in V2. subst g.
        split; [unfold slot; rewrite Eb; auto|]. exists (mkInp 0 (of + s)). split; auto. split; auto. right. exists k. split; auto. exists l, Y, cs0, Ls, of, s. split; auto. split; auto. split; auto. split; auto. split; auto. apply find_some in Ef. apply cell_cases. left. exists v'. tauto.
    Qed.
    Lemma own_split i : 1 <= i <= x_out X -> exists gs c, OW i = concat gs ++ c /\ cc_gates ctxs X layouts lqs i = Some c /\ length gs = x_nv X /\
      forall x gx, nth_error gs x = Some gx -> exists a b, first_gates X lqs i x = Some a /\ relay_gates cross X lqs i x = Some b /\ gx = a ++ b.
    Proof.
      intros Hi. destruct (HG i Hi) as [H _]. unfold own_gates in H. destruct (omap _ _) as [gs|] eqn:Eg in H; [|discriminate]. cbn [obind] in H. destruct (cc_gates _ _ _ _ _) as [c|]; [|discriminate]. cbn [obind] in H. apply Some_inj in H.
      exists gs, c. split; auto. split; auto. split; [rewrite (omap_length _ _ _ Eg); apply seq_length|]. intros x gx Hx. destruct (nth_seq_omap _ _ _ _ _ Eg Hx) as [x' [Hx' Hf]]. assert (Hlt := nth_error_Some_lt _ _ _ Hx'). rewrite seq_length in Hlt.
      rewrite nth_error_seq in Hx' by auto. apply Some_inj in Hx'. cbn in Hx'. subst x'. destruct (first_gates X lqs i x) as [a|]; [|discriminate]. cbn [obind] in Hf. destruct (relay_gates cross X lqs i x) as [b|]; [|discriminate]. cbn [obind] in Hf. apply Some_inj in Hf. eauto 10.
    Qed.
    Lemma slot0 i o : slot i 0 = Some o -> False.
    Proof. intros H. apply slot_var in H. destruct H as [[H _]|[c [H1 H2]]]; [lia|]. destruct (ok_cc _ _ _ _ _ K _ _ H1) as [_ [H _]]. rewrite (nv_eq _ _ _ _ _ K) in H. lia. Qed.
    Lemma sub_layout_ch k l Y j p : nth_error (x_calls X) k = Some l -> lookup (cl_sub l) ctxs = Some Y -> j <= x_out Y -> sub_layout ctxs X layouts lqs k (start_of X k + j) = Some p -> nth_error (ch k) j = Some p.
    Proof.
      intros Hk HY Hj Hs. destruct (call_at k l Hk) as [Y' [HY' [_ [He _]]]]. rewrite HY in HY'. apply Some_inj in HY'. subst Y'. destruct (Hcall k l Hk) as [Hc _].
      destruct (omap_at _ _ _ j (start_of X k + j) Hc) as [y [Y1 Y2]]; [rewrite nth_error_seq; [auto|lia]|]. congruence.
    Qed.
    (* where the gates of one variable go *)
    Lemma var_gates i x a b g : first_gates X lqs i x = Some a -> relay_gates cross X lqs i x = Some b -> x < x_nv X -> In g (a ++ b) -> slot i x = Some (g_out g) /\ 1 <= x /\ in_layer cross X x i = true /\
      forall w, In w (k_ins (g_in g)) -> (il w = 0 /\ exists v, slot (i - 1) v = Some (io w)) \/ (exists cur, cur < i /\ il w = i - cur - 1 /\ slot cur x = Some (io w) /\ (cross = true -> In (cur, i) (pairs (nth x (x_occ X) []))) /\ (cross = false -> cur = i - 1)).
    Proof.
      intros Ha Hb Hx Hg. assert (Hs : slot i x = Some (g_out g)).
      { apply in_app_iff in Hg. destruct Hg as [Hg|Hg]; [apply (first_spec _ _ _ Ha g Hg)|]. unfold relay_gates in Hb. destruct (Bool.bool_dec cross true) as [Hcr|Hcr].
        - rewrite Hcr in Hb at 1. destruct (omap _ _) as [r|] eqn:Er in Hb; [|discriminate]. cbn [obind] in Hb. apply Some_inj in Hb. subst b. apply in_concat in Hg. destruct Hg as [b0 [H1 H2]]. apply (omap_in _ _ _ b0 Er) in H1. destruct H1 as [[p q] [_ H1]]. cbn [fst snd] in H1.
          destruct (Nat.eqb_spec q i) as [Hqi|Hqi]; [rewrite Hqi in H1|apply Some_inj in H1; subst; destruct H2]. destruct (relay_gate_spec _ _ _ _ H1 g H2) as [p' [o [R1 [R2 [_ ->]]]]]. auto.
        - apply Bool.not_true_is_false in Hcr. rewrite Hcr in Hb at 1. destruct (_ && _) in Hb; [|apply Some_inj in Hb; subst; destruct Hg]. destruct (relay_gate_spec _ _ _ _ Hb g Hg) as [p' [o [R1 [R2 [_ ->]]]]]. auto. }
      split; auto. assert (Hin : 1 <= x /\ in_layer cross X x i = true).
      { destruct (slot_var _ _ _ Hs) as [[H1 H2]|[c [H1 H2]]]; [split; [lia|auto]|]. destruct (ok_cc _ _ _ _ _ K _ _ H1) as [_ [H _]]. lia. }
      destruct Hin as [Hx1 Hin]. split; auto. split; auto. intros w Hw. apply in_app_iff in Hg. destruct Hg as [Hg|Hg]; [left; apply (first_spec _ _ _ Ha g Hg); auto|]. right.
      pose proof (relay_spec _ _ _ Hb (conj Hx1 Hx)) as Hr. rewrite Hin, andb_true_r in Hr. destruct (Nat.ltb_spec (getn (x_min X) x) i) as [Hlt|Hge]; [|subst; destruct Hg]. destruct Hr as [Hr Hp].
      destruct (relay_gate_spec _ _ _ _ Hr g Hg) as [p' [o [R1 [R2 [_ ->]]]]]. destruct Hw as [<-|[]]. cbn [il io]. exists (prevl cross X x i). destruct (layer_prev _ _ _ _ _ _ _ K (conj Hx1 Hx) Hin ltac:(lia)) as [Hlp _].
      split; [lia|]. split; auto. split; auto. split; auto. intros Hc. unfold prevl. rewrite Hc. auto.
    Qed.

    (* ---------------------------------------------------------- all writes and reads are at cells *)
    Definition gok (lays : list Layout) (Z : Ctx) (i : nat) (g : UG) : Prop := (exists L, nth_error lays i = Some L /\ cell L (g_out g)) /\
      forall w, In w (k_ins (g_in g)) -> il w < i - getn (x_used Z) i /\ exists L, nth_error lays (i - 1 - il w) = Some L /\ cell L (io w).
    Lemma slot_celli i x o : slot i x = Some o -> exists L, nth_error layouts i = Some L /\ cell L o.
    Proof. intros H. destruct (lq_at i (slot_le _ _ _ H)) as [L [lq [C [A1 _]]]]. exists L. split; auto. eapply slot_cell; eauto. Qed.
    Lemma own_ok i g : 1 <= i <= x_out X -> In g (OW i) -> gok layouts X i g.
    Proof.
      intros Hi Hg. destruct (own_split i Hi) as [gs [c [E1 [E2 [E3 E4]]]]]. rewrite E1 in Hg. pose proof (ok_used1 _ _ _ _ _ K i Hi) as Hu. apply in_app_iff in Hg. destruct Hg as [Hg|Hg].
      - apply in_concat in Hg. destruct Hg as [gx [H1 H2]]. apply In_nth_error in H1. destruct H1 as [x H1]. destruct (E4 _ _ H1) as [a [b [Ha [Hb ->]]]]. assert (Hx : x < x_nv X) by (rewrite <- E3; eapply nth_error_Some_lt; eauto).
        destruct (var_gates _ _ _ _ _ Ha Hb Hx H2) as [V1 [V2 [V3 V4]]]. split; [eapply slot_celli; eauto|]. intros w Hw. destruct (V4 w Hw) as [[W1 [v W2]]|[cur [W1 [W2 [W3 [W4 W5]]]]]].
        + rewrite W1. split; [lia|]. replace (i - 1 - 0) with (i - 1) by lia. eapply slot_celli; eauto.
        + split.
          * destruct (Bool.bool_dec cross true) as [Hcr|Hcr]; [pose proof (ok_used2 _ _ _ _ _ K x _ _ (conj V2 Hx) (W4 Hcr)); lia|]. apply Bool.not_true_is_false in Hcr. rewrite (W5 Hcr) in W2. lia.
          * replace (i - 1 - il w) with cur by lia. eapply slot_celli; eauto.
      - destruct (cc_spec _ _ _ E2 Hg) as [cc [C1 [C2 [w [C3 [C4 C5]]]]]]. split; [eapply slot_celli; eauto|]. intros w' Hw'. rewrite C3 in Hw'. destruct Hw' as [<-|[]]. rewrite C4. split; [lia|]. replace (i - 1 - 0) with (i - 1) by lia.
        destruct C5 as [[v [_ V]]|[k [Hk [l [Y [cs0 [Ls [of [s [K1 [K2 [K3 [K4 [-> K6]]]]]]]]]]]]]]; [eapply slot_celli; eauto|].
        destruct (ok_cc _ _ _ _ _ K _ _ C1) as [_ [_ [_ [Hks _]]]]. destruct (Hks k Hk) as [_ Hst]. assert (Hj : i - 1 - start_of X k <= x_out Y) by (eapply cc_le; [apply (Hok _ _ K2)|]; apply cc_at_iff; eauto).
        replace (i - 1) with (start_of X k + (i - 1 - start_of X k)) in K4 by lia. pose proof (sub_layout_ch _ _ _ _ _ K1 K2 Hj K4) as Hch. destruct (lq_at (i - 1)) as [L [lq [C [A1 _]]]]; [lia|]. exists L. split; auto.
        eapply child_cell; eauto. replace (start_of X k + (i - 1 - start_of X k)) with (i - 1) by lia. auto.
    Qed.
    Hypothesis Hgk : forall k l Y, nth_error (x_calls X) k = Some l -> lookup (cl_sub l) ctxs = Some Y -> forall j g, 1 <= j <= x_out Y -> In g (GK k j) -> gok (map fst (ch k)) Y j g.
    Definition cgates (i k : nat) : list UG := map (ushift (alloc_of (sub_ctx ctxs X k) (ch k) (i - start_of X k))) (GK k (i - start_of X k)).
    Lemma alloc_nth (Y : Ctx) (c : list (Layout * nat)) (j w : nat) : w < j - getn (x_used Y) j -> nth w (a_in (alloc_of Y c j)) 0 = off c (j - 1 - w).
    Proof.
      intros H. cbn [alloc_of a_in]. set (u := getn (x_used Y) j) in *. rewrite nth_indep with (d' := off c 0) by (rewrite map_length, rev_length, seq_length; auto). rewrite map_nth. f_equal.
      rewrite rev_nth by (rewrite seq_length; auto). rewrite seq_length, seq_nth by lia. lia.
    Qed.
    Lemma off_at k j Ls of : nth_error (ch k) j = Some (Ls, of) -> off (ch k) j = of.
    Proof. intros H. unfold off. rewrite (nth_error_nth _ _ 0 (map_nth_error snd _ _ H)). auto. Qed.
    Lemma child_ok i k l Y g : nth_error (x_calls X) k = Some l -> lookup (cl_sub l) ctxs = Some Y -> start_of X k < i <= end_of X k -> In g (cgates i k) ->
      gok layouts X i g /\ exists Ls of s, nth_error (ch k) (i - start_of X k) = Some (Ls, of) /\ cell Ls s /\ g_out g = of + s.
    Proof.
      intros Hk HY Hi Hg. destruct (call_at k l Hk) as [Y' [HY' [Hsub [He [Hlc [Heo Ho]]]]]]. rewrite HY in HY'. apply Some_inj in HY'. subst Y'. unfold cgates in Hg. rewrite Hsub in Hg. set (j := i - start_of X k) in *. assert (Hj : 1 <= j <= x_out Y) by (unfold j; lia).
      apply in_map_iff in Hg. destruct Hg as [g0 [<- Hg]]. destruct (Hgk k l Y Hk HY j g0 Hj Hg) as [[L0 [A1 A2]] A3]. rewrite nth_error_map in A1. destruct (nth_error (ch k) j) as [[Ls of]|] eqn:Ec; [|discriminate]. cbn [option_map fst] in A1. apply Some_inj in A1. subst L0.
      assert (Hout : g_out (ushift (alloc_of Y (ch k) j) g0) = of + g_out g0) by (cbn [ushift g_out alloc_of a_out]; rewrite (off_at _ _ _ _ Ec); auto).
      split; [|exists Ls, of, (g_out g0); auto]. split.
      - destruct (lq_at i ltac:(lia)) as [L [lq [C [B1 _]]]]. exists L. split; auto. rewrite Hout. eapply child_cell; eauto. unfold j. replace (start_of X k + (i - start_of X k)) with i by lia. auto.
      - intros w Hw. cbn [ushift g_in] in Hw. rewrite k_ins_map in Hw. apply in_map_iff in Hw. destruct Hw as [w0 [<- Hw]]. destruct (A3 w0 Hw) as [B1 [L1 [B2 B3]]]. cbn [shift il io].
        pose proof (ok_used3 _ _ _ _ _ K k l Y j Hk HY Hj) as Hu. replace (j + start_of X k) with i in Hu by (unfold j; lia). split; [unfold j in *; lia|].
        rewrite alloc_nth by auto. rewrite nth_error_map in B2. destruct (nth_error (ch k) (j - 1 - il w0)) as [[Ls1 of1]|] eqn:Ec1; [|discriminate]. cbn [option_map fst] in B2. apply Some_inj in B2. subst L1. rewrite (off_at _ _ _ _ Ec1).
        replace (i - 1 - il w0) with (start_of X k + (j - 1 - il w0)) by (unfold j in *; lia). destruct (lq_at (start_of X k + (j - 1 - il w0))) as [L [lq [C [D1 _]]]]; [unfold j in *; lia|]. exists L. split; auto. eapply child_cell; eauto.
    Qed.
    Lemma level_ok i g : 1 <= i <= x_out X -> In g (G i) -> gok layouts X i g.
    Proof.
      intros Hi Hg. destruct (HG i Hi) as [_ Hp]. eapply Permutation_in in Hg; [|exact Hp]. apply in_app_iff in Hg. destruct Hg as [Hg|Hg]; [apply own_ok; auto|]. apply in_flat_map in Hg. destruct Hg as [k [Hk Hg]]. apply in_seq in Hk.
      destruct (Nat.ltb_spec (start_of X k) i) as [H1|H1]; cbn [andb] in Hg; [|destruct Hg]. destruct (Nat.leb_spec i (end_of X k)) as [H2|H2]; [|destruct Hg].
      destruct (nth_error_Some_ex (x_calls X) k ltac:(lia)) as [l El]. destruct (call_at k l El) as [Y [HY _]]. apply (child_ok i k l Y g El HY); auto.
    Qed.
    (* ---------------------------------------------------------- which gates write a slot *)
    Lemma child_out i k l Y g : nth_error (x_calls X) k = Some l -> lookup (cl_sub l) ctxs = Some Y -> start_of X k < i <= end_of X k -> In g (cgates i k) ->
      (i < end_of X k /\ exists Ls of s, nth_error (ch k) (i - start_of X k) = Some (Ls, of) /\ cell Ls s /\ g_out g = of + s) \/
      (i = end_of X k /\ exists x, slot i x = Some (g_out g) /\ nth_error (x_kinds X) x = Some (OSub k)).
    Proof.
      intros Hk HY Hi Hg. destruct (child_ok i k l Y g Hk HY Hi Hg) as [_ [Ls [of [s [A1 [A2 A3]]]]]]. destruct (call_at k l Hk) as [Y' [HY' [Hsub [He [Hlc [Heo Ho]]]]]]. rewrite HY in HY'. apply Some_inj in HY'. subst Y'.
      destruct (Nat.eq_dec i (end_of X k)) as [Hie|Hie]; [right|left; split; [lia|]; exists Ls, of, s; auto]. split; auto. assert (Hj : i - start_of X k = x_out Y) by lia. rewrite Hj in A1.
      destruct (cell_cslot _ _ _ _ _ _ _ Hk HY A1 (or_intror eq_refl) A2) as [f Hf]. destruct (cslot_out _ _ _ _ Hk HY f Hf) as [t [x [_ [Hx Hs]]]]. exists x. rewrite (off_at _ _ _ _ A1) in Hs. rewrite Hie, A3. split; auto. apply (call_outs _ _ _ _ _ _ _ _ _ K Hk Hx).
    Qed.
    Lemma own_out i gs c g : 1 <= i <= x_out X -> OW i = concat gs ++ c -> cc_gates ctxs X layouts lqs i = Some c -> length gs = x_nv X ->
      (forall x gx, nth_error gs x = Some gx -> exists a b, first_gates X lqs i x = Some a /\ relay_gates cross X lqs i x = Some b /\ gx = a ++ b) -> In g (OW i) -> exists x, slot i x = Some (g_out g).
    Proof.
      intros Hi E1 E2 E3 E4 Hg. rewrite E1 in Hg. apply in_app_iff in Hg. destruct Hg as [Hg|Hg].
      - apply in_concat in Hg. destruct Hg as [gx [H1 H2]]. apply In_nth_error in H1. destruct H1 as [x H1]. destruct (E4 _ _ H1) as [a [b [Ha [Hb ->]]]]. assert (Hx : x < x_nv X) by (rewrite <- E3; eapply nth_error_Some_lt; eauto).
        destruct (var_gates _ _ _ _ _ Ha Hb Hx H2) as [V1 _]. eauto.
      - destruct (cc_spec _ _ _ E2 Hg) as [cc [C1 [C2 _]]]. eauto.
    Qed.
    Definition ckids (i : nat) : list UG := flat_map (fun k => if (start_of X k <? i) && (i <=? end_of X k) then cgates i k else []) (seq 0 (length (x_calls X))).
    Lemma in_kid i k g : In g (if (start_of X k <? i) && (i <=? end_of X k) then cgates i k else []) -> start_of X k < i <= end_of X k /\ In g (cgates i k).
    Proof. destruct (Nat.ltb_spec (start_of X k) i) as [H1|H1]; cbn [andb]; [|intros []]. destruct (Nat.leb_spec i (end_of X k)) as [H2|H2]; [|intros []]. split; [lia|auto]. Qed.
    Lemma at_G i o : 1 <= i <= x_out X -> Permutation (at_o o (G i)) (at_o o (OW i) ++ at_o o (ckids i)).
    Proof. intros Hi. destruct (HG i Hi) as [_ Hp]. rewrite <- at_app. apply at_perm. exact Hp. Qed.
    Lemma at_kids_none i x o : slot i x = Some o -> (forall k, nth_error (x_kinds X) x = Some (OSub k) -> end_of X k <> i) -> at_o o (ckids i) = [].
    Proof.
      intros Hs Hn. apply at_flat_none. intros k g Hk Hg Ho. apply in_seq in Hk. apply in_kid in Hg. destruct Hg as [Hi Hg]. destruct (nth_error_Some_ex (x_calls X) k ltac:(lia)) as [l El]. destruct (call_at k l El) as [Y [HY _]].
      destruct (child_out i k l Y g El HY Hi Hg) as [[H1 [Ls [of [s [A1 [A2 A3]]]]]]|[H1 [x' [A1 A2]]]].
      - apply (own_mid i x o k Ls of s); auto; [lia|lia|congruence].
      - rewrite Ho in A1. pose proof (slot_inj _ _ _ _ Hs A1) as <-. apply (Hn k A2). auto.
    Qed.
    Lemma at_kids_one i k o : k < length (x_calls X) -> start_of X k < i <= end_of X k ->
      (forall k' g, k' < length (x_calls X) -> start_of X k' < i <= end_of X k' -> k' <> k -> In g (cgates i k') -> g_out g <> o) -> at_o o (ckids i) = at_o o (cgates i k).
    Proof.
      intros Hk Hi H. unfold ckids. rewrite (at_flat_one o _ _ k); [|apply in_seq; lia|apply seq_NoDup|].
      - rewrite (proj2 (Nat.ltb_lt _ _)), (proj2 (Nat.leb_le _ _)) by lia. auto.
      - intros k' g Hk' Hne Hg. apply in_seq in Hk'. apply in_kid in Hg. destruct Hg as [A1 A2]. apply (H k'); auto. lia.
    Qed.
    Lemma at_own i x o : 1 <= i <= x_out X -> 1 <= x < x_nv X -> slot i x = Some o -> (forall k, nth_error (x_kinds X) x = Some (OSub k) -> end_of X k <> i) ->
      exists a b, first_gates X lqs i x = Some a /\ relay_gates cross X lqs i x = Some b /\ Permutation (at_o o (G i)) (a ++ b).
    Proof.
      intros Hi Hx Hs Hn. destruct (own_split i Hi) as [gs [c [E1 [E2 [E3 E4]]]]]. destruct (nth_error_Some_ex gs x ltac:(lia)) as [gx Hgx]. destruct (E4 _ _ Hgx) as [a [b [Ha [Hb Hab]]]]. exists a, b. split; auto. split; auto.
      rewrite (at_G i o Hi), (at_kids_none i x o Hs Hn), app_nil_r, E1, at_app. rewrite (at_concat o gs x gx Hgx).
      - rewrite (at_none o c), app_nil_r; [rewrite at_all; [subst; auto|]|].
        + intros g Hg. subst gx. destruct (var_gates _ _ _ _ _ Ha Hb (proj2 Hx) Hg) as [V1 _]. rewrite Hs in V1. apply Some_inj in V1. auto.
        + intros g Hg Ho. destruct (cc_spec _ _ _ E2 Hg) as [cc [C1 [C2 _]]]. rewrite Ho in C2. pose proof (slot_inj _ _ _ _ Hs C2) as ->. destruct (ok_cc _ _ _ _ _ K _ _ C1) as [_ [H _]]. lia.
      - intros y gy g Hy Hne Hg Ho. destruct (E4 _ _ Hy) as [a' [b' [Ha' [Hb' ->]]]]. assert (Hyl : y < x_nv X) by (rewrite <- E3; eapply nth_error_Some_lt; eauto). destruct (var_gates _ _ _ _ _ Ha' Hb' Hyl Hg) as [V1 _]. rewrite Ho in V1. apply Hne. symmetry. eapply slot_inj; eauto.
    Qed.
    Lemma sub_end_none i x k a b : nth_error (x_kinds X) x = Some (OSub k) -> end_of X k = i -> 1 <= x < x_nv X -> first_gates X lqs i x = Some a -> relay_gates cross X lqs i x = Some b -> a ++ b = [].
    Proof.
      intros Hk He Hx Ha Hb. pose proof (ok_osub _ _ _ _ _ K _ _ Hk) as Hm. pose proof (relay_spec _ _ _ Hb Hx) as Hr. rewrite (proj2 (Nat.ltb_ge (getn (x_min X) x) i)) in Hr by lia. cbn [andb] in Hr. subst b. rewrite app_nil_r.
      unfold first_gates in Ha. destruct (getn (x_min X) x =? i); [|apply Some_inj in Ha; auto]. destruct (nth_error lqs (i - 1)); [|discriminate]. cbn [obind] in Ha. destruct (nth_error lqs i) as [bq|]; [|discriminate]. cbn [obind] in Ha.
      destruct (lookup x bq); [rewrite Hk in Ha; apply Some_inj in Ha; auto|]. destruct (i =? x_out X); [apply Some_inj in Ha; auto|discriminate].
    Qed.
    Lemma at_sub i x o k : slot i x = Some o -> nth_error (x_kinds X) x = Some (OSub k) -> end_of X k = i -> Permutation (at_o o (G i)) (at_o o (cgates i k)).
    Proof.
      intros Hs Hkd He. destruct (sub_call _ _ _ _ _ _ _ K Hkd) as [l [t [El Et]]]. destruct (call_at k l El) as [Y [HY [_ [He' [Hlc [Heo Ho]]]]]]. destruct (call_outs _ _ _ _ _ _ _ _ _ K El Et) as [_ Hx].
      assert (Hi : 1 <= i <= x_out X) by lia. destruct (own_split i Hi) as [gs [c [E1 [E2 [E3 E4]]]]].
      rewrite (at_G i o Hi), (at_kids_one i k o); [|eapply nth_error_Some_lt; eauto|lia|].
      - rewrite at_none; [auto|]. intros g Hg Hgo. rewrite E1 in Hg. apply in_app_iff in Hg. destruct Hg as [Hg|Hg].
        + apply in_concat in Hg. destruct Hg as [gx [H1 H2]]. apply In_nth_error in H1. destruct H1 as [x' H1]. destruct (E4 _ _ H1) as [a [b [Ha [Hb ->]]]]. assert (Hx' : x' < x_nv X) by (rewrite <- E3; eapply nth_error_Some_lt; eauto).
          destruct (var_gates _ _ _ _ _ Ha Hb Hx' H2) as [V1 _]. rewrite Hgo in V1. pose proof (slot_inj _ _ _ _ Hs V1) as <-. rewrite (sub_end_none _ _ _ _ _ Hkd He Hx Ha Hb) in H2. destruct H2.
        + destruct (cc_spec _ _ _ E2 Hg) as [cc [C1 [C2 _]]]. rewrite Hgo in C2. pose proof (slot_inj _ _ _ _ Hs C2) as ->. destruct (ok_cc _ _ _ _ _ K _ _ C1) as [_ [H _]]. lia.
      - intros k' g Hk' Hi' Hne Hg Hgo. destruct (nth_error_Some_ex (x_calls X) k' Hk') as [l' El']. destruct (call_at k' l' El') as [Y' [HY' _]]. destruct (child_out i k' l' Y' g El' HY' Hi' Hg) as [[H1 [Ls [of [s [A1 [A2 A3]]]]]]|[H1 [x' [A1 A2]]]].
        + apply (own_mid i x o k' Ls of s); auto; [lia|congruence].
        + rewrite Hgo in A1. pose proof (slot_inj _ _ _ _ Hs A1) as <-. congruence.
    Qed.
    Lemma at_cc i c o : 1 <= i <= x_out X -> nth_error (x_cc X) i = Some (Some c) -> slot i (cc_id c) = Some o -> exists g, cc_gates ctxs X layouts lqs i = Some g /\ Permutation (at_o o (G i)) g.
    Proof.
      intros Hi Hc Hs. destruct (own_split i Hi) as [gs [g [E1 [E2 [E3 E4]]]]]. exists g. split; auto. destruct (ok_cc _ _ _ _ _ K _ _ Hc) as [_ [Hge _]].
      rewrite (at_G i o Hi), (at_kids_none i _ o Hs), app_nil_r, E1, at_app, (at_none o (concat gs)); [cbn [app]; rewrite at_all; [auto|]| |].
      - intros h Hh. destruct (cc_spec _ _ _ E2 Hh) as [cc [C1 [C2 _]]]. rewrite Hc in C1. apply Some_inj in C1. apply Some_inj in C1. subst cc. congruence.
      - intros h Hg Ho. apply in_concat in Hg. destruct Hg as [gx [H1 H2]]. apply In_nth_error in H1. destruct H1 as [x' H1]. destruct (E4 _ _ H1) as [a [b [Ha [Hb ->]]]]. assert (Hx' : x' < x_nv X) by (rewrite <- E3; eapply nth_error_Some_lt; eauto).
        destruct (var_gates _ _ _ _ _ Ha Hb Hx' H2) as [V1 _]. rewrite Ho in V1. pose proof (slot_inj _ _ _ _ Hs V1). lia.
      - intros k Hk. apply nth_error_Some_lt in Hk. fold (x_nv X) in Hk. lia.
    Qed.
    Lemma at_mid i k Ls of s : k < length (x_calls X) -> start_of X k < i < end_of X k -> nth_error (ch k) (i - start_of X k) = Some (Ls, of) -> cell Ls s -> Permutation (at_o (of + s) (G i)) (at_o (of + s) (cgates i k)).
    Proof.
      intros Hk Hi Hc Hcl. destruct (nth_error_Some_ex (x_calls X) k Hk) as [l El]. destruct (call_at k l El) as [Y [HY [_ [He' [Hlc [Heo Ho]]]]]]. assert (Hi' : 1 <= i <= x_out X) by lia. destruct (own_split i Hi') as [gs [c [E1 [E2 [E3 E4]]]]].
      destruct (child_lq _ _ _ _ _ _ El HY Hc) as [Hlok _]. pose proof (cell_lt _ _ _ Hcl Hlok) as Hsz.
      rewrite (at_G i _ Hi'), (at_kids_one i k (of + s)); [|auto|lia|].
      - rewrite at_none; [auto|]. intros g Hg Hgo. destruct (own_out i gs c g Hi' E1 E2 E3 E4 Hg) as [x Hx]. apply (own_mid i x (g_out g) k Ls of s); auto.
      - intros k' g Hk' Hi2 Hne Hg Hgo. destruct (nth_error_Some_ex (x_calls X) k' Hk') as [l' El']. destruct (call_at k' l' El') as [Y' [HY' _]]. destruct (child_out i k' l' Y' g El' HY' Hi2 Hg) as [[H1 [Ls' [of' [s' [A1 [A2 A3]]]]]]|[H1 [x' [A1 A2]]]].
        + destruct (child_lq _ _ _ _ _ _ El' HY' A1) as [Hlok' _]. pose proof (cell_lt _ _ _ A2 Hlok') as Hsz'.
          destruct (mid_mid i k k' Ls of s Ls' of' s') as [H _]; auto; [lia|congruence].
        + apply (own_mid i x' (g_out g) k Ls of s); auto.
    Qed.
    (* ---------------------------------------------------------- values *)
    Section Values.
      Variable E : Env F.
      Variable V : nat -> nat -> F.
      Definition U (i x : nat) : F := match slot i x with Some p => V i p | None => f0 end.
      Definition wU (i : nat) : F := match nth_error (x_cc X) i with Some (Some c) => U i (cc_id c) | _ => f0 end.
      Definition cwU (k j : nat) : F :=
        match nth_error (x_calls X) k with
        | Some l => match lookup (cl_sub l) ctxs with
          | Some Y => match nth_error (x_cc Y) j with
            | Some (Some c) => match slotq Y (map fst (ch k)) j (cc_id c) with Some s => V (start_of X k + j) (off (ch k) j + s) | None => f0 end
            | _ => f0 end
          | None => f0 end
        | None => f0 end.
      Definition Vk (k j s : nat) : F := V (start_of X k + j) (off (ch k) j + s).
      Lemma term_gate_sem i aq o (t : Term F) (g : UG) v : 1 <= i -> nth_error lqs (i - 1) = Some aq -> term_gate aq o t = Some g -> (gval E (rd V i) g v <-> term_sem F E (U (i - 1)) t v).
      Proof.
        intros Hi Ha H. assert (HU : forall x p, lookup x aq = Some p -> U (i - 1) x = V (i - 1) p) by (intros x p Hp; unfold U, slot; rewrite Ha, Hp; auto).
        assert (Hrd : forall p, rd V i (mkInp 0 p) = V (i - 1) p) by (intros p; unfold rd; cbn [il io]; f_equal; lia).
        unfold term_gate in H. unfold gval, term_sem. destruct (vars t) as [|x|x y|ty l|x].
        - apply Some_inj in H. subst g. cbn [mkg g_coef g_in kindw coef_sem vs_val]. split; [intros [c [-> ->]]; auto|]. intros ->. eauto.
        - destruct (lookup x aq) as [p|] eqn:Ep; [|discriminate]. cbn [obind] in H. apply Some_inj in H. subst g. cbn [mkg g_coef g_in kindw coef_sem vs_val]. rewrite Hrd, (HU _ _ Ep). split; [intros [c [-> ->]]; auto|]. intros ->. eauto.
        - destruct (lookup x aq) as [p|] eqn:Ep; [|discriminate]. cbn [obind] in H. destruct (lookup y aq) as [q|] eqn:Eq; [|discriminate]. cbn [obind] in H. apply Some_inj in H. subst g. cbn [vs_val]. rewrite (HU _ _ Ep), (HU _ _ Eq).
          destruct (p <? q); cbn [mkg g_coef g_in kindw coef_sem]; rewrite !Hrd; (split; [intros [c [-> ->]]; ring|]); intros ->; exists (coef t); split; auto; ring.
        - destruct (omap _ l) as [ps|] eqn:Ep; [|discriminate]. cbn [obind] in H. apply Some_inj in H. subst g. cbn [mkg g_coef g_in kindw coef_sem vs_val].
          assert (Hm : map (rd V i) ps = map (U (i - 1)) l).
          { clear -Ep HU Hrd. revert ps Ep. induction l as [|x l IH]; intros ps Ep; cbn [omap] in Ep; [apply Some_inj in Ep; subst; auto|]. destruct (lookup x aq) as [p|] eqn:E1; [|discriminate]. cbn [obind] in Ep. destruct (omap _ l) as [r|]; [|discriminate]. cbn [obind] in Ep. apply Some_inj in Ep. subst ps.
            cbn [map]. rewrite Hrd, (HU _ _ E1), (IH r); auto. }
          rewrite Hm. split; [intros [c [-> ->]]; auto|]. intros ->. eauto.
        - destruct (lookup x aq) as [p|] eqn:Ep; [|discriminate]. cbn [obind] in H. apply Some_inj in H. subst g. cbn [mkg g_coef g_in kindw coef_sem vs_val]. rewrite Hrd, (HU _ _ Ep). split; intros [c [H1 H2]]; exists c; auto.
      Qed.
      (* the gates of a variable say what it means *)
      Lemma var_gsum i x o a b : 1 <= i <= x_out X -> 1 <= x < x_nv X -> slot i x = Some o -> (forall k, nth_error (x_kinds X) x = Some (OSub k) -> end_of X k <> i) ->
        first_gates X lqs i x = Some a -> relay_gates cross X lqs i x = Some b -> (gsum E (rd V i) (a ++ b) (V i o) <-> var_sem cross E X U i x).
      Proof.
        intros Hi Hx Hs Hn Ha Hb. assert (HU : U i x = V i o) by (unfold U; rewrite Hs; auto). rewrite <- HU. unfold var_sem.
        assert (Hin : in_layer cross X x i = true) by (destruct (slot_var _ _ _ Hs) as [[_ H]|[c [H1 H2]]]; [auto|]; destruct (ok_cc _ _ _ _ _ K _ _ H1) as [_ [H _]]; lia).
        pose proof (relay_spec _ _ _ Hb Hx) as Hr. rewrite Hin, andb_true_r in Hr. unfold first_gates in Ha. destruct (Nat.eqb_spec (getn (x_min X) x) i) as [Hm|Hm].
        - rewrite (proj2 (Nat.ltb_ge (getn (x_min X) x) i)) in Hr by lia. subst b. rewrite app_nil_r. destruct (nth_error lqs (i - 1)) as [aq|] eqn:Ea; [|discriminate]. cbn [obind] in Ha. destruct (nth_error lqs i) as [bq|] eqn:Eb; [|discriminate]. cbn [obind] in Ha.
          assert (Hs' := Hs). unfold slot in Hs'. rewrite Eb in Hs'. rewrite Hs' in Ha. destruct (kind_var _ _ _ _ _ _ K Hx) as [kd [Hkd Hin0]]. rewrite Hkd in Ha |- *. destruct kd as [|e|c|k].
          + specialize (Hin0 eq_refl). rewrite (ok_in _ _ _ _ _ K) in Hm by lia. lia.
          + unfold gsum, expr_sem. split; intros [vs [H1 H2]]; exists vs; (split; [|auto]); revert H1; apply (F2_omap_in _ _ _ _ _ Ha); intros t g v _ Ht; pose proof (term_gate_sem i aq o t g v ltac:(lia) Ea Ht); tauto.
          + apply Some_inj in Ha. subst a. unfold gsum. split.
            * intros [vs [H1 H2]]. inversion H1 as [|? v ? vs' [c' [G1 G2]] Hr']; subst. inversion Hr'; subst. cbn [mkg g_coef g_in kindw] in *. rewrite H2. unfold fsum. cbn [fold_right]. replace (fadd (fmul f1 c') f0) with c' by ring. auto.
            * intros Hc. exists [U i x]. split; [constructor; [|constructor]; exists (U i x); split; [auto|]; cbn [mkg g_in kindw]; ring|]. unfold fsum. cbn [fold_right]. ring.
          + exfalso. apply (Hn k Hkd). rewrite <- (ok_osub _ _ _ _ _ K _ _ Hkd). auto.
        - apply Some_inj in Ha. subst a. cbn [app]. pose proof (layer_ge _ _ _ _ _ _ _ K Hx Hin). rewrite (proj2 (Nat.ltb_lt (getn (x_min X) x) i)) in Hr by lia. destruct Hr as [Hr _].
          destruct (layer_prev _ _ _ _ _ _ _ K Hx Hin Hm) as [Hlp _]. unfold relay_gate in Hr. destruct (nth_error lqs (prevl cross X x i)) as [aq|] eqn:Ea; [|discriminate]. cbn [obind] in Hr. destruct (nth_error lqs i) as [bq|] eqn:Eb; [|discriminate]. cbn [obind] in Hr.
          assert (Hs' := Hs). unfold slot in Hs'. rewrite Eb in Hs'. rewrite Hs' in Hr. destruct (lookup x aq) as [p|] eqn:Ep; [|discriminate]. cbn [obind] in Hr. apply Some_inj in Hr. subst b.
          assert (HP : U (prevl cross X x i) x = V (prevl cross X x i) p) by (unfold U, slot; rewrite Ea, Ep; auto). rewrite HP.
          assert (Hrd : rd V i (mkInp (i - prevl cross X x i - 1) p) = V (prevl cross X x i) p) by (unfold rd; cbn [il io]; f_equal; lia).
          unfold gsum. split.
          + intros [vs [H1 H2]]. inversion H1 as [|? v ? vs' [c' [G1 G2]] Hr']; subst. inversion Hr'; subst. cbn [mkg g_coef g_in kindw coef_sem] in *. subst c'. rewrite H2, Hrd. unfold fsum. cbn [fold_right]. ring.
          + intros Hc. rewrite Hc. exists [V (prevl cross X x i) p]. split; [constructor; [|constructor]; exists f1; split; [reflexivity|]; cbn [mkg g_in kindw]; rewrite Hrd; ring|]. unfold fsum. cbn [fold_right]. ring.
      Qed.
      Lemma cc_gsum i c g v : 1 <= i <= x_out X -> nth_error (x_cc X) i = Some (Some c) -> cc_gates ctxs X layouts lqs i = Some g ->
        (gsum E (rd V i) g v <-> exists vs, Forall2 (con_val E X U wU i) (cc_vars c) vs /\ v = fadd (fsum F vs) (fsum F (map (fun k => cwU k (i - 1 - start_of X k)) (cc_subs c)))).
      Proof.
        intros Hi Hc H. destruct (ok_cc _ _ _ _ _ K _ _ Hc) as [_ [_ [_ [Hks _]]]]. unfold cc_gates in H. rewrite Hc in H. destruct (nth_error lqs (i - 1)) as [aq|] eqn:Ea; [|discriminate]. cbn [obind] in H. destruct (nth_error lqs i) as [bq|] eqn:Eb; [|discriminate]. cbn [obind] in H. destruct (lookup (cc_id c) bq) as [o|] eqn:Eo; [|discriminate]. cbn [obind] in H.
        destruct (omap _ (cc_vars c)) as [g1|] eqn:E1; [|discriminate]. cbn [obind] in H. destruct (omap _ (cc_subs c)) as [g2|] eqn:E2; [|discriminate]. cbn [obind] in H. apply Some_inj in H. subst g. rewrite gsum_app.
        assert (Hrd : forall p, rd V i (mkInp 0 p) = V (i - 1) p) by (intros p; unfold rd; cbn [il io]; f_equal; lia).
        assert (H1 : forall vs, Forall2 (gval E (rd V i)) g1 vs <-> Forall2 (con_val E X U wU i) (cc_vars c) vs).
        { intros vs. apply (F2_omap_in _ _ _ _ _ E1). intros x g a Hx Hg. destruct (lookup x aq) as [p|] eqn:Ep; [|discriminate]. cbn [obind] in Hg. apply Some_inj in Hg. subst g. unfold gval, con_val. cbn [mkg g_coef g_in kindw]. rewrite Hrd.
          assert (HU : U (i - 1) x = V (i - 1) p) by (unfold U, slot; rewrite Ea, Ep; auto). destruct (Nat.leb_spec (x_nv X) x) as [Hge|Hlt].
          - destruct (ok_cc_chain _ _ _ _ _ K _ _ _ Hc Hx Hge) as [c' [Hc' Hid]]. unfold wU. rewrite Hc', Hid, HU. cbn [coef_sem]. split; [intros [b [-> ->]]; ring|]. intros ->. exists f1. split; auto. ring.
          - rewrite HU. reflexivity. }
        assert (H2 : forall vs, Forall2 (gval E (rd V i)) g2 vs <-> vs = map (fun k => cwU k (i - 1 - start_of X k)) (cc_subs c)).
        { intros vs. rewrite (F2_omap_in _ _ _ _ (fun k a => a = cwU k (i - 1 - start_of X k)) E2); [apply F2_map|]. intros k g a Hk Hg. destruct (Hks k Hk) as [Hkl Hst].
          destruct (nth_error (x_calls X) k) as [l|] eqn:El; [|discriminate]. cbn [obind] in Hg. destruct (lookup (cl_sub l) ctxs) as [Y|] eqn:EY; [|discriminate]. cbn [obind] in Hg.
          destruct (nth_error (x_cc Y) _) as [[cs0|]|] eqn:Ecs in Hg; try discriminate. cbn [obind] in Hg. destruct (nth_error (x_lcs Y) _) as [Cs|] eqn:ECs in Hg; [|discriminate]. cbn [obind] in Hg. destruct (index_of _ _) as [v0|] eqn:Ev in Hg; [|discriminate]. cbn [obind] in Hg.
          destruct (sub_layout _ _ _ _ _ _) as [[Ls of]|] eqn:Es in Hg; [|discriminate]. cbn [obind fst snd] in Hg. destruct (find _ _) as [[s v']|] eqn:Ef in Hg; [|discriminate]. cbn [obind fst snd] in Hg. apply Some_inj in Hg. subst g.
          assert (Hj : i - 1 - start_of X k <= x_out Y) by (eapply cc_le; [apply (Hok _ _ EY)|]; apply cc_at_iff; eauto).
          replace (i - 1) with (start_of X k + (i - 1 - start_of X k)) in Es by lia. pose proof (sub_layout_ch _ _ _ _ _ El EY Hj Es) as Hch. apply find_some in Ef. cbn [snd] in Ef. destruct Ef as [Ef Eq]. apply Nat.eqb_eq in Eq. subst v'. apply index_of_some in Ev.
          destruct (child_lq _ _ _ _ _ _ El EY Hch) as [_ [C [lq [HC [Hcq _]]]]]. rewrite ECs in HC. apply Some_inj in HC. subst C.
          assert (Hsl : slotq Y (map fst (ch k)) (i - 1 - start_of X k) (cc_id cs0) = Some s).
          { unfold slotq. rewrite nth_error_map, Hch. cbn [option_map fst obind]. rewrite ECs. cbn [obind]. rewrite Hcq. cbn [obind]. apply (query_lookup _ _ _ _ _ Hcq). eauto. }
          unfold cwU. rewrite El, EY, Ecs, Hsl, (off_at _ _ _ _ Hch). unfold gval. cbn [mkg g_coef g_in kindw coef_sem]. rewrite Hrd. replace (start_of X k + (i - 1 - start_of X k)) with (i - 1) by lia.
          split; [intros [b [-> ->]]; ring|]. intros ->. exists f1. split; auto. ring. }
        split.
        - intros [x [y [[vs [A1 ->]] [[vs2 [A2 ->]] ->]]]]. apply H1 in A1. apply H2 in A2. subst vs2. eauto.
        - intros [vs [A1 ->]]. exists (fsum F vs), (fsum F (map (fun k => cwU k (i - 1 - start_of X k)) (cc_subs c))). split; [exists vs; split; auto; apply H1; auto|]. split; auto. eexists. split; [apply H2; reflexivity|auto].
      Qed.
      Lemma child_gsum k l Y j s v : nth_error (x_calls X) k = Some l -> lookup (cl_sub l) ctxs = Some Y -> 1 <= j <= x_out Y ->
        (gsum E (rd V (start_of X k + j)) (at_o (off (ch k) j + s) (cgates (start_of X k + j) k)) v <-> gsum E (rd (Vk k) j) (at_o s (GK k j)) v).
      Proof.
        intros Hk HY Hj. destruct (call_at k l Hk) as [Y' [HY' [Hsub _]]]. rewrite HY in HY'. apply Some_inj in HY'. subst Y'. unfold cgates. rewrite Hsub. replace (start_of X k + j - start_of X k) with j by lia.
        change (off (ch k) j + s) with (a_out (alloc_of Y (ch k) j) + s). rewrite at_shift, gsum_shift.
        assert (He : forall g w, In g (at_o s (GK k j)) -> In w (k_ins (g_in g)) -> rd V (start_of X k + j) (shift (a_in (alloc_of Y (ch k) j)) w) = rd (Vk k) j w).
        { intros g w Hg Hw. apply filter_In in Hg. destruct Hg as [Hg _]. destruct (Hgk k l Y Hk HY j g Hj Hg) as [_ Hr]. destruct (Hr w Hw) as [Hu _]. unfold rd, Vk. cbn [shift il io]. rewrite alloc_nth by auto. f_equal. lia. }
        split; apply gsum_ext; intros g w Hg Hw; [|symmetry]; eapply He; eauto.
      Qed.
      Lemma sat_child k l Y : Sat E layouts G V -> nth_error (x_calls X) k = Some l -> lookup (cl_sub l) ctxs = Some Y -> Sat E (map fst (ch k)) (GK k) (Vk k).
      Proof.
        intros HS Hk HY j Ls s Hj HL Hc. destruct (call_at k l Hk) as [Y' [HY' [Hsub [He [Hlc [Heo Ho]]]]]]. rewrite HY in HY'. apply Some_inj in HY'. subst Y'. rewrite nth_error_map in HL. destruct (nth_error (ch k) j) as [[Ls' of]|] eqn:Ec; [|discriminate]. cbn [option_map fst] in HL. apply Some_inj in HL. subst Ls'.
        assert (Hlt := nth_error_Some_lt _ _ _ Ec). assert (Hj' : 1 <= j <= x_out Y) by lia. apply (child_gsum k l Y j s _ Hk HY Hj'). set (i := start_of X k + j) in *. destruct (lq_at i ltac:(lia)) as [L [lq [C [A1 _]]]].
        assert (Hcl : cell L (of + s)) by (eapply child_cell; eauto). pose proof (off_at _ _ _ _ Ec) as Hof. unfold Vk. fold i. rewrite Hof. specialize (HS i L (of + s) ltac:(lia) A1 Hcl). revert HS. apply gsum_perm.
        assert (Hkl : k < length (x_calls X)) by (eapply nth_error_Some_lt; eauto). destruct (Nat.eq_dec j (x_out Y)) as [Hjo|Hjo].
        - subst j. destruct (cell_cslot _ _ _ _ _ _ _ Hk HY Ec (or_intror eq_refl) Hc) as [f Hf]. destruct (cslot_out _ _ _ _ Hk HY f Hf) as [t [x [_ [Hx Hs]]]]. rewrite Hof in Hs. apply (at_sub i x); [unfold i; rewrite <- He; auto|apply (call_outs _ _ _ _ _ _ _ _ _ K Hk Hx)|unfold i; auto].
        - eapply at_mid; eauto; [unfold i; lia|]. unfold i. replace (start_of X k + j - start_of X k) with j by lia. eauto.
      Qed.
      Lemma sat_build : (forall i x o, 1 <= i <= x_out X -> 1 <= x < x_nv X -> slot i x = Some o -> (forall k, nth_error (x_kinds X) x = Some (OSub k) -> end_of X k <> i) -> var_sem cross E X U i x) ->
        (forall i c o, 1 <= i <= x_out X -> nth_error (x_cc X) i = Some (Some c) -> slot i (cc_id c) = Some o ->
           exists vs, Forall2 (con_val E X U wU i) (cc_vars c) vs /\ V i o = fadd (fsum F vs) (fsum F (map (fun k => cwU k (i - 1 - start_of X k)) (cc_subs c)))) ->
        (forall k l, nth_error (x_calls X) k = Some l -> Sat E (map fst (ch k)) (GK k) (Vk k)) -> Sat E layouts G V.
      Proof.
        intros HA HB HC i L o Hi1 HL Hc. assert (Hi : 1 <= i <= x_out X) by (apply nth_error_Some_lt in HL; lia).
        assert (Hsub : forall k l Y j Ls of s, nth_error (x_calls X) k = Some l -> lookup (cl_sub l) ctxs = Some Y -> nth_error (ch k) j = Some (Ls, of) -> 1 <= j -> cell Ls s -> gsum E (rd V (start_of X k + j)) (at_o (of + s) (cgates (start_of X k + j) k)) (V (start_of X k + j) (of + s))).
        { intros k l Y j Ls of s Hk HY Ec Hj Hcl. destruct (call_at k l Hk) as [Y' [HY' [_ [He [Hlc [Heo Ho]]]]]]. rewrite HY in HY'. apply Some_inj in HY'. subst Y'. assert (Hlt := nth_error_Some_lt _ _ _ Ec). rewrite <- (off_at _ _ _ _ Ec). apply (child_gsum k l Y j s _ Hk HY ltac:(lia)).
          apply (HC k l Hk j Ls s Hj); auto. rewrite nth_error_map, Ec. auto. }
        destruct (level_cell i L o HL Hc) as [[x Hs]|[k [Ls [of [s [Hk [Hki [Ec [Hcl ->]]]]]]]]].
        - destruct (slot_var _ _ _ Hs) as [[Hx Hin]|[c [Hcc ->]]].
          + assert (Hdec : (exists k, nth_error (x_kinds X) x = Some (OSub k) /\ end_of X k = i) \/ forall k, nth_error (x_kinds X) x = Some (OSub k) -> end_of X k <> i).
            { destruct (nth_error (x_kinds X) x) as [[|e|c|k]|]; try (right; intros k' Hk'; discriminate). destruct (Nat.eq_dec (end_of X k) i) as [He|He]; [left; eauto|]. right. intros k' Hk'. apply Some_inj in Hk'. injection Hk' as <-. auto. }
            destruct Hdec as [[k [Hkd He]]|Hn].
            * eapply gsum_perm; [apply Permutation_sym; eapply at_sub; eauto|]. destruct (sub_call _ _ _ _ _ _ _ K Hkd) as [l [t [El Et]]]. destruct (call_at k l El) as [Y [HY [_ [He' [Hlc [Heo Ho]]]]]].
              destruct (nth_error_Some_ex (outputs (x_c Y)) t) as [f Hf]; [rewrite <- (call_outs_len k l Y El HY); eapply nth_error_Some_lt; eauto|]. rewrite <- He in Hs. destruct (slot_cslot_out k l Y t x f o El HY Et Hf Hs) as [s [Eo [l' [Y' [Ls [of [C [lq [H1 [H2 [H3 [H4 [H5 H6]]]]]]]]]]]]].
              rewrite (off_at _ _ _ _ H3) in Eo. subst o. rewrite <- He, He'. eapply Hsub; eauto. apply cell_cases. left. apply (query_in _ _ _ _ _ H5) in H6. destruct H6 as [v [H6 _]]. eauto.
            * destruct (at_own i x o Hi Hx Hs Hn) as [a [b [Ha [Hb Hp]]]]. eapply gsum_perm; [apply Permutation_sym; exact Hp|]. apply (var_gsum i x o a b); auto. eapply HA; eauto.
          + destruct (at_cc i c o Hi Hcc Hs) as [g [Hg Hp]]. eapply gsum_perm; [apply Permutation_sym; exact Hp|]. apply (cc_gsum i c g _ Hi Hcc Hg). auto.
        - eapply gsum_perm; [apply Permutation_sym; eapply at_mid; eauto|]. destruct (nth_error_Some_ex (x_calls X) k Hk) as [l El]. destruct (call_at k l El) as [Y [HY _]]. specialize (Hsub k l Y (i - start_of X k) Ls of s El HY Ec ltac:(lia) Hcl). replace (start_of X k + (i - start_of X k)) with i in Hsub by lia. exact Hsub.
      Qed.
    End Values.
    (* ---------------------------------------------------------- one level of the two directions *)
    Lemma slotq_eq i x : slotq X layouts i x = slot i x.
    Proof.
      unfold slotq. destruct (Nat.le_gt_cases i (x_out X)) as [Hi|Hi].
      - destruct (lq_at i Hi) as [L [lq [C [A1 [A2 [A3 [A4 _]]]]]]]. unfold slot. rewrite A1. cbn [obind]. rewrite A3. cbn [obind]. rewrite A4, A2. auto.
      - rewrite (proj2 (nth_error_None layouts i)) by lia. cbn [obind]. destruct (slot i x) as [o|] eqn:Es; auto. apply slot_le in Es. lia.
    Qed.
    Lemma cslot_q k l Y j f s : nth_error (x_calls X) k = Some l -> lookup (cl_sub l) ctxs = Some Y -> (cslot k j f s <-> slotq Y (map fst (ch k)) j f = Some s).
    Proof.
      intros Hk HY. unfold slotq. rewrite nth_error_map. split.
      - intros [l' [Y' [Ls [of [C [lq [H1 [H2 [H3 [H4 [H5 H6]]]]]]]]]]]. rewrite Hk in H1. apply Some_inj in H1. subst l'. rewrite HY in H2. apply Some_inj in H2. subst Y'. rewrite H3. cbn [option_map fst obind]. rewrite H4. cbn [obind]. rewrite H5. cbn [obind]. apply In_lookup; auto. eapply query_nodup; eauto.
      - destruct (nth_error (ch k) j) as [[Ls of]|] eqn:Ec; [|discriminate]. cbn [option_map fst obind]. destruct (nth_error (x_lcs Y) j) as [C|] eqn:EC; [|discriminate]. cbn [obind]. destruct (layout_query Ls (lc_vars C)) as [lq|] eqn:Eq; [|discriminate]. cbn [obind]. intros H. apply lookup_In in H.
        exists l, Y, Ls, of, C, lq. auto 10.
    Qed.
    Lemma cslot_placed k l Y j x : nth_error (x_calls X) k = Some l -> lookup (cl_sub l) ctxs = Some Y -> j < x_out Y -> (1 <= x < x_nv Y /\ in_layer cross Y x j = true) \/ (exists c, nth_error (x_cc Y) j = Some (Some c) /\ x = cc_id c) -> exists s, slotq Y (map fst (ch k)) j x = Some s.
    Proof.
      intros Hk HY Hj Hx. destruct (call_at k l Hk) as [Y' [HY' [_ [_ [Hlc _]]]]]. rewrite HY in HY'. apply Some_inj in HY'. subst Y'. destruct (nth_error_Some_ex (ch k) j) as [[Ls of] Hc]; [lia|]. destruct (child_lq _ _ _ _ _ _ Hk HY Hc) as [_ [C [lq [HC [Hcq Hp]]]]].
      destruct (Hp Hj x) as [s Hs]; [apply (in_vars _ _ _ _ _ (Hok _ _ HY) HC); auto|]. exists s. unfold slotq. rewrite nth_error_map, Hc. cbn [option_map fst obind]. rewrite HC. cbn [obind]. rewrite Hcq. cbn [obind]. auto.
    Qed.
    Lemma cslot_cell k l Y j f s : nth_error (x_calls X) k = Some l -> lookup (cl_sub l) ctxs = Some Y -> slotq Y (map fst (ch k)) j f = Some s -> exists Ls of, nth_error (ch k) j = Some (Ls, of) /\ cell Ls s.
    Proof.
      intros Hk HY Hs. apply (cslot_q k l Y j f s Hk HY) in Hs. destruct Hs as [l' [Y' [Ls [of [C [lq [H1 [H2 [H3 [H4 [H5 H6]]]]]]]]]]]. exists Ls, of. split; auto. apply cell_cases. left. apply (query_in _ _ _ _ _ H5) in H6. destruct H6 as [v [H6 _]]. eauto.
    Qed.
    (* the combined constraints of a child, as read by us *)
    Lemma cwU_eq (V : nat -> nat -> F) (VK : nat -> nat -> F) k l Y ins outs cw : nth_error (x_calls X) k = Some l -> lookup (cl_sub l) ctxs = Some Y -> agrees Y (map fst (ch k)) VK ins outs cw ->
      (forall j Ls of s, nth_error (ch k) j = Some (Ls, of) -> cell Ls s -> Vk V k j s = VK j s) -> forall j, cwU V k j = cw j.
    Proof.
      intros Hk HY [_ [_ [_ [_ [A5 A6]]]]] HV j. unfold cwU. rewrite Hk, HY. destruct (nth_error (x_cc Y) j) as [[c|]|] eqn:Ec; try (symmetry; apply A6; unfold cc_at; rewrite Ec; auto; fail).
      pose proof (proj1 (ok_sub _ _ _ _ _ K _ _ Hk)) as Hnz. assert (Hj : j < x_out Y) by (apply (ok_cc_inner _ _ _ _ _ (Hok _ _ HY) Hnz); apply cc_at_iff; eauto).
      destruct (cslot_placed k l Y j (cc_id c) Hk HY Hj) as [s Hs]; [right; eauto|]. rewrite Hs. destruct (cslot_cell _ _ _ _ _ _ Hk HY Hs) as [Ls [of [H1 H2]]]. fold (Vk V k j s). rewrite (HV _ _ _ _ H1 H2). symmetry. eapply A5; eauto.
    Qed.
    Lemma cc_placed i c : 1 <= i <= x_out X -> nth_error (x_cc X) i = Some (Some c) -> exists o, slot i (cc_id c) = Some o.
    Proof.
      intros Hi Hc. destruct (own_split i Hi) as [gs [g [E1 [E2 _]]]]. unfold cc_gates in E2. rewrite Hc in E2. destruct (nth_error lqs (i - 1)); [|discriminate]. cbn [obind] in E2. unfold slot. destruct (nth_error lqs i); [|discriminate]. cbn [obind] in E2. destruct (lookup (cc_id c) _) as [o|]; [|discriminate]. eauto.
    Qed.

    Section StepA.
      Variable E : Env F.
      Variable V : nat -> nat -> F.
      Hypothesis HS : Sat E layouts G V.
      Hypothesis Hr : exists r, e_rnd E r.
      Lemma coef_ex (c : Coef F) : exists v, coef_sem E c v.
      Proof. destruct c; cbn [coef_sem]; eauto. Qed.
      Lemma expr_ex g (e : Expression F) : exists v, expr_sem F E g e v.
      Proof.
        unfold expr_sem. destruct (F2_choice (term_sem F E g) e) as [vs Hvs]; [|eauto]. intros k t _. unfold term_sem. destruct (vars t); eauto. destruct Hr as [r H]. eauto.
      Qed.
      Lemma step_A : (forall k l Y, nth_error (x_calls X) k = Some l -> lookup (cl_sub l) ctxs = Some Y -> exists ins outs w, LS cross ctxs E n (cl_sub l) ins outs w /\ agrees Y (map fst (ch k)) (Vk V k) ins outs w) ->
        exists ins outs w, LS cross ctxs E (S n) id ins outs w /\ agrees X layouts V ins outs w.
      Proof.
        intros Hch. destruct (F2_choice_k (fun k l (r : list F * list F * (nat -> F)) => forall Y, lookup (cl_sub l) ctxs = Some Y -> LS cross ctxs E n (cl_sub l) (fst (fst r)) (snd (fst r)) (snd r) /\ agrees Y (map fst (ch k)) (Vk V k) (fst (fst r)) (snd (fst r)) (snd r)) (x_calls X)) as [rs [Rl Rs]].
        { intros k l Hk. destruct (call_at k l Hk) as [Y [HY _]]. destruct (Hch k l Y Hk HY) as [i0 [o0 [w0 [H1 H2]]]]. exists (i0, o0, w0). intros Y' HY'. rewrite HY in HY'. apply Some_inj in HY'. subst Y'. auto. }
        set (dr := (([] : list F, [] : list F), (fun _ : nat => f0 : F))). set (co := fun k => snd (fst (nth k rs dr))). set (cw := fun k => snd (nth k rs dr)).
        assert (Hrs : forall k l Y, nth_error (x_calls X) k = Some l -> lookup (cl_sub l) ctxs = Some Y -> exists ki, LS cross ctxs E n (cl_sub l) ki (co k) (cw k) /\ agrees Y (map fst (ch k)) (Vk V k) ki (co k) (cw k)).
        { intros k l Y Hk HY. destruct (nth_error_Some_ex rs k) as [r Hrk]; [rewrite Rl; eapply nth_error_Some_lt; eauto|]. exists (fst (fst r)). unfold co, cw. rewrite (nth_error_nth _ _ dr Hrk). apply (Rs k l r Hk Hrk Y HY). }
        clear Hch Rs. set (Uv := U V).
        (* values of what is not placed in the last layer *)
        destruct (F2_choice_k (fun _ x y => 1 <= x -> in_layer cross X x (x_out X) = true ->
            (forall k l t, nth_error (x_kinds X) x = Some (OSub k) -> end_of X k = x_out X -> nth_error (x_calls X) k = Some l -> nth_error (cl_outs l) t = Some x -> nth_error (co k) t = Some y) /\
            (if getn (x_min X) x =? x_out X then match nth_error (x_kinds X) x with Some (OCoef c) => coef_sem E c y | Some (OExpr e) => expr_sem F E (Uv (x_out X - 1)) e y | _ => True end else y = Uv (prevl cross X x (x_out X)) x)) (seq 0 (x_nv X))) as [ys [Yl Ys]].
        { intros k x Hx. assert (Hlt : x < x_nv X) by (apply nth_error_In, in_seq in Hx; lia). destruct (Nat.eqb_spec (getn (x_min X) x) (x_out X)) as [Hm|Hm].
          - destruct (nth_error (x_kinds X) x) as [[|e|c|k']|] eqn:Ek.
            + exists f0. intros _ _. split; [discriminate|auto].
            + destruct (expr_ex (Uv (x_out X - 1)) e) as [y Hy]. exists y. intros _ _. split; [discriminate|auto].
            + destruct (coef_ex c) as [y Hy]. exists y. intros _ _. split; [discriminate|auto].
            + destruct (sub_call _ _ _ _ _ _ _ K Ek) as [l [t [El Et]]]. destruct (call_at k' l El) as [Y [HY _]]. destruct (Hrs k' l Y El HY) as [ki [_ [_ [Hlo _]]]].
              destruct (nth_error_Some_ex (co k') t) as [y Hy]; [rewrite Hlo, <- (call_outs_len k' l Y El HY); eapply nth_error_Some_lt; eauto|]. exists y. intros _ _. split; auto. intros k0 l0 t0 H1 _ H2 H3. apply Some_inj in H1. injection H1 as <-. rewrite El in H2. apply Some_inj in H2. subst l0.
              assert (t = t0); [|subst; auto]. pose proof (call_outs_nodup _ _ _ _ _ _ _ K El) as Hnd. rewrite NoDup_nth_error in Hnd. apply Hnd; [eapply nth_error_Some_lt; eauto|congruence].
            + exists f0. intros _ _. split; [discriminate|auto].
          - exists (Uv (prevl cross X x (x_out X)) x). intros Hx1 Hin. split; auto. intros k' l t H1 H2 H3 H4. exfalso. apply Hm. rewrite (ok_osub _ _ _ _ _ K _ _ H1). auto. }
        set (W := fun i x => match slot i x with Some p => V i p | None => if i =? x_out X then nth x ys f0 else f0 end).
        assert (HW1 : forall i x, i <> x_out X -> W i x = Uv i x) by (intros i x Hi; unfold W, Uv, U; destruct (slot i x); auto; rewrite (proj2 (Nat.eqb_neq _ _) Hi); auto).
        assert (HW2 : forall i x p, slot i x = Some p -> W i x = V i p) by (intros i x p Hp; unfold W; rewrite Hp; auto).
        assert (HW3 : forall x, 1 <= x < x_nv X -> in_layer cross X x (x_out X) = true -> slot (x_out X) x = None ->
            (forall k l t, nth_error (x_kinds X) x = Some (OSub k) -> end_of X k = x_out X -> nth_error (x_calls X) k = Some l -> nth_error (cl_outs l) t = Some x -> nth_error (co k) t = Some (W (x_out X) x)) /\
            (if getn (x_min X) x =? x_out X then match nth_error (x_kinds X) x with Some (OCoef c) => coef_sem E c (W (x_out X) x) | Some (OExpr e) => expr_sem F E (Uv (x_out X - 1)) e (W (x_out X) x) | _ => True end else W (x_out X) x = Uv (prevl cross X x (x_out X)) x)).
        { intros x Hx Hin Hs. destruct (nth_error_Some_ex ys x) as [y Hy]; [rewrite Yl, seq_length; lia|]. assert (HWy : W (x_out X) x = y) by (unfold W; rewrite Hs, Nat.eqb_refl; apply nth_error_nth; auto). rewrite HWy. apply (Ys x x y); auto; [rewrite nth_error_seq by lia; auto|lia]. }
        pose proof (ok_out _ _ _ _ _ K) as Ho1.
        assert (Hin0 : forall t, t < num_inputs (x_c X) -> 1 <= S t < x_nv X /\ getn (x_min X) (S t) = 0) by (intros t Ht; rewrite (nv_eq _ _ _ _ _ K); split; [lia|apply (ok_in _ _ _ _ _ K); lia]).
        exists (map (W 0) (seq 1 (num_inputs (x_c X)))), (map (W (x_out X)) (outputs (x_c X))), (wU V). split.
        - cbn [LS]. exists X, W, co, cw. split; auto. split; [rewrite map_length, seq_length; auto|]. split; [|split; [auto|split; [|split; [|split]]]].
          + intros t v Ht. assert (Hlt := nth_error_Some_lt _ _ _ Ht). rewrite map_length, seq_length in Hlt. rewrite nth_error_map, nth_error_seq in Ht by auto. cbn [option_map] in Ht. apply Some_inj in Ht. auto.
          + intros k l Hk. destruct (call_at k l Hk) as [Y [HY [_ [He [Hlc [Heo HoY]]]]]]. destruct (Hrs k l Y Hk HY) as [ki [HLS [G1 [G2 [G3 [G4 [G5 G6]]]]]]]. destruct (child_len _ _ _ Hwf Hok _ _ _ _ K Hk) as [Y' [HY' Hcl]]. rewrite HY in HY'. apply Some_inj in HY'. subst Y'. split.
            * assert (Hki : ki = map (W (start_of X k)) (cl_ins l)).
              { apply list_eq_nth_error. intros t. destruct (Nat.lt_ge_cases t (num_inputs (x_c Y))) as [Ht|Ht].
                - destruct (cslot_placed k l Y 0 (S t) Hk HY HoY) as [s Hs].
                  { left. pose proof (Hok _ _ HY) as KY. assert (Hx : 1 <= S t < x_nv Y) by (rewrite (nv_eq _ _ _ _ _ KY); lia). split; auto. rewrite <- (ok_in _ _ _ _ _ KY (S t)) by lia. apply (layer_min _ _ _ _ _ _ KY Hx). }
                  rewrite (G3 t s Ht Hs). apply (cslot_q k l Y 0 _ _ Hk HY) in Hs. destruct (cslot_in k l s Hk _ Hs) as [t' [x [H1 [H2 H3]]]]. injection H1 as <-. rewrite nth_error_map, H2. cbn [option_map]. f_equal. rewrite (HW2 _ _ _ H3). unfold Vk. rewrite Nat.add_0_r. auto.
                - rewrite (proj2 (nth_error_None ki t)) by lia. symmetry. apply nth_error_None. rewrite map_length. lia. }
              rewrite <- Hki. auto.
            * apply list_eq_nth_error. intros t. rewrite nth_error_map. destruct (nth_error (cl_outs l) t) as [x|] eqn:Et; cbn [option_map].
              -- destruct (call_outs _ _ _ _ _ _ _ _ _ K Hk Et) as [Hkd Hx]. destruct (nth_error_Some_ex (outputs (x_c Y)) t) as [f Hf]; [rewrite <- (call_outs_len k l Y Hk HY); eapply nth_error_Some_lt; eauto|]. destruct (slot (end_of X k) x) as [o|] eqn:Es.
                 ++ destruct (slot_cslot_out k l Y t x f o Hk HY Et Hf Es) as [s [-> Hs]]. apply (cslot_q k l Y _ _ _ Hk HY) in Hs. rewrite (G4 t f s Hf Hs), (HW2 _ _ _ Es). unfold Vk. rewrite He. auto.
                 ++ assert (Hin : in_layer cross X x (end_of X k) = true) by (rewrite <- (ok_osub _ _ _ _ _ K _ _ Hkd); apply (layer_min _ _ _ _ _ _ K Hx)).
                    assert (Hend : end_of X k = x_out X). { destruct (Nat.eq_dec (end_of X k) (x_out X)) as [|Hne]; auto. destruct (placed (end_of X k) x) as [o Ho]; [lia|left; auto|congruence]. }
                    rewrite Hend in *. symmetry. eapply (proj1 (HW3 x Hx Hin Es)); eauto.
              -- symmetry. apply nth_error_None. rewrite G2, <- (call_outs_len k l Y Hk HY). apply nth_error_None. auto.
          + intros i x Hi Hx Hin.
            assert (Hplc : forall o, slot i x = Some o -> var_sem cross E X W i x).
            { intros o Hs. assert (Hdec : (exists k, nth_error (x_kinds X) x = Some (OSub k) /\ end_of X k = i) \/ forall k, nth_error (x_kinds X) x = Some (OSub k) -> end_of X k <> i).
              { destruct (nth_error (x_kinds X) x) as [[|e|c|k]|]; try (right; intros k' Hk'; discriminate). destruct (Nat.eq_dec (end_of X k) i) as [He|He]; [left; eauto|]. right. intros k' Hk'. apply Some_inj in Hk'. injection Hk' as <-. auto. }
              destruct Hdec as [[k [Hkd He]]|Hn].
              - unfold var_sem. rewrite (ok_osub _ _ _ _ _ K _ _ Hkd), He, Nat.eqb_refl, Hkd. auto.
              - destruct (at_own i x o Hi Hx Hs Hn) as [a [b [Ha [Hb Hp]]]]. destruct (lq_at i ltac:(lia)) as [L [_ [_ [A1 _]]]]. pose proof (HS i L o ltac:(lia) A1 (slot_cell _ _ _ _ Hs A1)) as Hg. eapply gsum_perm in Hg; [|exact Hp].
                apply (var_gsum E V i x o a b Hi Hx Hs Hn Ha Hb) in Hg. fold Uv in Hg. assert (HWU : W i x = Uv i x) by (unfold W, Uv, U; rewrite Hs; auto). unfold var_sem in *. rewrite HWU. destruct (Nat.eqb_spec (getn (x_min X) x) i) as [Hm|Hm].
                + destruct (nth_error (x_kinds X) x) as [[|e|c|k]|]; auto. eapply expr_sem_ext; [|exact Hg]. intros y _. symmetry. apply HW1. lia.
                + rewrite HW1; auto. destruct (layer_prev _ _ _ _ _ _ _ K Hx Hin Hm). lia. }
            destruct (slot i x) as [o|] eqn:Es; [eauto|]. assert (Hio : i = x_out X). { destruct (Nat.eq_dec i (x_out X)) as [|Hne]; auto. destruct (placed i x) as [o Ho]; [lia|left; auto|congruence]. }
            subst i. destruct (HW3 x Hx Hin Es) as [_ H3]. unfold var_sem. destruct (Nat.eqb_spec (getn (x_min X) x) (x_out X)) as [Hm|Hm].
            * destruct (nth_error (x_kinds X) x) as [[|e|c|k]|]; auto. eapply expr_sem_ext; [|exact H3]. intros y _. symmetry. apply HW1. lia.
            * rewrite H3. symmetry. apply HW1. destruct (layer_prev _ _ _ _ _ _ _ K Hx Hin Hm). lia.
          + intros i Hi. unfold cc_at in Hi. unfold wU. destruct (nth_error (x_cc X) i) as [[c|]|]; auto. discriminate.
          + intros i c Hi Hc. destruct (ok_cc _ _ _ _ _ K _ _ Hc) as [Hi1 [_ [_ [Hks _]]]]. destruct (cc_placed i c (conj Hi1 Hi) Hc) as [o Hs]. destruct (at_cc i c o (conj Hi1 Hi) Hc Hs) as [g [Hg Hp]]. destruct (lq_at i Hi) as [L [_ [_ [A1 _]]]].
            pose proof (HS i L o Hi1 A1 (slot_cell _ _ _ _ Hs A1)) as Hv. eapply gsum_perm in Hv; [|exact Hp]. apply (cc_gsum E V i c g _ (conj Hi1 Hi) Hc Hg) in Hv. destruct Hv as [vs [Hvs Hsum]]. exists vs. split.
            * eapply F2_imp_in; [|exact Hvs]. intros v a _ Ha. unfold con_val in *. destruct (x_nv X <=? v); auto. rewrite HW1 by lia. auto.
            * unfold wU at 1. rewrite Hc. unfold U. rewrite Hs, Hsum. f_equal. f_equal. apply map_ext_in. intros k Hk. destruct (Hks k Hk) as [Hkl _]. destruct (nth_error_Some_ex (x_calls X) k Hkl) as [l El]. destruct (call_at k l El) as [Y [HY _]]. destruct (Hrs k l Y El HY) as [ki [_ HA]].
              eapply cwU_eq; eauto.
        - split; [rewrite map_length, seq_length; auto|]. split; [rewrite map_length; auto|]. split; [|split; [|split]].
          + intros t s Ht Hs. rewrite slotq_eq in Hs. rewrite nth_error_map, nth_error_seq by auto. cbn [option_map]. f_equal. apply HW2; auto.
          + intros t x s Ht Hs. rewrite slotq_eq in Hs. rewrite nth_error_map, Ht. cbn [option_map]. f_equal. apply HW2; auto.
          + intros i c s Hc Hs. rewrite slotq_eq in Hs. unfold wU. rewrite Hc. unfold U. rewrite Hs. auto.
          + intros i Hi. unfold cc_at in Hi. unfold wU. destruct (nth_error (x_cc X) i) as [[c|]|]; auto. discriminate.
      Qed.
    End StepA.
    Section StepB.
      Variable E : Env F.
      Variables (W : nat -> nat -> F) (cw : nat -> nat -> F) (w : nat -> F) (ins outs : list F).
      Hypothesis Bin0 : length ins = num_inputs (x_c X).
      Hypothesis Bin : forall t v, nth_error ins t = Some v -> W 0 (S t) = v.
      Hypothesis Bout : outs = map (W (x_out X)) (outputs (x_c X)).
      Hypothesis Bvar : forall i x, 1 <= i <= x_out X -> 1 <= x < x_nv X -> in_layer cross X x i = true -> var_sem cross E X W i x.
      Hypothesis Bw0 : forall i, cc_at (x_cc X) i = false -> w i = f0.
      Hypothesis Bw : forall i c, i <= x_out X -> nth_error (x_cc X) i = Some (Some c) -> exists vs,
           Forall2 (con_val E X W w i) (cc_vars c) vs /\ w i = fadd (fsum F vs) (fsum F (map (fun k => cw k (i - 1 - start_of X k)) (cc_subs c))).
      Variable VKs : list (nat -> nat -> F).
      Let VK (k : nat) : nat -> nat -> F := nth k VKs (fun _ _ => f0).
      Hypothesis Bch : forall k l Y, nth_error (x_calls X) k = Some l -> lookup (cl_sub l) ctxs = Some Y ->
        Sat E (map fst (ch k)) (GK k) (VK k) /\ agrees Y (map fst (ch k)) (VK k) (map (W (start_of X k)) (cl_ins l)) (map (W (end_of X k)) (cl_outs l)) (cw k).
      Definition VB (i o : nat) : F :=
        match nth_error lqs i, nth_error layouts i with
        | Some lq, Some L => match find (fun p => snd p =? o) lq with
            | Some p => if fst p <? x_nv X then W i (fst p) else w i
            | None => match find (fun m => (snd (fst m) <=? o) && (o <? snd (fst m) + ly_size (fst (fst m)))) (mids L) with
                | Some m => VK (snd m) (i - start_of X (snd m)) (o - snd (fst m))
                | None => f0 end
            end
        | _, _ => f0
        end.
      Lemma VB_slot i x o : slot i x = Some o -> VB i o = if x <? x_nv X then W i x else w i.
      Proof.
        intros Hs. destruct (lq_at i (slot_le _ _ _ Hs)) as [L [lq [C [A1 [A2 [A3 [A4 [A5 [A6 A7]]]]]]]]]. unfold VB. rewrite A1, A2. assert (Hs' := Hs). unfold slot in Hs'. rewrite A2 in Hs'. destruct (find _ lq) as [[y o']|] eqn:Ef.
        - apply find_some in Ef. cbn [snd] in Ef. destruct Ef as [Ef Eq]. apply Nat.eqb_eq in Eq. subst o'. cbn [fst]. assert (Hy : slot i y = Some o) by (unfold slot; rewrite A2; apply In_lookup; [eapply query_nodup; eauto|auto]). rewrite (slot_inj _ _ _ _ Hs Hy). auto.
        - exfalso. apply lookup_In in Hs'. pose proof (find_none _ _ Ef _ Hs') as Hf. cbn [snd] in Hf. rewrite Nat.eqb_refl in Hf. discriminate.
      Qed.
      Lemma VB_mid k i Ls of s : k < length (x_calls X) -> start_of X k < i < end_of X k -> nth_error (ch k) (i - start_of X k) = Some (Ls, of) -> cell Ls s -> VB i (of + s) = VK k (i - start_of X k) s.
      Proof.
        intros Hk Hi Hc Hcl. destruct (nth_error_Some_ex (x_calls X) k Hk) as [l El]. destruct (call_at k l El) as [Y [HY [_ [_ [_ [Heo _]]]]]]. destruct (lq_at i ltac:(lia)) as [L [lq [C [A1 [A2 [A3 [A4 [A5 [A6 A7]]]]]]]]]. unfold VB. rewrite A1, A2.
        destruct (child_lq _ _ _ _ _ _ El HY Hc) as [Hlok _]. pose proof (cell_lt _ _ _ Hcl Hlok) as Hsz. destruct (find _ lq) as [[y o']|] eqn:Ef.
        - exfalso. apply find_some in Ef. cbn [snd] in Ef. destruct Ef as [Ef Eq]. apply Nat.eqb_eq in Eq. subst o'. assert (Hy : slot i y = Some (of + s)) by (unfold slot; rewrite A2; apply In_lookup; [eapply query_nodup; eauto|auto]).
          apply (own_mid i y _ k Ls of s Hy Hk Hi Hc Hcl). auto.
        - pose proof (ch_mid _ _ _ _ _ Hk Hi Hc A1) as Hm. destruct (find _ (mids L)) as [[[Ls' of'] k']|] eqn:Em.
          + apply find_some in Em. cbn [fst snd] in *. destruct Em as [Em Eq]. apply andb_true_iff in Eq. destruct Eq as [Q1 Q2]. apply Nat.leb_le in Q1. apply Nat.ltb_lt in Q2.
            destruct (lok_mid_mid _ L Ls of k s Ls' of' k' (of + s - of') A5 Hm Em Hsz ltac:(lia) ltac:(lia)) as [<- [<- <-]]. f_equal. lia.
          + exfalso. pose proof (find_none _ _ Em _ Hm) as Hf. cbn [fst snd] in Hf. rewrite (proj2 (Nat.leb_le of (of + s))), (proj2 (Nat.ltb_lt (of + s) (of + ly_size Ls))) in Hf by lia. discriminate.
      Qed.
      Lemma VB_view k l Y : nth_error (x_calls X) k = Some l -> lookup (cl_sub l) ctxs = Some Y -> forall j Ls of s, nth_error (ch k) j = Some (Ls, of) -> cell Ls s -> Vk VB k j s = VK k j s.
      Proof.
        intros Hk HY j Ls of s Hc Hcl. destruct (call_at k l Hk) as [Y' [HY' [_ [He [Hlc [Heo HoY]]]]]]. rewrite HY in HY'. apply Some_inj in HY'. subst Y'. destruct (Bch k l Y Hk HY) as [_ [G1 [G2 [G3 [G4 [G5 G6]]]]]]. assert (Hlt := nth_error_Some_lt _ _ _ Hc).
        unfold Vk. destruct (Nat.eq_dec j 0) as [Hj0|Hj0]; [|destruct (Nat.eq_dec j (x_out Y)) as [Hjo|Hjo]].
        - subst j. destruct (cell_cslot _ _ _ _ _ _ _ Hk HY Hc (or_introl eq_refl) Hcl) as [f Hf]. destruct (cslot_in k l s Hk f Hf) as [t [x [-> [Hx Hs]]]]. rewrite Nat.add_0_r, (VB_slot _ _ _ Hs). destruct (call_args _ _ _ Hwf _ _ _ _ _ K Hk (nth_error_In _ _ Hx)) as [_ Hnv]. rewrite (proj2 (Nat.ltb_lt _ _) Hnv).
          apply (cslot_q k l Y 0 _ _ Hk HY) in Hf. assert (Ht : t < num_inputs (x_c Y)) by (rewrite <- G1, map_length; eapply nth_error_Some_lt; eauto). specialize (G3 t s Ht Hf). rewrite nth_error_map, Hx in G3. cbn [option_map] in G3. apply Some_inj in G3. auto.
        - subst j. destruct (cell_cslot _ _ _ _ _ _ _ Hk HY Hc (or_intror eq_refl) Hcl) as [f Hf]. destruct (cslot_out k l Y s Hk HY f Hf) as [t [x [Hfo [Hx Hs]]]]. rewrite <- He, (VB_slot _ _ _ Hs). destruct (call_outs _ _ _ _ _ _ _ _ _ K Hk Hx) as [_ [_ Hnv]]. rewrite (proj2 (Nat.ltb_lt _ _) Hnv).
          apply (cslot_q k l Y _ _ _ Hk HY) in Hf. specialize (G4 t f s Hfo Hf). rewrite nth_error_map, Hx in G4. cbn [option_map] in G4. apply Some_inj in G4. auto.
        - rewrite (off_at _ _ _ _ Hc). rewrite (VB_mid k (start_of X k + j) Ls of s); auto; [|eapply nth_error_Some_lt; eauto|lia|]; replace (start_of X k + j - start_of X k) with j by lia; auto.
      Qed.
      Lemma VB_U i x : i < x_out X -> 1 <= x < x_nv X -> in_layer cross X x i = true -> U VB i x = W i x.
      Proof. intros Hi Hx Hin. destruct (placed i x Hi) as [o Ho]; [auto|]. unfold U. rewrite Ho, (VB_slot _ _ _ Ho), (proj2 (Nat.ltb_lt _ _) (proj2 Hx)). auto. Qed.
      Lemma step_B : Sat E layouts G VB /\ agrees X layouts VB ins outs w.
      Proof.
        assert (Hcc : forall i c o, nth_error (x_cc X) i = Some (Some c) -> slot i (cc_id c) = Some o -> VB i o = w i).
        { intros i c o Hc Ho. rewrite (VB_slot _ _ _ Ho). destruct (ok_cc _ _ _ _ _ K _ _ Hc) as [_ [Hge _]]. rewrite (proj2 (Nat.ltb_ge _ _) Hge). auto. }
        assert (HwU : forall i, i < x_out X -> wU VB i = w i).
        { intros i Hi. unfold wU. destruct (nth_error (x_cc X) i) as [[c|]|] eqn:Ec; try (symmetry; apply Bw0; unfold cc_at; rewrite Ec; auto; fail). destruct (placed i (cc_id c) Hi) as [o Ho]; [right; eauto|]. unfold U. rewrite Ho. eapply Hcc; eauto. }
        split.
        - apply sat_build.
          + intros i x o Hi Hx Hs Hn. assert (Hin : in_layer cross X x i = true) by (destruct (slot_var _ _ _ Hs) as [[_ H]|[c [H1 H2]]]; [auto|]; destruct (ok_cc _ _ _ _ _ K _ _ H1) as [_ [H _]]; lia).
            pose proof (Bvar i x Hi Hx Hin) as Hv. unfold var_sem in *. assert (HUi : U VB i x = W i x) by (unfold U; rewrite Hs, (VB_slot _ _ _ Hs), (proj2 (Nat.ltb_lt _ _) (proj2 Hx)); auto). rewrite HUi. destruct (Nat.eqb_spec (getn (x_min X) x) i) as [Hm|Hm].
            * destruct (nth_error (x_kinds X) x) as [[|e|c|k]|] eqn:Ek; auto. eapply expr_sem_ext; [|exact Hv]. intros y Hy. symmetry. destruct (expr_args _ _ _ Hwf _ _ _ _ _ K Ek Hy). apply VB_U; [lia|lia|]. rewrite <- Hm. eapply (ok_use _ _ _ _ _ K); eauto.
            * destruct (layer_prev _ _ _ _ _ _ _ K Hx Hin Hm) as [Hlp Hin']. rewrite VB_U; auto. lia.
          + intros i c o Hi Hc Hs. destruct (Bw i c (proj2 Hi) Hc) as [vs [Hvs Hsum]]. exists vs. destruct (ok_cc _ _ _ _ _ K _ _ Hc) as [_ [_ [_ [Hks [l [chn [Hvars [Hlv [Hch1 _]]]]]]]]]. split.
            * eapply F2_imp_in; [|exact Hvs]. intros v a Hv Ha. unfold con_val in *. destruct (Nat.leb_spec (x_nv X) v) as [Hge|Hlt]; [rewrite HwU by lia; auto|]. rewrite Hvars in Hv. apply in_app_iff in Hv. destruct Hv as [Hv|Hv].
              -- destruct (Hlv v Hv) as [Hcon Hin]. pose proof (wf_con _ _ (wf_each _ _ Hwf _ _ (ok_c _ _ _ _ _ K))) as W2. rewrite Forall_forall in W2. apply W2 in Hcon. cbn in Hcon. rewrite VB_U; auto; lia.
              -- destruct Hch1 as [->|[y [-> Hy]]]; [destruct Hv|]. destruct Hv as [<-|[]]. lia.
            * rewrite (Hcc i c o Hc Hs), Hsum. f_equal. f_equal. apply map_ext_in. intros k Hk. destruct (Hks k Hk) as [Hkl _]. destruct (nth_error_Some_ex (x_calls X) k Hkl) as [lk El]. destruct (call_at k lk El) as [Y [HY _]]. destruct (Bch k lk Y El HY) as [_ HA].
              symmetry. eapply cwU_eq; eauto. eapply VB_view; eauto.
          + intros k l Hk. destruct (call_at k l Hk) as [Y [HY [_ [He [Hlc [Heo HoY]]]]]]. destruct (Bch k l Y Hk HY) as [HSk _]. intros j Ls s Hj HL Hcl. rewrite nth_error_map in HL. destruct (nth_error (ch k) j) as [[Ls' of]|] eqn:Ec; [|discriminate]. cbn [option_map fst] in HL. apply Some_inj in HL. subst Ls'.
            rewrite (VB_view k l Y Hk HY j Ls of s Ec Hcl). assert (Hlt := nth_error_Some_lt _ _ _ Ec). assert (HL' : nth_error (map fst (ch k)) j = Some Ls) by (rewrite nth_error_map, Ec; auto). specialize (HSk j Ls s Hj HL' Hcl). revert HSk. apply gsum_ext.
            intros g v Hg Hv. apply filter_In in Hg. destruct Hg as [Hg _]. destruct (Hgk k l Y Hk HY j g ltac:(lia) Hg) as [_ Hrd]. destruct (Hrd v Hv) as [_ [L1 [H1 H2]]]. rewrite nth_error_map in H1. destruct (nth_error (ch k) (j - 1 - il v)) as [[Ls1 of1]|] eqn:Ec1; [|discriminate]. cbn [option_map fst] in H1. apply Some_inj in H1. subst L1.
            unfold rd. symmetry. eapply VB_view; eauto.
        - split; auto. split; [rewrite Bout, map_length; auto|]. split; [|split; [|split; auto]].
          + intros t s Ht Hs. rewrite slotq_eq in Hs. destruct (nth_error_Some_ex ins t) as [v Hv]; [lia|]. rewrite Hv. f_equal. rewrite (VB_slot _ _ _ Hs). rewrite (proj2 (Nat.ltb_lt (S t) (x_nv X))) by (rewrite (nv_eq _ _ _ _ _ K); lia). symmetry. apply Bin; auto.
          + intros t x s Ht Hs. rewrite slotq_eq in Hs. rewrite Bout, nth_error_map, Ht. cbn [option_map]. f_equal. rewrite (VB_slot _ _ _ Hs).
            pose proof (wf_out _ _ (wf_each _ _ Hwf _ _ (ok_c _ _ _ _ _ K))) as W3. rewrite Forall_forall in W3. apply nth_error_In in Ht. apply W3 in Ht. rewrite (proj2 (Nat.ltb_lt x (x_nv X))) by (rewrite (nv_eq _ _ _ _ _ K); lia). auto.
          + intros i c s Hc Hs. rewrite slotq_eq in Hs. symmetry. eapply Hcc; eauto.
      Qed.
    End StepB.
  End Level.
End LayOwn.
