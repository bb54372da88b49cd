(* What the optimiser of layered circuits relies on holds of every circuit the layering pass builds: at most one gate with a public input as coefficient
   writes a given slot, and no child is listed without a place. *)
From Verif Require Import Prelude Field Zp Sorting Expr Topo Ir IrInst InputMapping Layered SolveDuplicates LayeredFacts LayeredOpt LayeredOptFacts LayeredExpand LayeredCommon IrFacts Sim Layering LaySem LaySched LayInst LayLayout LayOwn LayView LayRoot.
Open Scope nat_scope.

Section Fit.
  Context {F : Fld}.
  Notation DI := (DestI F true).
  Notation Ctx := (Ctx (F := F)).
  Notation UG := (UG F). Notation Segment := (Segment F).
  Definition pubg (g : UG) : bool := match g_coef g with CPub _ => true | _ => false end.
  Definition npub (l : list UG) : nat := length (filter pubg l).
  Definition few (l : list UG) : Prop := forall o, npub (at_o o l) <= 1.
  Lemma npub_perm a b : Permutation a b -> npub a = npub b.
  Proof. intros H. apply Permutation_length. apply filter_perm. exact H. Qed.
  Lemma npub_app a b : npub (a ++ b) = npub a + npub b.
  Proof. unfold npub. rewrite filter_app, app_length. auto. Qed.
  Lemma npub_none l : (forall g, In g l -> pubg g = false) -> npub l = 0.
  Proof. unfold npub. induction l as [|g l IH]; intros H; auto. cbn [filter]. rewrite (H g (or_introl eq_refl)). apply IH. intros h Hh. apply H. right; auto. Qed.
  Lemma npub_shift a l : npub (map (ushift a) l) = npub l.
  Proof. unfold npub. induction l as [|g l IH]; auto. cbn [map filter]. change (pubg (ushift a g)) with (pubg g). destruct (pubg g); cbn [length]; auto. Qed.
  Lemma few_shift a l : few l -> few (map (ushift a) l).
  Proof.
    intros H o. destruct (Nat.le_gt_cases (a_out a) o) as [Hle|Hlt].
    - replace o with (a_out a + (o - a_out a)) by lia. rewrite at_shift, npub_shift. apply H.
    - rewrite at_none; [cbn; lia|]. intros g Hg. apply in_map_iff in Hg. destruct Hg as [g0 [<- _]]. cbn [ushift g_out]. lia.
  Qed.
  Lemma few_perm a b : Permutation a b -> few a -> few b.
  Proof. intros H Ha o. rewrite <- (npub_perm (at_o o a)); [apply Ha|]. apply at_perm. exact H. Qed.
  Lemma few_nodup l : few l -> NoDup (filter pubg l).
  Proof.
    induction l as [|g l IH]; intros H; [constructor|]. assert (Hl : few l).
    { intros o. specialize (H o). unfold at_o in *. cbn [filter] in H. destruct (g_out g =? o); auto. unfold npub in *. cbn [filter] in H. destruct (pubg g); cbn [length] in H; lia. }
    cbn [filter]. destruct (pubg g) eqn:Eg; [|auto]. constructor; [|auto]. intros Hin. apply filter_In in Hin. destruct Hin as [Hin _]. specialize (H (g_out g)). unfold at_o in H. cbn [filter] in H. rewrite Nat.eqb_refl in H.
    unfold npub in H. cbn [filter] in H. rewrite Eg in H. cbn [length] in H. destruct (filter pubg (filter (fun h => g_out h =? g_out g) l)) as [|x r] eqn:Ef; [|cbn in H; lia].
    assert (X : In g (filter pubg (filter (fun h => g_out h =? g_out g) l))) by (apply filter_In; split; auto; apply filter_In; split; auto; apply Nat.eqb_refl). rewrite Ef in X. destruct X.
  Qed.

  Variable cross : bool.
  Variable cs : list (nat * Circuit DI).
  Variable ctxs : list (nat * Ctx).
  Hypothesis Hwf : wf_circuits DI cs.
  Hypothesis Hok : forall id X, lookup id ctxs = Some X -> ctx_ok cross cs ctxs id X.

  Lemma term_gate_const aq o (t : Term F) g : term_gate aq o t = Some g -> pubg g = false.
  Proof.
    unfold term_gate. destruct (vars t) as [|v|v0 v1|ty l|v].
    - intros H. apply Some_inj in H. subst. auto.
    - destruct (lookup v aq); [|discriminate]. cbn [obind]. intros H. apply Some_inj in H. subst. auto.
    - destruct (lookup v0 aq); [|discriminate]. cbn [obind]. destruct (lookup v1 aq); [|discriminate]. cbn [obind]. intros H. apply Some_inj in H. subst. destruct (_ <? _); auto.
    - destruct (omap _ l); [|discriminate]. cbn [obind]. intros H. apply Some_inj in H. subst. auto.
    - destruct (lookup v aq); [|discriminate]. cbn [obind]. intros H. apply Some_inj in H. subst. auto.
  Qed.
  Lemma first_few X lqs i x a : first_gates X lqs i x = Some a -> npub a <= 1.
  Proof.
    unfold first_gates. destruct (_ =? i); [|intros H; apply Some_inj in H; subst; cbn; lia]. destruct (nth_error lqs (i - 1)) as [aq|]; [|discriminate]. cbn [obind]. destruct (nth_error lqs i) as [bq|]; [|discriminate]. cbn [obind].
    destruct (lookup x bq) as [o|]; [|destruct (i =? x_out X); [intros H; apply Some_inj in H; subst; cbn; lia|discriminate]].
    destruct (nth_error (x_kinds X) x) as [[|e|c|k]|]; intros H; try (apply Some_inj in H; subst; cbn; lia).
    - rewrite npub_none; [lia|]. intros g Hg. apply (omap_in _ _ _ g H) in Hg. destruct Hg as [t [_ Ht]]. eapply term_gate_const; eauto.
    - apply Some_inj in H. subst. unfold npub. cbn [filter]. destruct (pubg _); cbn; lia.
  Qed.
  Lemma relay_none X lqs x cur next b : relay_gate X lqs x cur next = Some b -> forall g, In g b -> pubg g = false.
  Proof.
    unfold relay_gate. destruct (nth_error lqs cur) as [aq|]; [|discriminate]. cbn [obind]. destruct (nth_error lqs next) as [bq|]; [|discriminate]. cbn [obind].
    destruct (lookup x bq) as [o|]; [|destruct (next =? x_out X); [intros H; apply Some_inj in H; subst; intros g []|discriminate]].
    destruct (lookup x aq); [|discriminate]. cbn [obind]. intros H. apply Some_inj in H. subst. intros g [<-|[]]. auto.
  Qed.
  Lemma relays_none X lqs i x b : relay_gates cross X lqs i x = Some b -> forall g, In g b -> pubg g = false.
  Proof.
    unfold relay_gates. destruct cross.
    - destruct (omap _ _) as [r|] eqn:Er; [|discriminate]. cbn [obind]. intros H. apply Some_inj in H. subst b. intros g Hg. apply in_concat in Hg. destruct Hg as [l [Hl Hg]]. apply (omap_in _ _ _ l Er) in Hl. destruct Hl as [p [_ Hp]].
      destruct (snd p =? i); [eapply relay_none; eauto|]. apply Some_inj in Hp. subst l. destruct Hg.
    - destruct (_ && _); [apply relay_none|]. intros H. apply Some_inj in H. subst. intros g [].
  Qed.
  Lemma cc_none X layouts lqs i c : cc_gates ctxs X layouts lqs i = Some c -> forall g, In g c -> pubg g = false.
  Proof.
    unfold cc_gates. destruct (nth_error (x_cc X) i) as [[cc|]|]; [|intros H; apply Some_inj in H; subst; intros g []..]. destruct (nth_error lqs (i - 1)) as [aq|]; [|discriminate]. cbn [obind]. destruct (nth_error lqs i) as [bq|]; [|discriminate]. cbn [obind].
    destruct (lookup (cc_id cc) bq) as [o|]; [|discriminate]. cbn [obind]. destruct (omap _ (cc_vars cc)) as [g1|] eqn:E1; [|discriminate]. cbn [obind]. destruct (omap _ (cc_subs cc)) as [g2|] eqn:E2; [|discriminate]. cbn [obind]. intros H. apply Some_inj in H. subst c.
    intros g Hg. apply in_app_iff in Hg. destruct Hg as [Hg|Hg].
    - apply (omap_in _ _ _ g E1) in Hg. destruct Hg as [v [_ Hv]]. destruct (lookup v aq); [|discriminate]. cbn [obind] in Hv. apply Some_inj in Hv. subst g. unfold pubg. cbn [mkg g_coef]. destruct (_ <=? _); auto.
    - apply (omap_in _ _ _ g E2) in Hg. destruct Hg as [k [_ Hv]]. repeat (apply obind_some in Hv; destruct Hv as [? [_ Hv]]). apply Some_inj in Hv. subst g. auto.
  Qed.
  Theorem inst_few : forall n id layouts G, Inst cross ctxs n id layouts G -> forall X, lookup id ctxs = Some X -> forall i, 1 <= i <= x_out X -> few (G i).
  Proof.
    induction n as [|n IH]; intros id layouts G H X HX i Hi o; [destruct H|]. pose proof H as H0. cbn [Inst] in H. destruct H as [X' [lqs [ch [GK [OW [HX' [Hlen [Hl [Hlq [Hpl [Hcall HG]]]]]]]]]]]. rewrite HX in HX'. apply Some_inj in HX'. subst X'.
    assert (Hgk : forall k l Y, nth_error (x_calls X) k = Some l -> lookup (cl_sub l) ctxs = Some Y -> forall j g, 1 <= j <= x_out Y -> In g (GK k j) -> gok (map fst (ch k)) Y j g) by (intros k l Y Hk HY; destruct (Hcall k l Hk) as [_ HI]; apply (inst_gok cross cs ctxs Hwf Hok _ _ _ _ HI Y HY)).
    destruct (at_o o (G i)) as [|g0 r0] eqn:Eo; [cbn; lia|]. rewrite <- Eo. assert (Hg0 : In g0 (at_o o (G i))) by (rewrite Eo; left; auto). apply filter_In in Hg0. destruct Hg0 as [Hg0 Ho]. apply Nat.eqb_eq in Ho.
    destruct (inst_gok cross cs ctxs Hwf Hok _ _ _ _ H0 X HX i g0 Hi Hg0) as [[L [HL Hc]] _]. rewrite Ho in Hc.
    assert (Hkid : forall k, k < length (x_calls X) -> start_of X k < i <= end_of X k -> forall o', npub (at_o o' (cgates ctxs X ch GK i k)) <= 1).
    { intros k Hk Hik o'. destruct (nth_error_Some_ex (x_calls X) k Hk) as [l El]. destruct (Hcall k l El) as [_ HI].
      destruct (call_at cross cs ctxs Hok n id layouts X lqs ch GK HX Hlen Hcall k l El) as [Y [HY [_ [He [_ [Heo _]]]]]]. apply few_shift. apply (IH _ _ _ HI Y HY). lia. }
    destruct (level_cell cross cs ctxs Hok n id layouts X lqs ch GK HX Hlen Hl Hlq Hcall i L o HL Hc) as [[x Hs]|[k [Ls [of [s [Hk [Hik [Hch [Hcl ->]]]]]]]]].
    2:{ rewrite (npub_perm _ _ (at_mid cross cs ctxs Hwf Hok n id layouts G X lqs ch GK OW HX Hlen Hl Hlq Hcall HG Hgk i k Ls of s Hk Hik Hch Hcl)). apply Hkid; auto. lia. }
    destruct (slot_var cross cs ctxs Hwf Hok id layouts X lqs HX Hlen Hl Hlq i x o Hs) as [[Hx _]|[c [Hcc ->]]].
    - assert (Hdec : (exists k, nth_error (x_kinds X) x = Some (OSub k) /\ end_of X k = i) \/ forall k, nth_error (x_kinds X) x = Some (OSub k) -> end_of X k <> i).
      { destruct (nth_error (x_kinds X) x) as [[|e|c|k]|]; try (right; intros k Hk; discriminate). destruct (Nat.eq_dec (end_of X k) i) as [e|e]; [left; eauto|right]. intros k' Hk'. apply Some_inj in Hk'. injection Hk' as <-. auto. }
      destruct Hdec as [[k [Hk Hend]]|Hn].
      + rewrite (npub_perm _ _ (at_sub cross cs ctxs Hwf Hok n id layouts G X lqs ch GK OW HX Hlen Hl Hlq Hcall HG Hgk i x o k Hs Hk Hend)). destruct (sub_call _ _ _ _ _ _ _ (Hok _ _ HX) Hk) as [l [t [El Et]]].
        destruct (call_at cross cs ctxs Hok n id layouts X lqs ch GK HX Hlen Hcall k l El) as [Y [HY [_ [He [_ [Heo Hy]]]]]]. apply Hkid; [eapply nth_error_Some_lt; eauto|lia].
      + destruct (at_own cross cs ctxs Hwf Hok n id layouts G X lqs ch GK OW HX Hlen Hl Hlq Hcall HG Hgk i x o Hi Hx Hs Hn) as [a [b [Ha [Hb Hp]]]]. rewrite (npub_perm _ _ Hp), npub_app. pose proof (first_few _ _ _ _ _ Ha). rewrite (npub_none b); [lia|]. eapply relays_none; eauto.
    - destruct (at_cc cross cs ctxs Hwf Hok n id layouts G X lqs ch GK OW HX Hlen Hl Hlq Hcall HG Hgk i c o Hi Hcc Hs) as [g [Hg Hp]]. rewrite (npub_perm _ _ Hp), npub_none; [lia|]. eapply cc_none; eauto.
  Qed.

  Definition placed_s (segs : list Segment) : Prop := forall s ch, In s segs -> In ch (s_children s) -> snd ch <> [].
  Definition fit (segs : list Segment) : Prop := (forall id, id < length segs -> few (flat (S id) segs id)) /\ placed_s segs.
  Lemma child_add_placed : forall m sid (a : Alloc), (forall ch, In ch m -> snd ch <> []) -> forall ch, In ch (add_child m sid a) -> snd ch <> [].
  Proof.
    induction m as [|[s al] m IH]; intros sid a H ch Hc; cbn [add_child] in Hc.
    - destruct Hc as [<-|[]]. discriminate.
    - destruct (s =? sid); destruct Hc as [<-|Hc].
      + cbn [snd]. destruct al; discriminate.
      + apply H. right; auto.
      + apply (H (s, al)). left; auto.
      + apply (IH sid a); auto. intros ch' Hch'. apply H. right; auto.
  Qed.
  Lemma children_placed_at X i : forall sbs chs0 chs, (forall ch, In ch chs0 -> snd ch <> []) -> ofold (fun chs s =>
        if (start_of X (sb_k s) <? i) && (i <=? end_of X (sb_k s)) then
          let* l := nth_error (x_calls X) (sb_k s) in
          let* Xs := lookup (cl_sub l) ctxs in
          let* p := child_alloc cross X Xs s i in Some (add_child chs (fst p) (snd p))
        else Some chs) sbs chs0 = Some chs -> forall ch, In ch chs -> snd ch <> [].
  Proof.
    induction sbs as [|sb sbs IH]; intros chs0 chs H0 H; cbn [ofold] in H; [apply Some_inj in H; subst; auto|]. destruct (_ && _).
    - destruct (nth_error (x_calls X) _) as [l|]; [|discriminate]. cbn [obind] in H. destruct (lookup (cl_sub l) ctxs) as [Y|]; [|discriminate]. cbn [obind] in H. destruct (child_alloc cross X Y sb i) as [p|]; [|discriminate]. cbn [obind] in H.
      apply (IH _ _ (child_add_placed _ _ _ H0) H).
    - cbn [obind] in H. apply (IH _ _ H0 H).
  Qed.
  Definition rec_fit (rec : list Layout -> list Segment -> option (list Segment * list nat)) : Prop :=
    forall layouts segs segs' ids L0, rec layouts segs = Some (segs', ids) -> closed segs -> (forall L, In L layouts -> lok ctxs L) -> hd_error layouts = Some L0 -> fit segs -> fit segs'.
  Lemma connect_subs_fit n rec X id layouts lqs : rec_ok cross ctxs n rec -> rec_fit rec -> ctx_ok cross cs ctxs id X -> lookup id ctxs = Some X ->
    (forall i L, nth_error layouts i = Some L -> lok ctxs L /\ ly_circ L = id /\ ly_layer L = i) -> forall ks segs segs' sbs,
    connect_subs rec ctxs X layouts lqs ks segs = Some (segs', sbs) -> closed segs -> fit segs -> fit segs'.
  Proof.
    intros Hrec Hfit K HX Hl. induction ks as [|k ks IH]; intros segs segs' sbs H Hc Hf; cbn [connect_subs] in H.
    - injection H as <- <-. auto.
    - destruct (omap (sub_layout ctxs X layouts lqs k) _) as [ls|] eqn:Els; [|discriminate]. cbn [obind] in H. destruct (rec (map fst ls) segs) as [[segs1 ids]|] eqn:Er; [|discriminate]. cbn [obind fst snd] in H.
      destruct (connect_subs rec ctxs X layouts lqs ks segs1) as [[segs2 sbs2]|] eqn:Ec; [|discriminate]. cbn [obind fst snd] in H. injection H as <- <-.
      assert (Hlls : length ls = S (end_of X k - start_of X k)) by (erewrite omap_length by eauto; apply seq_length).
      destruct (nth_error_Some_ex ls 0) as [p0 Hp0]; [lia|].
      assert (Hh : hd_error (map fst ls) = Some (fst p0)) by (destruct ls; [discriminate|]; cbn in Hp0 |- *; apply Some_inj in Hp0; subst; auto).
      assert (Hlk : forall L, In L (map fst ls) -> lok ctxs L).
      { intros L HL. apply in_map_iff in HL. destruct HL as [p [<- Hp]]. apply In_nth_error in Hp. destruct Hp as [t Ht].
        destruct (nth_error_Some_ex (seq (start_of X k) (S (end_of X k - start_of X k))) t) as [j Hj]; [rewrite seq_length, <- Hlls; eapply nth_error_Some_lt; eauto|].
        destruct (omap_at _ _ _ t j Els Hj) as [y [Y1 Y2]]. rewrite Ht in Y1. apply Some_inj in Y1. subst. eapply (sub_layout_lok ctxs); [|eauto]. intros i L' HL'. apply (Hl i L' HL'). }
      destruct (Hrec _ _ _ _ _ Er Hc Hlk Hh) as [ext1 [G [Y [E1 [C1 _]]]]].
      apply (IH _ _ _ Ec C1). apply (Hfit _ _ _ _ _ Er Hc Hlk Hh Hf).
  Qed.
  Theorem connect_fit : forall n, rec_fit (connect cross n ctxs).
  Proof.
    induction n as [|n IH]; intros layouts segs segs' ids L0 H Hc Hlk Hh Hf; [discriminate|]. pose proof H as H0. cbn [connect] in H. rewrite Hh in H. cbn [obind] in H.
    destruct (guard _) as [[]|] eqn:Eg in H; [|discriminate]. cbn [obind] in H. destruct (lookup (ly_circ L0) ctxs) as [X|] eqn:HX; [|discriminate]. cbn [obind] in H.
    destruct (guard (length layouts =? S (x_out X))) as [[]|] eqn:Eg2 in H; [|discriminate]. cbn [obind] in H.
    change (fun L : Layout => let* C := nth_error (x_lcs X) (ly_layer L) in layout_query L (lc_vars C)) with (qry X) in H.
    destruct (omap (qry X) layouts) as [lqs|] eqn:Elq; [|discriminate]. cbn [obind] in H.
    destruct (guard (forallb (fun p => forallb _ _) _)) as [[]|] eqn:Eg3 in H; [|discriminate]. cbn [obind] in H.
    destruct (connect_subs _ _ _ _ _ _ _) as [[segs1 sbs]|] eqn:Ec in H; [|discriminate]. cbn [obind fst snd] in H.
    destruct (omap (make_segment cross ctxs X layouts lqs sbs) (seq 1 (x_out X))) as [new|] eqn:En; [|discriminate]. cbn [obind] in H. apply Some_inj in H. injection H as <- <-.
    unfold guard in Eg, Eg2. destruct (forallb _ _) eqn:Ef in Eg; [|discriminate]. clear Eg Eg2 Eg3.
    pose proof (Hok _ _ HX) as K.
    assert (Hl : forall i L, nth_error layouts i = Some L -> lok ctxs L /\ ly_circ L = ly_circ L0 /\ ly_layer L = i).
    { intros i L HL. split; [apply Hlk; eapply nth_error_In; eauto|]. rewrite forallb_forall in Ef. specialize (Ef (i, L)). cbn [fst snd] in Ef.
      rewrite andb_true_iff, !Nat.eqb_eq in Ef. apply Ef. apply nth_error_In with (n := i). apply combine_at; auto. apply nth_error_seq. eapply nth_error_Some_lt; eauto. }
    assert (Hks : forall k, In k (seq 0 (length (x_calls X))) -> k < length (x_calls X)) by (intros k Hk; apply in_seq in Hk; lia).
    pose proof (connect_inst cross cs ctxs Hok n) as HR.
    destruct (connect_subs_inst cross cs ctxs Hok n _ X _ layouts lqs HR K HX Hl _ _ _ _ Hks Ec Hc) as [ext [ds [E1 [C1 _]]]].
    assert (F1 : fit segs1) by (eapply (connect_subs_fit n); eauto).
    destruct (connect_inst cross cs ctxs Hok (S n) layouts segs _ _ L0 H0 Hc Hlk Hh) as [ext' [G [X' [E2 [C2 [HX' [HI [Hids Hh']]]]]]]]. rewrite HX in HX'. apply Some_inj in HX'. subst X'. rewrite seq_length in Hids.
    destruct F1 as [F1 F2]. split.
    - intros id Hid. destruct (Nat.lt_ge_cases id (length segs1)) as [Hlt|Hge].
      + rewrite (flat_ext segs1 new C1 (S id) (S id)) by lia. auto.
      + rewrite app_length in Hid. destruct (Hh' (S (id - length segs1)) id) as [_ Q]; [|lia|].
        * replace (S (id - length segs1) - 1) with (id - length segs1) by lia. rewrite nth_error_seq by lia. f_equal. lia.
        * rewrite Q. apply (inst_few _ _ _ _ HI X HX). lia.
    - intros s c Hs Hcc. apply in_app_iff in Hs. destruct Hs as [Hs|Hs]; [eapply F2; eauto|]. apply (omap_in _ _ _ s En) in Hs. destruct Hs as [i [_ Hm]].
      unfold make_segment in Hm. destruct (nth_error (x_used X) i) as [u|]; [|discriminate]. cbn [obind] in Hm. destruct (omap _ _) as [ins|] in Hm; [|discriminate]. cbn [obind] in Hm.
      destruct (from_vec cross ins) as [ins'|]; [|discriminate]. cbn [obind] in Hm. destruct (nth_error layouts i) as [L|]; [|discriminate]. cbn [obind] in Hm. destruct (children_at _ _ _ _ _) as [chs|] eqn:Ech in Hm; [|discriminate]. cbn [obind] in Hm.
      destruct (own_gates _ _ _ _ _ _) as [gs|] in Hm; [|discriminate]. cbn [obind] in Hm. apply Some_inj in Hm. subst s. cbn [s_children] in Hcc.
      eapply (children_placed_at X i sbs []); [intros ? []|exact Ech|exact Hcc].
  Qed.
End Fit.

Theorem layer_fit {F : Fld} (cross : bool) (EMPTY : nat) (reorder : bool) (rc : RootCircuit (DestI F true)) lc im : NoDup (keys (circuits rc)) -> validate (DestI F true) rc = true -> layer_compile cross EMPTY reorder rc = Some (lc, im) ->
  placed_s (l_segs lc) /\ forall id, id < length (l_segs lc) -> NoDup (filter pubg (flat (length (l_segs lc)) (l_segs lc) id)).
Proof.
  intros Hk Hv H. destruct (validate_wf (DestI F true) rc Hk Hv) as [Hwf [[rank [Hrank _]] _]]. unfold layer_compile in H. set (fuel := S (length (circuits rc))) in H.
  destruct (topo fuel (circuits rc) 0 []) as [order|] eqn:Et; [|discriminate]. cbn [obind] in H. destruct (all_layers cross (circuits rc) order) as [[ctxs0 has]|] eqn:Ea; [|discriminate]. cbn [obind fst snd] in H.
  destruct (omap _ ctxs0) as [ctxs|] eqn:Ep in H; [|discriminate]. cbn [obind] in H. destruct (layers_ok cross (circuits rc) Hwf rank Hrank _ _ _ _ _ Et Ea Ep) as [Hok Hhas].
  destruct (lookup 0 ctxs) as [X|] eqn:HX; [|discriminate]. cbn [obind] in H. destruct (omap (solve fuel reorder ctxs 0) (seq 0 (S (x_out X)))) as [layouts|] eqn:El; [|discriminate]. cbn [obind] in H.
  destruct (connect cross fuel ctxs layouts []) as [[segs ids]|] eqn:Ec; [|discriminate]. cbn [obind fst snd] in H. destruct (nth_error (x_lcs X) 0) as [C0|] eqn:EC0; [|discriminate]. cbn [obind] in H.
  destruct (nth_error layouts 0) as [L0|] eqn:EL0; [|discriminate]. cbn [obind] in H. destruct (input_order EMPTY X C0 L0) as [io|] eqn:Eio; [|discriminate]. cbn [obind] in H.
  destruct (nth_error ids 0) as [sid|] eqn:Esid; [|discriminate]. cbn [obind] in H. destruct (nth_error segs sid) as [s0|] eqn:Es0; [|discriminate]. cbn [obind] in H. destruct (nth_error (s_ins s0) 0) as [l0|] eqn:El0; [|discriminate]. cbn [obind] in H.
  apply Some_inj in H. injection H as <- <-. cbn [l_segs].
  assert (Hsol : forall i L, nth_error layouts i = Some L -> i <= x_out X /\ solve fuel reorder ctxs 0 i = Some L).
  { intros i L HL. pose proof (omap_length _ _ _ El) as Hlen. rewrite seq_length in Hlen. assert (Hi : i < S (x_out X)) by (rewrite <- Hlen; eapply nth_error_Some_lt; eauto). split; [lia|].
    pose proof (nth_error_seq 0 (S (x_out X)) i Hi) as Hs. destruct (omap_at _ _ _ i _ El Hs) as [L' [A B]]. rewrite HL in A. apply Some_inj in A. subst L'. exact B. }
  assert (Hlok : forall L, In L layouts -> lok ctxs L).
  { intros L HL. apply In_nth_error in HL. destruct HL as [i HL]. destruct (Hsol _ _ HL) as [_ HS]. apply (solve_lok cross (circuits rc) ctxs Hok) in HS. apply HS. }
  assert (Hhd : hd_error layouts = Some L0) by (destruct layouts; auto).
  assert (Hnil : closed (F := F) []) by (intros [|?] ? ? HH; discriminate).
  destruct (connect_inst cross (circuits rc) ctxs Hok fuel layouts [] segs ids L0 Ec Hnil Hlok Hhd) as [ext [G [X' [He [Hcl _]]]]].
  destruct (connect_fit cross (circuits rc) ctxs Hwf Hok fuel layouts [] segs ids L0 Ec Hnil Hlok Hhd) as [F1 F2].
  { split; [intros id Hid; cbn in Hid; lia|intros s ch []]. }
  split; auto. intros id Hid. rewrite (flat_fu segs Hcl (length segs) (S id)) by lia. apply few_nodup. apply F1. exact Hid.
Qed.
