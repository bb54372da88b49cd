(* What the segments built for one circuit are, without the numbering of segments: gates per layer (Inst), and that connecting builds just that. *)
From Verif Require Import Prelude Field Zp Sorting Expr Topo Ir IrInst InputMapping Layered LayeredFacts LayeredOpt LayeredOptFacts LayeredExpand LayeredCommon IrFacts Sim Layering LaySem LaySched.
Open Scope nat_scope.

Section LayInst.
  Context {F : Fld}.
  Notation DI := (DestI F true).
  Notation Ctx := (Ctx (F := F)).
  Notation UG := (UG F). Notation Segment := (Segment F).
  Variable cross : bool.
  Variable cs : list (nat * Circuit DI).
  Variable ctxs : list (nat * Ctx).

  (* the slots of a layout that hold something *)
  Inductive cell : Layout -> nat -> Prop :=
  | cell_d c l p o v : nth_error p o = Some (Some v) -> cell (LDense c l p) o
  | cell_p c l sz p subs o v : In (o, v) p -> cell (LSparse c l sz p subs) o
  | cell_s c l sz p subs s off k o : In (s, off, k) subs -> cell s o -> cell (LSparse c l sz p subs) (off + o).
  (* nothing overlaps *)
  Inductive lok : Layout -> Prop :=
  | lok_d c l p : lok (LDense c l p)
  | lok_s c l sz p subs X : lookup c ctxs = Some X ->
      (forall o v, In (o, v) p -> o < sz) -> (forall o v v', In (o, v) p -> In (o, v') p -> v = v') ->
      (forall s off k, In (s, off, k) subs -> lok s) ->
      (forall s off k, In (s, off, k) subs -> off + ly_size s <= sz /\ k < length (x_calls X) /\ start_of X k < l < end_of X k) ->
      (forall s off k o v, In (s, off, k) subs -> In (o, v) p -> o < off \/ off + ly_size s <= o) ->
      (forall a b s off k s' off' k', nth_error subs a = Some (s, off, k) -> nth_error subs b = Some (s', off', k') -> a <> b -> off + ly_size s <= off' \/ off' + ly_size s' <= off) ->
      NoDup (map snd subs) -> lok (LSparse c l sz p subs).

  Definition off (ch : list (Layout * nat)) (j : nat) : nat := nth j (map snd ch) 0.
  Definition sub_ctx (X : Ctx) (k : nat) : Ctx := match nth_error (x_calls X) k with Some l => match lookup (cl_sub l) ctxs with Some Y => Y | None => X end | None => X end.
  (* where the child in call k is placed, for its layer j *)
  Definition alloc_of (Y : Ctx) (ch : list (Layout * nat)) (j : nat) : Alloc :=
    {| a_in := map (off ch) (rev (seq (getn (x_used Y) j) (j - getn (x_used Y) j))); a_out := off ch j |}.
  Definition qry (X : Ctx) (L : Layout) : option (list (nat * nat)) := let* C := nth_error (x_lcs X) (ly_layer L) in layout_query L (lc_vars C).
  Fixpoint Inst (n : nat) (id : nat) (layouts : list Layout) (G : nat -> list UG) : Prop :=
    match n with
    | 0 => False
    | S n => exists (X : Ctx) (lqs : list (list (nat * nat))) (ch : nat -> list (Layout * nat)) (GK : nat -> nat -> list UG) (OW : nat -> list UG),
        lookup id ctxs = Some X /\ length layouts = S (x_out X) /\
        (forall i L, nth_error layouts i = Some L -> lok L /\ ly_circ L = id /\ ly_layer L = i) /\
        omap (qry X) layouts = Some lqs /\
        (forall i C lq, i < x_out X -> nth_error (x_lcs X) i = Some C -> nth_error lqs i = Some lq -> forall x, In x (lc_vars C) -> exists s, lookup x lq = Some s) /\
        (forall k l, nth_error (x_calls X) k = Some l ->
           omap (sub_layout ctxs X layouts lqs k) (seq (start_of X k) (S (end_of X k - start_of X k))) = Some (ch k) /\ Inst n (cl_sub l) (map fst (ch k)) (GK k)) /\
        (forall i, 1 <= i <= x_out X -> own_gates cross ctxs X layouts lqs i = Some (OW i) /\
           Permutation (G i) (OW i ++ flat_map (fun k => if (start_of X k <? i) && (i <=? end_of X k)
             then map (ushift (alloc_of (sub_ctx X k) (ch k) (i - start_of X k))) (GK k (i - start_of X k)) else []) (seq 0 (length (x_calls X)))))
    end.
  Lemma Inst_deep : forall n id layouts G, Inst n id layouts G -> deep ctxs n id.
  Proof.
    induction n as [|n IH]; intros id layouts G H; [destruct H|]. cbn [Inst] in H. destruct H as [X [lqs [ch [GK [OW [HX [_ [_ [_ [_ [Hc _]]]]]]]]]]].
    exists X. split; auto. intros k l Hk. destruct (Hc k l Hk) as [_ Hi]. eauto.
  Qed.
  Lemma cell_lt : forall L o, cell L o -> lok L -> o < ly_size L.
  Proof.
    induction 1 as [c l p o v H|c l sz p subs o v H|c l sz p subs s of k o H Hc IH]; intros Hl; cbn [ly_size].
    - eapply nth_error_Some_lt; eauto.
    - inversion Hl; subst. eauto.
    - inversion Hl as [|? ? ? ? ? X H1 H2 H3 H4 H5]; subst. specialize (H5 _ _ _ H). specialize (IH (H4 _ _ _ H)). lia.
  Qed.

  (* ------------------------------------------------------------ flat gates *)
  Definition closed (segs : list Segment) : Prop := forall id s ch, nth_error segs id = Some s -> In ch (s_children s) -> fst ch < id.
  Lemma flat_ext (segs ext : list Segment) : closed segs -> forall fuel fuel' id, id < fuel -> id < fuel' -> id < length segs -> flat fuel (segs ++ ext) id = flat fuel' segs id.
  Proof.
    intros Hc. induction fuel as [|fuel IH]; intros fuel' id H1 H2 H3; [lia|]. destruct fuel' as [|fuel']; [lia|]. cbn [flat]. rewrite nth_error_app1 by auto.
    destruct (nth_error segs id) as [s|] eqn:Es; auto. f_equal. apply flat_map_ext_in. intros ch Hch. pose proof (Hc _ _ _ Es Hch). apply flat_map_ext_in. intros a _. f_equal. apply IH; lia.
  Qed.
  Lemma flat_fu (segs : list Segment) : closed segs -> forall fuel fuel' id, id < fuel -> id < fuel' -> id < length segs -> flat fuel segs id = flat fuel' segs id.
  Proof. intros H fuel fuel' id H1 H2 H3. rewrite <- (app_nil_r segs) at 1. apply flat_ext; auto. Qed.
  Lemma add_child_eq m sid a : add_child m sid a = child_add m sid [a].
  Proof. induction m as [|[s al] m IH]; cbn; auto. destruct (s =? sid); auto. rewrite IH; auto. Qed.
  Lemma omap_nth (l : list nat) : forall js r, omap (nth_error l) js = Some r -> r = map (fun j => nth j l 0) js.
  Proof.
    induction js as [|j js IH]; intros r H; cbn [omap] in H; [injection H as <-; auto|]. destruct (nth_error l j) as [x|] eqn:E1; [|discriminate]. cbn [obind] in H.
    destruct (omap (nth_error l) js) as [r'|]; [|discriminate]. cbn [obind] in H. injection H as <-. cbn [map]. f_equal; auto. symmetry. apply nth_error_nth. auto.
  Qed.
  Definition in_call (X : Ctx) (i : nat) (sb : Sub) : bool := (start_of X (sb_k sb) <? i) && (i <=? end_of X (sb_k sb)).
  Lemma children_flat {B} (g : nat -> Alloc -> list B) X i : forall sbs chs chs0, ofold (fun chs s =>
        if (start_of X (sb_k s) <? i) && (i <=? end_of X (sb_k s)) then
          let* l := nth_error (x_calls X) (sb_k s) in
          let* Xs := lookup (cl_sub l) ctxs in
          let* p := child_alloc cross X Xs s i in Some (add_child chs (fst p) (snd p))
        else Some chs) sbs chs0 = Some chs ->
    exists f, (forall sb, In sb sbs -> in_call X i sb = true -> exists l Y, nth_error (x_calls X) (sb_k sb) = Some l /\ lookup (cl_sub l) ctxs = Some Y /\ child_alloc cross X Y sb i = Some (f sb)) /\
      Permutation (cflat g chs) (cflat g chs0 ++ flat_map (fun sb => if in_call X i sb then g (fst (f sb)) (snd (f sb)) else []) sbs) /\
      (forall c, In c chs -> In c chs0 \/ In (fst c) (map fst chs0) \/ exists sb, In sb sbs /\ in_call X i sb = true /\ fst c = fst (f sb)).
  Proof.
    pose (f := fun sb : Sub => match nth_error (x_calls X) (sb_k sb) with
      | Some l => match lookup (cl_sub l) ctxs with Some Y => match child_alloc cross X Y sb i with Some p => p | None => (0, {| a_in := []; a_out := 0 |}) end | None => (0, {| a_in := []; a_out := 0 |}) end
      | None => (0, {| a_in := []; a_out := 0 |}) end).
    induction sbs as [|sb sbs IH]; intros chs chs0 H; cbn [ofold] in H; exists f.
    - apply Some_inj in H. subst. split; [intros ? []|]. split; [cbn; rewrite app_nil_r; auto|auto].
    - change ((start_of X (sb_k sb) <? i) && (i <=? end_of X (sb_k sb))) with (in_call X i sb) in H. destruct (in_call X i sb) eqn:Ec.
      + destruct (nth_error (x_calls X) (sb_k sb)) as [l|] eqn:El; [|discriminate]. cbn [obind] in H. destruct (lookup (cl_sub l) ctxs) as [Y|] eqn:EY; [|discriminate]. cbn [obind] in H.
        destruct (child_alloc cross X Y sb i) as [p|] eqn:Ep; [|discriminate]. cbn [obind] in H. assert (Hf : f sb = p) by (unfold f; rewrite El, EY, Ep; auto).
        destruct (IH _ _ H) as [f' [I1 [I2 I3]]].
        assert (Hff : forall sb', In sb' sbs -> in_call X i sb' = true -> f' sb' = f sb').
        { intros sb' Hs Hi. destruct (I1 sb' Hs Hi) as [l' [Y' [J1 [J2 J3]]]]. unfold f. rewrite J1, J2, J3. auto. }
        split; [|split].
        * intros sb' [<-|Hs] Hi; [exists l, Y; rewrite Hf; auto|]. destruct (I1 sb' Hs Hi) as [l' [Y' [J1 [J2 J3]]]]. exists l', Y'. rewrite <- (Hff sb' Hs Hi). auto.
        * rewrite I2, add_child_eq, child_add_flat. cbn [flat_map]. rewrite Ec, Hf, app_nil_r, <- app_assoc. apply Permutation_app_head. apply Permutation_app_head.
          erewrite flat_map_ext_in; [reflexivity|]. intros sb' Hs. cbn beta. destruct (in_call X i sb') eqn:E'; auto. rewrite (Hff sb' Hs E'). auto.
        * intros c Hc. destruct (I3 c Hc) as [Hc'|[Hc'|[sb' [J1 [J2 J3]]]]].
          -- rewrite add_child_eq in Hc'. apply child_add_in in Hc'. destruct Hc' as [Hc'|[Hc' _]]; [auto|]. right. right. exists sb. rewrite Hf. split; [left; auto|auto].
          -- apply in_map_iff in Hc'. destruct Hc' as [c' [E1 Hc']]. rewrite add_child_eq in Hc'. apply child_add_in in Hc'. destruct Hc' as [Hc'|[Hc' _]].
             ++ right. left. rewrite <- E1. apply in_map; auto.
             ++ right. right. exists sb. rewrite Hf. split; [left; auto|]. split; auto. congruence.
          -- right. right. exists sb'. rewrite <- (Hff sb' J1 J2). split; [right; auto|auto].
      + cbn [obind] in H. destruct (IH _ _ H) as [f' [I1 [I2 I3]]].
        assert (Hff : forall sb', In sb' sbs -> in_call X i sb' = true -> f' sb' = f sb').
        { intros sb' Hs Hi. destruct (I1 sb' Hs Hi) as [l' [Y' [J1 [J2 J3]]]]. unfold f. rewrite J1, J2, J3. auto. }
        split; [|split].
        * intros sb' [<-|Hs] Hi; [congruence|]. destruct (I1 sb' Hs Hi) as [l' [Y' [J1 [J2 J3]]]]. exists l', Y'. rewrite <- (Hff sb' Hs Hi). auto.
        * rewrite I2. cbn [flat_map]. rewrite Ec. cbn [app]. apply Permutation_app_head.
          erewrite flat_map_ext_in; [reflexivity|]. intros sb' Hs. cbn beta. destruct (in_call X i sb') eqn:E'; auto. rewrite (Hff sb' Hs E'). auto.
        * intros c Hc. destruct (I3 c Hc) as [Hc'|[Hc'|[sb' [J1 [J2 J3]]]]]; auto. right. right. exists sb'. rewrite <- (Hff sb' J1 J2). split; [right; auto|auto].
  Qed.
  Lemma seg_gates_own (L : nat) ins chs (gs : list UG) :
    Permutation (seg_gates {| s_ins := ins; s_outs := L; s_children := chs; s_muls := flat_map sel_mul gs; s_adds := flat_map sel_add gs; s_consts := flat_map sel_const gs; s_customs := flat_map sel_custom gs |}) gs.
  Proof. unfold seg_gates. cbn [s_muls s_adds s_consts s_customs]. exact (uni_perm gs). Qed.

  (* ------------------------------------------------------------ connecting *)
  Hypothesis Hok : forall id X, lookup id ctxs = Some X -> ctx_ok cross cs ctxs id X.
  (* the segments [ids] hold the gates G *)
  Definition holds (segs : list Segment) (ids : list nat) (G : nat -> list UG) : Prop :=
    forall j sid, nth_error ids (j - 1) = Some sid -> 1 <= j -> sid < length segs /\ flat (S sid) segs sid = G j.
  Lemma holds_app segs ext ids G : closed segs -> holds segs ids G -> holds (segs ++ ext) ids G.
  Proof. intros Hc H j sid Hj H1. destruct (H j sid Hj H1) as [A B]. split; [rewrite app_length; lia|]. rewrite <- B. apply flat_ext; auto. Qed.
  Definition rec_ok (n : nat) (rec : list Layout -> list Segment -> option (list Segment * list nat)) : Prop :=
    forall layouts segs segs' ids L0, rec layouts segs = Some (segs', ids) -> closed segs -> (forall L, In L layouts -> lok L) -> hd_error layouts = Some L0 ->
      exists ext G X, segs' = segs ++ ext /\ closed segs' /\ lookup (ly_circ L0) ctxs = Some X /\ Inst n (ly_circ L0) layouts G /\ length ids = x_out X /\ holds segs' ids G.
  Lemma sub_layout_lok X layouts lqs k j p : (forall i L, nth_error layouts i = Some L -> lok L) -> sub_layout ctxs X layouts lqs k j = Some p -> lok (fst p).
  Proof.
    intros Hl H. unfold sub_layout in H. destruct (nth_error (x_calls X) k) as [l|] eqn:El; [|discriminate]. cbn [obind] in H.
    destruct (lookup (cl_sub l) ctxs) as [Y|]; [|discriminate]. cbn [obind] in H. destruct (nth_error layouts j) as [L|] eqn:EL; [|discriminate]. cbn [obind] in H.
    assert (Hq : forall pos vs fs sv c ly r, query pos vs fs sv c ly = Some r -> lok (fst r)).
    { intros pos vs fs sv c ly r Hr. unfold query in Hr. destruct vs as [|v vs]; [apply Some_inj in Hr; subst; constructor|].
      destruct (block _) as [of n]. destruct (ofold _ _ _) as [pl|]; [|discriminate]. cbn [obind] in Hr. apply Some_inj in Hr. subst. constructor. }
    assert (Hq2 : forall o, (if j =? end_of X k then let* pos := nth_error lqs j in let* Cs := nth_error (x_lcs Y) (x_out Y) in query pos (cl_outs l) (outputs (x_c Y)) (lc_vars Cs) (cl_sub l) (x_out Y)
               else if j =? start_of X k then let* pos := nth_error lqs j in let* Cs := nth_error (x_lcs Y) 0 in query pos (cl_ins l) (seq 1 (length (cl_ins l))) (lc_vars Cs) (cl_sub l) 0 else None) = Some o -> lok (fst o)).
    { intros o Ho. destruct (j =? end_of X k); [|destruct (j =? start_of X k); [|discriminate]];
        (destruct (nth_error lqs j) as [pos|]; [|discriminate]; cbn [obind] in Ho); [destruct (nth_error (x_lcs Y) (x_out Y)) as [Cs|]; [|discriminate]|destruct (nth_error (x_lcs Y) 0) as [Cs|]; [|discriminate]]; cbn [obind] in Ho; eauto. }
    destruct L as [c ly pl|c ly sz pl subs]; [eauto|]. destruct (find (fun s => snd s =? k) (rev subs)) as [[[Ls of] k']|] eqn:Ef; [|eauto].
    apply Some_inj in H. subst p. cbn [fst]. apply find_some in Ef. destruct Ef as [Ef _]. apply in_rev in Ef. pose proof (Hl _ _ EL) as HL. inversion HL; subst. eauto.
  Qed.
  Lemma sub_layout_start X id layouts lqs k l p : ctx_ok cross cs ctxs id X -> (forall i L, nth_error layouts i = Some L -> lok L /\ ly_circ L = id /\ ly_layer L = i) -> lookup id ctxs = Some X ->
    nth_error (x_calls X) k = Some l -> sub_layout ctxs X layouts lqs k (start_of X k) = Some p -> ly_circ (fst p) = cl_sub l.
  Proof.
    intros K Hl HX El H. unfold sub_layout in H. rewrite El in H. cbn [obind] in H. destruct (ok_sub _ _ _ _ _ K _ _ El) as [_ [Y [HY Hd]]]. rewrite HY in H. cbn [obind] in H.
    pose proof (ok_out _ _ _ _ _ (Hok _ _ HY)) as Ho. assert (Hne : start_of X k <> end_of X k) by (unfold end_of, start_of; rewrite Hd; lia).
    destruct (nth_error layouts (start_of X k)) as [L|] eqn:EL; [|discriminate]. cbn [obind] in H. apply Nat.eqb_neq in Hne. rewrite Hne, Nat.eqb_refl in H.
    assert (Hq : forall pos vs fs sv c ly r, query pos vs fs sv c ly = Some r -> ly_circ (fst r) = c).
    { intros pos vs fs sv c ly r Hr. unfold query in Hr. destruct vs as [|v vs]; [apply Some_inj in Hr; subst; auto|].
      destruct (block _) as [of n]. destruct (ofold _ _ _) as [pl|]; [|discriminate]. cbn [obind] in Hr. apply Some_inj in Hr. subst. auto. }
    assert (Hq2 : forall o, (let* pos := nth_error lqs (start_of X k) in let* Cs := nth_error (x_lcs Y) 0 in query pos (cl_ins l) (seq 1 (length (cl_ins l))) (lc_vars Cs) (cl_sub l) 0) = Some o -> ly_circ (fst o) = cl_sub l).
    { intros o Ho'. destruct (nth_error lqs (start_of X k)) as [pos|]; [|discriminate]; cbn [obind] in Ho'. destruct (nth_error (x_lcs Y) 0) as [Cs|]; [|discriminate]. cbn [obind] in Ho'. eauto. }
    destruct L as [c ly pl|c ly sz pl subs]; [auto|]. destruct (find (fun s => snd s =? k) (rev subs)) as [[[Ls of] k']|] eqn:Ef; [|auto].
    exfalso. apply find_some in Ef. cbn [snd] in Ef. destruct Ef as [Ef Ek]. apply Nat.eqb_eq in Ek. subst k'. apply in_rev in Ef. destruct (Hl _ _ EL) as [HL [H2 H3]]. cbn in H2, H3. subst.
    inversion HL as [|? ? ? ? ? X0 A1 A2 A3 A4 A5]; subst. rewrite HX in A1. apply Some_inj in A1. subst. specialize (A5 _ _ _ Ef). lia.
  Qed.
  (* one call *)
  Definition call_inst (n : nat) (X : Ctx) layouts lqs (segs : list Segment) (k : nat) (sb : Sub) (d : list (Layout * nat) * (nat -> list UG)) : Prop :=
    sb_k sb = k /\ omap (sub_layout ctxs X layouts lqs k) (seq (start_of X k) (S (end_of X k - start_of X k))) = Some (fst d) /\ sb_offs sb = map snd (fst d) /\
    exists l, nth_error (x_calls X) k = Some l /\ Inst n (cl_sub l) (map fst (fst d)) (snd d) /\ length (sb_ids sb) = getn (x_deps X) k /\ holds segs (sb_ids sb) (snd d).
  Lemma connect_subs_inst n rec X id layouts lqs : rec_ok n rec -> ctx_ok cross cs ctxs id X -> lookup id ctxs = Some X ->
    (forall i L, nth_error layouts i = Some L -> lok L /\ ly_circ L = id /\ ly_layer L = i) -> forall ks segs segs' sbs, (forall k, In k ks -> k < length (x_calls X)) ->
    connect_subs rec ctxs X layouts lqs ks segs = Some (segs', sbs) -> closed segs ->
    exists ext ds, segs' = segs ++ ext /\ closed segs' /\ length sbs = length ks /\ length ds = length ks /\
      forall t k sb d, nth_error ks t = Some k -> nth_error sbs t = Some sb -> nth_error ds t = Some d -> call_inst n X layouts lqs segs' k sb d.
  Proof.
    intros Hrec K HX Hl. induction ks as [|k ks IH]; intros segs segs' sbs Hks H Hc; cbn [connect_subs] in H.
    - injection H as <- <-. exists [], []. rewrite app_nil_r. repeat split; auto; destruct t; discriminate.
    - destruct (omap (sub_layout ctxs X layouts lqs k) _) as [ls|] eqn:Els; [|discriminate]. cbn [obind] in H. destruct (rec (map fst ls) segs) as [[segs1 ids]|] eqn:Er; [|discriminate]. cbn [obind fst snd] in H.
      destruct (connect_subs rec ctxs X layouts lqs ks segs1) as [[segs2 sbs2]|] eqn:Ec; [|discriminate]. cbn [obind fst snd] in H. injection H as <- <-.
      destruct (nth_error_Some_ex (x_calls X) k (Hks k (or_introl eq_refl))) as [l El].
      assert (Hlls : length ls = S (end_of X k - start_of X k)) by (erewrite omap_length by eauto; apply seq_length).
      destruct (nth_error_Some_ex ls 0) as [p0 Hp0]; [lia|].
      assert (Hs0 : sub_layout ctxs X layouts lqs k (start_of X k) = Some p0).
      { destruct (omap_at _ _ _ 0 (start_of X k) Els) as [y [Y1 Y2]]; [auto|]. rewrite Hp0 in Y1. apply Some_inj in Y1. subst. auto. }
      assert (Hh : hd_error (map fst ls) = Some (fst p0)) by (destruct ls; [discriminate|]; cbn in Hp0 |- *; apply Some_inj in Hp0; subst; auto).
      assert (Hlk : forall L, In L (map fst ls) -> lok L).
      { intros L HL. apply in_map_iff in HL. destruct HL as [p [<- Hp]]. apply In_nth_error in Hp. destruct Hp as [t Ht].
        destruct (nth_error_Some_ex (seq (start_of X k) (S (end_of X k - start_of X k))) t) as [j Hj]; [rewrite seq_length, <- Hlls; eapply nth_error_Some_lt; eauto|].
        destruct (omap_at _ _ _ t j Els Hj) as [y [Y1 Y2]]. rewrite Ht in Y1. apply Some_inj in Y1. subst. eapply sub_layout_lok; [|eauto]. intros i L' HL'. apply (Hl i L' HL'). }
      destruct (Hrec _ _ _ _ _ Er Hc Hlk Hh) as [ext1 [G [Y [-> [C1 [HY [HI [Hlen Hh1]]]]]]]].
      rewrite (sub_layout_start _ _ _ _ _ _ _ K Hl HX El Hs0) in HI, HY.
      destruct (IH _ _ _ (fun k' Hk' => Hks k' (or_intror Hk')) Ec C1) as [ext2 [ds [-> [C2 [L1 [L2 Hd]]]]]].
      exists (ext1 ++ ext2), ((ls, G) :: ds). rewrite app_assoc. split; auto. split; auto. split; [cbn; lia|]. split; [cbn; lia|].
      intros [|t] k' sb d Hk Hsb Hdd; cbn [nth_error] in Hk, Hsb, Hdd; [|eauto].
      apply Some_inj in Hk, Hsb, Hdd. subst k' sb d. split; auto. split; auto. split; auto. exists l. split; auto. split; [exact HI|]. cbn [sb_ids snd fst]. split; [|apply holds_app; auto].
      destruct (ok_sub _ _ _ _ _ K _ _ El) as [_ [Y' [HY' ->]]]. rewrite HY in HY'. apply Some_inj in HY'. subst. auto.
  Qed.
  Lemma nth_seq_omap {A B} (f : A -> option B) l r k y : omap f l = Some r -> nth_error r k = Some y -> exists x, nth_error l k = Some x /\ f x = Some y.
  Proof.
    intros H Hk. destruct (nth_error_Some_ex l k) as [x Hx]; [rewrite <- (omap_length _ _ _ H); eapply nth_error_Some_lt; eauto|]. exists x. split; auto.
    destruct (omap_at _ _ _ k x H Hx) as [y' [Y1 Y2]]. rewrite Hk in Y1. apply Some_inj in Y1. subst. auto.
  Qed.
  Lemma nth_firstn_lt {A} (l : list A) : forall n i, i < n -> nth_error (firstn n l) i = nth_error l i.
  Proof. induction l as [|x l IH]; intros [|n] [|i] H; try lia; auto. cbn. apply IH. lia. Qed.
  Theorem connect_inst : forall n, rec_ok n (connect cross n ctxs).
  Proof.
    induction n as [|n IH]; intros layouts segs segs' ids L0 H Hc Hlk Hh; [discriminate|]. cbn [connect] in H. rewrite Hh in H. cbn [obind] in H.
    destruct (guard _) as [[]|] eqn:Eg in H; [|discriminate]. cbn [obind] in H. destruct (lookup (ly_circ L0) ctxs) as [X|] eqn:HX; [|discriminate]. cbn [obind] in H.
    destruct (guard (length layouts =? S (x_out X))) as [[]|] eqn:Eg2 in H; [|discriminate]. cbn [obind] in H.
    change (fun L : Layout => let* C := nth_error (x_lcs X) (ly_layer L) in layout_query L (lc_vars C)) with (qry X) in H.
    destruct (omap (qry X) layouts) as [lqs|] eqn:Elq; [|discriminate]. cbn [obind] in H.
    destruct (guard (forallb (fun p => forallb _ _) _)) as [[]|] eqn:Eg3 in H; [|discriminate]. cbn [obind] in H.
    destruct (connect_subs _ _ _ _ _ _ _) as [[segs1 sbs]|] eqn:Ec in H; [|discriminate]. cbn [obind fst snd] in H.
    destruct (omap (make_segment cross ctxs X layouts lqs sbs) (seq 1 (x_out X))) as [new|] eqn:En; [|discriminate]. cbn [obind] in H. apply Some_inj in H. injection H as <- <-.
    unfold guard in Eg, Eg2, Eg3. destruct (forallb _ _) eqn:Ef in Eg; [|discriminate]. destruct (_ =? _) eqn:El in Eg2; [|discriminate]. apply Nat.eqb_eq in El. destruct (forallb _ _) eqn:Ef3 in Eg3; [|discriminate]. clear Eg Eg2 Eg3.
    pose proof (Hok _ _ HX) as K.
    assert (Hl : forall i L, nth_error layouts i = Some L -> lok L /\ ly_circ L = ly_circ L0 /\ ly_layer L = i).
    { intros i L HL. split; [apply Hlk; eapply nth_error_In; eauto|]. rewrite forallb_forall in Ef. specialize (Ef (i, L)). cbn [fst snd] in Ef.
      rewrite andb_true_iff, !Nat.eqb_eq in Ef. apply Ef. apply nth_error_In with (n := i). apply combine_at; auto. apply nth_error_seq. eapply nth_error_Some_lt; eauto. }
    assert (Hks : forall k, In k (seq 0 (length (x_calls X))) -> k < length (x_calls X)) by (intros k Hk; apply in_seq in Hk; lia).
    destruct (connect_subs_inst n _ X _ layouts lqs IH K HX Hl _ _ _ _ Hks Ec Hc) as [ext [ds [-> [C1 [L1 [L2 Hd]]]]]]. rewrite seq_length in L1, L2.
    assert (Hnl : length new = x_out X) by (erewrite omap_length by eauto; apply seq_length).
    assert (Hd' : forall k l, nth_error (x_calls X) k = Some l -> exists sb d, nth_error sbs k = Some sb /\ nth_error ds k = Some d /\ call_inst n X layouts lqs (segs ++ ext) k sb d).
    { intros k l Hk. pose proof (nth_error_Some_lt _ _ _ Hk) as Hlt. destruct (nth_error_Some_ex sbs k) as [sb Hsb]; [lia|]. destruct (nth_error_Some_ex ds k) as [d Hdd]; [lia|].
      exists sb, d. split; auto. split; auto. apply (Hd k); auto. apply nth_error_seq; auto. }
    (* the children of a new segment *)
    assert (Hch : forall i s, 1 <= i <= x_out X -> make_segment cross ctxs X layouts lqs sbs i = Some s -> forall c, In c (s_children s) -> fst c < length (segs ++ ext)).
    { intros i s Hi Hs c Hcc. unfold make_segment in Hs. destruct (nth_error (x_used X) i) as [u|]; [|discriminate]. cbn [obind] in Hs. destruct (omap _ _) as [ins|] in Hs; [|discriminate]. cbn [obind] in Hs.
      destruct (from_vec cross ins) as [ins'|]; [|discriminate]. cbn [obind] in Hs. destruct (nth_error layouts i) as [L|]; [|discriminate]. cbn [obind] in Hs. destruct (children_at _ _ _ _ _) as [chs|] eqn:Ech in Hs; [|discriminate]. cbn [obind] in Hs.
      destruct (own_gates _ _ _ _ _ _) as [gs|] in Hs; [|discriminate]. cbn [obind] in Hs. apply Some_inj in Hs. subst s. cbn [s_children] in Hcc.
      destruct (children_flat (B := nat) (fun _ _ => []) _ _ _ _ _ Ech) as [f [F1 [_ F3]]]. destruct (F3 c Hcc) as [[]|[[]|[sb [Hsb [Hin Hcf]]]]].
      destruct (F1 sb Hsb Hin) as [l [Y [Hl1 [Hl2 Hca]]]]. apply In_nth_error in Hsb. destruct Hsb as [t Ht]. pose proof (nth_error_Some_lt _ _ _ Ht) as Hlt.
      destruct (nth_error_Some_ex ds t) as [d Hdd]; [lia|]. assert (Hcall : call_inst n X layouts lqs (segs ++ ext) t sb d) by (apply (Hd t); auto; apply nth_error_seq; lia).
      destruct Hcall as [S1 [S2 [S3 [l' [S4 [S5 [S6 S7]]]]]]]. unfold child_alloc in Hca. destruct (nth_error (sb_ids sb) _) as [sid|] eqn:Esid in Hca; [|discriminate]. cbn [obind] in Hca.
      destruct (nth_error (x_used Y) _); [|discriminate]. cbn [obind] in Hca. destruct (omap _ _) as [ofs|] in Hca; [|discriminate]. cbn [obind] in Hca. destruct (from_vec cross ofs); [|discriminate]. cbn [obind] in Hca.
      destruct (nth_error (sb_offs sb) _); [|discriminate]. cbn [obind] in Hca. apply Some_inj in Hca. rewrite Hcf, <- Hca. cbn [fst]. unfold in_call in Hin. apply andb_true_iff in Hin. destruct Hin as [Hin1 _]. apply Nat.ltb_lt in Hin1.
      apply (S7 (i - start_of X (sb_k sb)) sid); [auto|lia]. }
    assert (C2 : closed ((segs ++ ext) ++ new)).
    { intros id s c Hs Hcc. destruct (Nat.lt_ge_cases id (length (segs ++ ext))) as [Hlt|Hge].
      - rewrite nth_error_app1 in Hs by auto. eauto.
      - rewrite nth_error_app2 in Hs by auto. destruct (nth_seq_omap _ _ _ _ _ En Hs) as [i [Hi Hm]]. assert (Hi' := nth_error_Some_lt _ _ _ Hi). rewrite seq_length in Hi'. rewrite nth_error_seq in Hi by auto. apply Some_inj in Hi.
        assert (fst c < length (segs ++ ext)) by (eapply (Hch i); eauto; lia). lia. }
    set (S0 := (segs ++ ext) ++ new) in *. set (n0 := length (segs ++ ext)) in *.
    exists (ext ++ new), (fun i => flat (S (n0 + (i - 1))) S0 (n0 + (i - 1))), X. split; [unfold S0; rewrite app_assoc; auto|]. split; [auto|]. split; [auto|]. split; [|split].
    2:{ rewrite seq_length. auto. }
    2:{ intros j sid Hj H1. pose proof (nth_error_Some_lt _ _ _ Hj) as Hlt. rewrite seq_length in Hlt. rewrite nth_error_seq in Hj by auto. apply Some_inj in Hj. subst sid. split; auto. unfold S0. rewrite app_length. fold n0. lia. }
    pose (dd := fun k => nth k ds ([], fun _ => [])).
    assert (Hdd : forall k d, nth_error ds k = Some d -> dd k = d) by (intros k d Hk; apply nth_error_nth; auto).
    pose (OW := fun i => match own_gates cross ctxs X layouts lqs i with Some g => g | None => [] end).
    exists X, lqs, (fun k => fst (dd k)), (fun k => snd (dd k)), OW. split; auto. split; auto. split; auto. split; auto. split; [|split].
    - intros i C lq Hi HC Hlq x Hx. rewrite forallb_forall in Ef3. specialize (Ef3 (C, lq)). cbn [fst snd] in Ef3. rewrite forallb_forall in Ef3.
      assert (Hin : In (C, lq) (firstn (x_out X) (combine (x_lcs X) lqs))).
      { apply nth_error_In with (n := i). rewrite nth_firstn_lt by auto. apply combine_at; auto. }
      specialize (Ef3 Hin x Hx). destruct (lookup x lq) as [s|]; [eauto|discriminate].
    - intros k l Hk. destruct (Hd' k l Hk) as [sb [d [Hsb [Hde [S1 [S2 [S3 [l' [S4 [S5 _]]]]]]]]]]. rewrite (Hdd _ _ Hde). rewrite Hk in S4. apply Some_inj in S4. subst l'. auto.
    - intros i Hi. destruct (nth_error_Some_ex new (i - 1)) as [s Hs]; [lia|]. destruct (nth_seq_omap _ _ _ _ _ En Hs) as [i' [Hi' Hm]]. rewrite nth_error_seq in Hi' by lia. apply Some_inj in Hi'. replace (1 + (i - 1)) with i in Hi' by lia. subst i'.
      assert (Hns : nth_error S0 (n0 + (i - 1)) = Some s). { unfold S0. rewrite nth_error_app2 by (fold n0; lia). fold n0. replace (n0 + (i - 1) - n0) with (i - 1) by lia. auto. }
      specialize (Hch i s Hi Hm). unfold make_segment in Hm. destruct (nth_error (x_used X) i) as [u|]; [|discriminate]. cbn [obind] in Hm. destruct (omap _ _) as [ins|] in Hm; [|discriminate]. cbn [obind] in Hm.
      destruct (from_vec cross ins) as [ins'|]; [|discriminate]. cbn [obind] in Hm. destruct (nth_error layouts i) as [L|]; [|discriminate]. cbn [obind] in Hm. destruct (children_at _ _ _ _ _) as [chs|] eqn:Ech in Hm; [|discriminate]. cbn [obind] in Hm.
      destruct (own_gates _ _ _ _ _ _) as [gs|] eqn:Eow in Hm; [|discriminate]. cbn [obind] in Hm. apply Some_inj in Hm. split; [unfold OW; rewrite Eow; auto|].
      cbn [flat]. rewrite Hns. rewrite <- Hm at 1. rewrite seg_gates_own. unfold OW. rewrite Eow. apply Permutation_app_head.
      transitivity (cflat (fun id a => map (ushift a) (flat (S id) (segs ++ ext) id)) (s_children s)).
      { unfold cflat. apply Permutation_refl'. apply flat_map_ext_in. intros c Hcc. apply flat_map_ext_in. intros a _. f_equal. specialize (Hch c Hcc). apply flat_ext; auto. fold n0 in Hch. lia. }
      rewrite <- Hm. cbn [s_children]. destruct (children_flat (fun id a => map (ushift a) (flat (S id) (segs ++ ext) id)) _ _ _ _ _ Ech) as [f [F1 [F2 _]]]. rewrite F2. cbn [cflat flat_map app].
      apply Permutation_refl'. assert (Hgen : forall (A : Type) (g : nat -> list A) (h : Sub -> list A) (l : list Sub) m, length l = m -> (forall k sb, nth_error l k = Some sb -> h sb = g k) -> flat_map h l = flat_map g (seq 0 m)).
      { intros A g h l m Hm' Hg. assert (Hgg : forall b, (forall k sb, nth_error l k = Some sb -> h sb = g (b + k)) -> flat_map h l = flat_map g (seq b m)).
        { clear -Hm'. revert m Hm'. induction l as [|x l IHl]; intros [|m] Hm' b Hb; try discriminate; auto. cbn [flat_map seq]. rewrite (Hb 0 x eq_refl), Nat.add_0_r. f_equal. apply IHl; [cbn in Hm'; lia|].
          intros k sb Hk. rewrite (Hb (S k) sb Hk). f_equal. lia. }
        apply (Hgg 0). auto. }
      apply Hgen; auto. intros k sb Hsb. pose proof (nth_error_Some_lt _ _ _ Hsb) as Hlt. destruct (nth_error_Some_ex ds k) as [d Hde]; [lia|].
      assert (Hcall : call_inst n X layouts lqs (segs ++ ext) k sb d) by (apply (Hd k); auto; apply nth_error_seq; lia). destruct Hcall as [S1 [S2 [S3 [l [S4 [S5 [S6 S7]]]]]]].
      unfold in_call. rewrite S1. destruct ((start_of X k <? i) && (i <=? end_of X k)) eqn:Ein; auto. rewrite (Hdd _ _ Hde).
      destruct (F1 sb (nth_error_In _ _ Hsb)) as [l' [Y [T1 [T2 T3]]]]; [unfold in_call; rewrite S1; auto|]. rewrite S1, S4 in T1. apply Some_inj in T1. subst l'.
      unfold child_alloc in T3. rewrite S1 in T3. destruct (nth_error (sb_ids sb) _) as [sid|] eqn:Esid in T3; [|discriminate]. cbn [obind] in T3.
      destruct (nth_error (x_used Y) _) as [u'|] eqn:Eu in T3; [|discriminate]. cbn [obind] in T3. destruct (omap _ _) as [ofs|] eqn:Eof in T3; [|discriminate]. cbn [obind] in T3. unfold from_vec in T3. destruct (cross || _); [|discriminate]. cbn [obind] in T3.
      destruct (nth_error (sb_offs sb) _) as [o|] eqn:Eo in T3; [|discriminate]. cbn [obind] in T3. apply Some_inj in T3. rewrite <- T3. cbn [fst snd].
      apply andb_true_iff in Ein. destruct Ein as [Ein1 Ein2]. apply Nat.ltb_lt in Ein1. destruct (S7 (i - start_of X k) sid) as [_ S8]; [auto|lia|]. rewrite S8. f_equal. f_equal.
      unfold alloc_of, sub_ctx. rewrite S4, T2. unfold getn. rewrite (nth_error_nth _ _ 0 Eu). f_equal.
      + rewrite (omap_nth _ _ _ Eof), S3. auto.
      + unfold off. rewrite <- S3. symmetry. apply nth_error_nth. auto.
  Qed.
  Lemma connect_sizes n layouts segs segs' ids L0 X : connect cross n ctxs layouts segs = Some (segs', ids) -> hd_error layouts = Some L0 -> lookup (ly_circ L0) ctxs = Some X ->
    forall i sid, 1 <= i -> nth_error ids (i - 1) = Some sid -> exists s L, nth_error segs' sid = Some s /\ nth_error layouts i = Some L /\ s_outs s = ly_size L /\
      (i = 1 -> nth_error (s_ins s) 0 = Some (ly_size L0)).
  Proof.
    destruct n as [|n]; intros H Hh HX i sid Hi Hsid; [discriminate|]. cbn [connect] in H. rewrite Hh in H. cbn [obind] in H.
    destruct (guard _) as [[]|] eqn:Eg in H; [|discriminate]. cbn [obind] in H. rewrite HX in H. cbn [obind] in H.
    destruct (guard (length layouts =? S (x_out X))) as [[]|] eqn:Eg2 in H; [|discriminate]. cbn [obind] in H.
    destruct (omap _ layouts) as [lqs|] eqn:Elq in H; [|discriminate]. cbn [obind] in H.
    destruct (guard (forallb (fun p => forallb _ _) _)) as [[]|] eqn:Eg3 in H; [|discriminate]. cbn [obind] in H.
    destruct (connect_subs _ _ _ _ _ _ _) as [[segs1 sbs]|] eqn:Ec in H; [|discriminate]. cbn [obind fst snd] in H.
    destruct (omap (make_segment cross ctxs X layouts lqs sbs) (seq 1 (x_out X))) as [new|] eqn:En; [|discriminate]. cbn [obind] in H. apply Some_inj in H. injection H as <- <-.
    pose proof (nth_error_Some_lt _ _ _ Hsid) as Hlt. rewrite seq_length in Hlt. rewrite nth_error_seq in Hsid by auto. apply Some_inj in Hsid. subst sid.
    destruct (nth_error_Some_ex new (i - 1) Hlt) as [s Hs]. destruct (nth_seq_omap _ _ _ _ _ En Hs) as [i' [Hi' Hm]]. pose proof (nth_error_Some_lt _ _ _ Hi') as Hlt'. rewrite seq_length in Hlt'.
    rewrite nth_error_seq in Hi' by auto. apply Some_inj in Hi'. replace (1 + (i - 1)) with i in Hi' by lia. subst i'.
    unfold make_segment in Hm. destruct (nth_error (x_used X) i) as [u|] eqn:Eu; [|discriminate]. cbn [obind] in Hm. destruct (omap _ _) as [ins|] eqn:Eins in Hm; [|discriminate]. cbn [obind] in Hm.
    unfold from_vec in Hm. destruct (cross || _); [|discriminate]. cbn [obind] in Hm. destruct (nth_error layouts i) as [L|]; [|discriminate]. cbn [obind] in Hm. destruct (children_at _ _ _ _ _) as [chs|] eqn:Ech in Hm; [|discriminate]. cbn [obind] in Hm.
    destruct (own_gates _ _ _ _ _ _) as [gs|] eqn:Eow in Hm; [|discriminate]. cbn [obind] in Hm. apply Some_inj in Hm.
    exists s, L. split; [rewrite nth_error_app2 by lia; replace (length segs1 + (i - 1) - length segs1) with (i - 1) by lia; auto|]. split; auto. subst s. cbn [s_outs s_ins]. split; auto.
    intros ->. pose proof (ok_used1 _ _ _ _ _ (Hok _ _ HX) 1 ltac:(lia)) as Hu. unfold getn in Hu. rewrite (nth_error_nth _ _ 0 Eu) in Hu. assert (u = 0) by lia. subst u. cbn [Nat.sub seq rev app] in Eins.
    cbn [omap] in Eins. destruct layouts as [|L1 layouts]; [discriminate|]. cbn in Hh. apply Some_inj in Hh. subst L1. cbn in Eins. apply Some_inj in Eins. subst ins. auto.
  Qed.
End LayInst.
