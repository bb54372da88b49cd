(* From the layers of slots of the root circuit to runs of the layered circuit. *)
From Verif Require Import Prelude Field Zp Sorting Expr Topo Ir IrInst InputMapping Layered SolveDuplicates LayeredFacts LayeredOpt LayeredOptFacts LayeredExpand LayeredCommon IrFacts Sim Layering LaySem LaySched LayInst LayLayout LayOwn LayView.
Open Scope nat_scope.

Section LayersSem.
  Context {F : Fld}.
  Add Field LRf : (fth F).
  Notation UG := (UG F). Notation Segment := (Segment F).
  Variable E : Env F.
  Lemma layers_iff (segs : list Segment) : forall ids cur cur', layers_sem E segs ids cur cur' <->
    exists nx, length nx = length ids /\ cur' = rev nx ++ cur /\ forall k id, nth_error ids k = Some id -> exists v, nth_error nx k = Some v /\ layer_sem E segs id (rev (firstn k nx) ++ cur) v.
  Proof.
    induction ids as [|id ids IH]; intros cur cur'; split.
    - intros H. inversion H; subst. exists []. repeat split; auto. intros [|k] id Hk; discriminate.
    - intros [nx [H1 [-> _]]]. destruct nx; [|discriminate]. constructor.
    - intros H. inversion H as [|? ? ? nxt ? H1 H2]; subst. apply IH in H2. destruct H2 as [nx [L1 [-> L2]]]. exists (nxt :: nx). split; [cbn; auto|]. split; [cbn [rev]; rewrite <- app_assoc; auto|].
      intros [|k] id' Hk; cbn [nth_error] in Hk; [apply Some_inj in Hk; subst id'; exists nxt; split; auto|]. destruct (L2 k id' Hk) as [v [V1 V2]]. exists v. split; auto. cbn [firstn rev]. rewrite <- app_assoc. exact V2.
    - intros [nx [L1 [-> L2]]]. destruct nx as [|nxt nx]; [discriminate|]. destruct (L2 0 id eq_refl) as [v [V1 V2]]. cbn [nth_error] in V1. apply Some_inj in V1. subst v. econstructor; [exact V2|].
      cbn [rev]. rewrite <- app_assoc. apply IH. exists nx. split; [cbn in L1; lia|]. split; auto. intros k id' Hk. destruct (L2 (S k) id' Hk) as [v [V1 V2']]. exists v. split; auto. cbn [firstn rev] in V2'. rewrite <- app_assoc in V2'. exact V2'.
  Qed.
  Lemma rev_firstn_nth (vals : list (list F)) k j : j <= k -> k < length vals -> nth j (rev (firstn (S k) vals)) [] = nth (k - j) vals [].
  Proof.
    intros Hj Hk. assert (Hl : length (firstn (S k) vals) = S k) by (rewrite firstn_length; lia). rewrite rev_nth by lia. rewrite Hl. replace (S k - S j) with (k - j) by lia.
    rewrite <- (firstn_skipn (S k) vals) at 2. rewrite app_nth1 by lia. auto.
  Qed.
  Lemma contrib_gsum cur o : forall (gs : list UG) ps, Forall2 (contrib E cur) gs ps -> gsum E (wireF cur) (at_o o gs) (at_out o ps).
  Proof.
    intros gs ps HF. induction HF as [|g p gs ps Hg HF IH]; [exists []; split; [constructor|auto]|]. apply contrib_w in Hg. destruct Hg as [H1 [c [H2 H3]]]. unfold at_out, at_o. cbn [filter]. rewrite H1.
    destruct (g_out g =? o); [|exact IH]. destruct IH as [vs [V1 V2]]. exists (snd p :: vs). split; [constructor; auto; exists c; auto|]. cbn [map]. unfold at_out in V2. change (fadd (snd p) (fsum F (map snd (filter (fun q => fst q =? o) ps))) = fadd (snd p) (fsum F vs)). rewrite V2. auto.
  Qed.
  Lemma gsum_contrib cur : forall (gs : list UG) (f : nat -> F), (forall o, gsum E (wireF cur) (at_o o gs) (f o)) -> exists ps, Forall2 (contrib E cur) gs ps /\ forall o, at_out o ps = f o.
  Proof.
    induction gs as [|g gs IH]; intros f H.
    - exists []. split; auto. intros o. specialize (H o). cbn in H. apply gsum_nil in H. rewrite H. auto.
    - pose proof (H (g_out g)) as Hg. unfold at_o in Hg. cbn [filter] in Hg. rewrite Nat.eqb_refl in Hg. destruct Hg as [vs [Hv Hf]]. inversion Hv as [|? v ? vs' Hg Hr]; subst.
      destruct (IH (fun o => if o =? g_out g then fsum F vs' else f o)) as [ps [P1 P2]].
      { intros o. destruct (Nat.eqb_spec o (g_out g)) as [->|Hne]; [exists vs'; auto|]. specialize (H o). unfold at_o in H. cbn [filter] in H. rewrite (proj2 (Nat.eqb_neq (g_out g) o)) in H by auto. exact H. }
      exists ((g_out g, v) :: ps). split; [constructor; auto; apply contrib_w; destruct Hg as [c [C1 C2]]; split; cbn [fst snd]; auto; exists c; auto|].
      intros o. unfold at_out. cbn [filter fst]. specialize (P2 o). unfold at_out in P2. destruct (Nat.eqb_spec (g_out g) o) as [He|Hne].
      + cbn [map snd]. rewrite <- He in *. rewrite Nat.eqb_refl in P2. rewrite Hf. change (fadd v (fsum F (map snd (filter (fun p => fst p =? g_out g) ps))) = fadd v (fsum F vs')). rewrite P2. auto.
      + rewrite (proj2 (Nat.eqb_neq o (g_out g))) in P2 by auto. exact P2.
  Qed.
End LayersSem.

Lemma ne_firstn {A} (l : list A) : forall k j, j < k -> nth_error (firstn k l) j = nth_error l j.
Proof. induction l as [|x l IH]; intros [|k] [|j] H; cbn; auto; try lia. apply IH. lia. Qed.
Lemma ne_skipn {A} (l : list A) : forall k j, nth_error (skipn k l) j = nth_error l (k + j).
Proof. induction l as [|x l IH]; intros [|k] j; cbn; auto. destruct j; auto. Qed.
Lemma sk_skipn {A} (l : list A) : forall a b, skipn a (skipn b l) = skipn (b + a) l.
Proof. induction l as [|x l IH]; intros a [|b]; cbn; auto. destruct a; auto. Qed.
Lemma undup_prefix : forall l acc t, NoDup (rev acc ++ l) -> exists r, undup (l ++ t) acc = rev acc ++ l ++ r.
Proof.
  induction l as [|x l IH]; intros acc t H; cbn [app].
  - revert acc H. induction t as [|y t IHt]; intros acc H; cbn [undup]; [exists []; rewrite !app_nil_r; auto|]. destruct (memb y acc) eqn:Em; [apply IHt; auto|].
    destruct (IHt (y :: acc)) as [r Hr]; [|exists (y :: r); rewrite Hr; cbn [rev app]; rewrite <- app_assoc; auto]. rewrite app_nil_r in *. apply NoDup_rev. constructor; [|rewrite <- (rev_involutive acc); apply NoDup_rev; auto].
    intros Hy. apply memb_spec in Hy. congruence.
  - cbn [undup]. assert (Hx : memb x acc = false).
    { destruct (memb x acc) eqn:Em; auto. apply memb_spec in Em. apply NoDup_app_iff in H. destruct H as [_ [_ H]]. exfalso. apply (H x); [apply in_rev in Em; auto|left; auto]. }
    rewrite Hx. destruct (IH (x :: acc) t) as [r Hr]; [cbn [rev]; rewrite <- app_assoc; exact H|]. exists r. rewrite Hr. cbn [rev]. rewrite <- app_assoc. auto.
Qed.
Lemma lookup_rev {A} (x : nat) (l : list (nat * A)) : NoDup (keys l) -> lookup x (rev l) = lookup x l.
Proof.
  intros H. destruct (lookup x l) as [v|] eqn:El.
  - apply In_lookup; [unfold keys in *; rewrite map_rev; apply NoDup_rev; auto|]. apply -> in_rev. apply lookup_In; auto.
  - destruct (lookup x (rev l)) as [v|] eqn:Er; auto. apply lookup_In in Er. apply in_rev in Er. apply In_lookup in Er; auto. congruence.
Qed.

Section LayRoot.
  Context {F : Fld}.
  Notation DI := (DestI F true).
  Notation Ctx := (Ctx (F := F)).
  Notation UG := (UG F).
  Variable cross : bool.
  Variable EMPTY : nat.
  Variable reorder : bool.

  Lemma merge_nil add : exists r, merge_layouts [] add = Some (map Some add ++ repeat None r).
  Proof. unfold merge_layouts. cbn [forallb guard obind combine seq length isort ofold fill]. eexists. reflexivity. Qed.
  (* what compiling a circuit leaves behind *)
  Record compiled (rc : RootCircuit DI) (lc : LCircuit F) (im : InputMapping) (ctxs : list (nat * Ctx)) (X : Ctx) (layouts : list Layout) (G : nat -> list UG) : Prop := {
    co_wf : wf_circuits DI (circuits rc);
    co_ok : forall id X, lookup id ctxs = Some X -> ctx_ok cross (circuits rc) ctxs id X;
    co_X : lookup 0 ctxs = Some X;
    co_inst : Inst cross ctxs (S (length (circuits rc))) 0 layouts G;
    co_layers : length (l_layers lc) = x_out X;
    co_flat : forall i sid, 1 <= i -> nth_error (l_layers lc) (i - 1) = Some sid -> exists s L, nth_error (l_segs lc) sid = Some s /\ nth_error layouts i = Some L /\ s_outs s = ly_size L /\ flat (length (l_segs lc)) (l_segs lc) sid = G i;
    co_in : exists p, nth_error layouts 0 = Some (LDense 0 0 p) /\ input_size lc = Some (length p) /\ next_size im = length p;
    co_map : length (mapping im) = num_inputs (x_c X) /\ forall t, t < num_inputs (x_c X) -> nth_error (mapping im) t = Some (match slotq X layouts 0 (S t) with Some s => s | None => EMPTY end);
    co_out : exists C r, nth_error (x_lcs X) (x_out X) = Some C /\ nth_error layouts (x_out X) = Some (LDense 0 (x_out X) (map Some (seq 0 (length (lc_vars C))) ++ repeat None r));
    co_pub : l_pub lc = num_public_inputs rc;
    co_num : let h := if cc_at (x_cc X) (x_out X) then 1 else 0 in l_actual lc = length (outputs (x_c X)) + h /\ l_zeroes lc = expected_num_output_zeroes rc + h
  }.
  Lemma compile_inv (rc : RootCircuit DI) lc im : NoDup (keys (circuits rc)) -> validate DI rc = true -> layer_compile cross EMPTY reorder rc = Some (lc, im) -> exists ctxs X layouts G, compiled rc lc im ctxs X layouts G.
  Proof.
    intros Hk Hv H. destruct (validate_wf DI rc Hk Hv) as [Hwf [[rank [Hrank _]] _]]. unfold layer_compile in H. set (fuel := S (length (circuits rc))) in H.
    destruct (topo fuel (circuits rc) 0 []) as [order|] eqn:Et; [|discriminate]. cbn [obind] in H. destruct (all_layers cross (circuits rc) order) as [[ctxs0 has]|] eqn:Ea; [|discriminate]. cbn [obind fst snd] in H.
    destruct (omap _ ctxs0) as [ctxs|] eqn:Ep in H; [|discriminate]. cbn [obind] in H. destruct (layers_ok cross (circuits rc) Hwf rank Hrank _ _ _ _ _ Et Ea Ep) as [Hok Hhas].
    destruct (lookup 0 ctxs) as [X|] eqn:HX; [|discriminate]. cbn [obind] in H. destruct (omap (solve fuel reorder ctxs 0) (seq 0 (S (x_out X)))) as [layouts|] eqn:El; [|discriminate]. cbn [obind] in H.
    destruct (connect cross fuel ctxs layouts []) as [[segs ids]|] eqn:Ec; [|discriminate]. cbn [obind fst snd] in H. destruct (nth_error (x_lcs X) 0) as [C0|] eqn:EC0; [|discriminate]. cbn [obind] in H.
    destruct (nth_error layouts 0) as [L0|] eqn:EL0; [|discriminate]. cbn [obind] in H. destruct (input_order EMPTY X C0 L0) as [io|] eqn:Eio; [|discriminate]. cbn [obind] in H.
    destruct (nth_error ids 0) as [sid|] eqn:Esid; [|discriminate]. cbn [obind] in H. destruct (nth_error segs sid) as [s0|] eqn:Es0; [|discriminate]. cbn [obind] in H. destruct (nth_error (s_ins s0) 0) as [l0|] eqn:El0; [|discriminate]. cbn [obind] in H.
    apply Some_inj in H. injection H as <- <-.
    assert (Hsol : forall i L, nth_error layouts i = Some L -> i <= x_out X /\ solve fuel reorder ctxs 0 i = Some L).
    { intros i L HL. pose proof (omap_length _ _ _ El) as Hlen. rewrite seq_length in Hlen. assert (Hi : i < S (x_out X)) by (rewrite <- Hlen; eapply nth_error_Some_lt; eauto). split; [lia|].
      pose proof (nth_error_seq 0 (S (x_out X)) i Hi) as Hs. destruct (omap_at _ _ _ i _ El Hs) as [L' [A B]]. rewrite HL in A. apply Some_inj in A. subst L'. exact B. }
    assert (Hlok : forall L, In L layouts -> lok ctxs L).
    { intros L HL. apply In_nth_error in HL. destruct HL as [i HL]. destruct (Hsol _ _ HL) as [_ HS]. apply (solve_lok cross (circuits rc) ctxs Hok) in HS. apply HS. }
    destruct (Hsol _ _ EL0) as [_ HS0]. apply (solve_lok cross (circuits rc) ctxs Hok) in HS0. destruct HS0 as [_ [Hc0 Hl0]].
    assert (Hhd : hd_error layouts = Some L0) by (destruct layouts; auto).
    destruct (connect_inst cross (circuits rc) ctxs Hok fuel layouts [] segs ids L0 Ec ltac:(intros [|?] ? ? HH; discriminate) Hlok Hhd) as [ext [G [X' [He [Hcl [HX' [HI [Hids Hh]]]]]]]].
    rewrite Hc0 in HX', HI. rewrite HX in HX'. apply Some_inj in HX'. subst X'. assert (HXc : lookup (ly_circ L0) ctxs = Some X) by (rewrite Hc0; auto).
    pose proof (connect_sizes cross (circuits rc) ctxs Hok fuel layouts [] segs ids L0 X Ec Hhd HXc) as Hsz.
    exists ctxs, X, layouts, G. pose proof (Hok _ _ HX) as K. split; auto.
    - intros i sd Hi Hn. cbn [l_layers l_segs] in *. destruct (Hsz i sd Hi Hn) as [s [L [A [B [D _]]]]]. exists s, L. split; auto. split; auto. split; auto. destruct (Hh i sd Hn Hi) as [Q1 Q2]. rewrite <- Q2. apply flat_fu; auto; lia.
    - unfold input_order in Eio. destruct L0 as [c0 y0 p|]; [|discriminate]. cbn [ly_circ ly_layer] in Hc0, Hl0. subst c0 y0. exists p. split; auto.
      destruct (Hsz 1 sid ltac:(lia) Esid) as [s [L [A [_ [_ B]]]]]. specialize (B eq_refl). rewrite Es0 in A. apply Some_inj in A. subst s. rewrite El0 in B. apply Some_inj in B. subst l0. cbn [ly_size].
      split; auto. unfold input_size, seg_of. cbn [l_layers l_segs]. destruct ids as [|i0 ids0]; [discriminate|]. cbn [nth_error] in Esid. apply Some_inj in Esid. subst i0. rewrite Es0. cbn [obind]. exact El0.
    - cbn [mapping]. destruct (Inst_lq cross ctxs _ _ _ _ _ HI HX) as [_ Hlq]. destruct (Hlq 0 L0 EL0) as [_ [_ [_ [C [lq [Q1 [Q2 _]]]]]]]. rewrite EC0 in Q1. apply Some_inj in Q1. subst C.
      pose proof (query_nodup _ _ _ Q2) as Hn. unfold input_order in Eio. destruct L0 as [c0 y0 p|]; [|discriminate]. pose proof Q2 as Q3. unfold layout_query in Q2. destruct (omap _ _) as [l1|] eqn:El1 in Q2; [|discriminate]. rewrite El1 in Eio. cbn [obind] in Eio, Q2.
      destruct (guard _) as [u|] in Q2; [|discriminate]. cbn [obind] in Q2. apply Some_inj in Q2, Eio. subst l1 io. split; [rewrite map_length, seq_length; auto|].
      intros t Ht. rewrite nth_error_map, nth_error_seq by auto. cbn [option_map Nat.add]. f_equal. unfold slotq. rewrite EL0, EC0. cbn [obind]. rewrite Q3. cbn [obind]. rewrite (lookup_rev _ _ Hn). auto.
    - pose proof (omap_length _ _ _ El) as Hlen. rewrite seq_length in Hlen. destruct (nth_error_Some_ex layouts (x_out X)) as [Lo HLo]; [lia|]. destruct (Hsol _ _ HLo) as [_ HSo].
      unfold fuel in HSo. cbn [solve] in HSo. rewrite HX in HSo. cbn [obind] in HSo. rewrite !Nat.eqb_refl, orb_true_r in HSo. cbn [andb] in HSo. unfold solve_fixed in HSo. rewrite HX in HSo. cbn [obind] in HSo.
      destruct (nth_error (x_lcs X) (x_out X)) as [Co|] eqn:ECo; [|discriminate]. cbn [obind] in HSo. destruct (merge_nil (seq 0 (length (lc_vars Co)))) as [r Hr]. rewrite Hr in HSo. cbn [obind] in HSo. apply Some_inj in HSo. subst Lo. exists Co, r. auto.
    - rewrite <- (Hhas X eq_refl). auto.
  Qed.

  Section Root.
    Variables (rc : RootCircuit DI) (lc : LCircuit F) (im : InputMapping) (ctxs : list (nat * Ctx)) (X : Ctx) (layouts : list Layout) (G : nat -> list UG).
    Hypothesis HC : compiled rc lc im ctxs X layouts G.
    Hypothesis Hnd : NoDup (outputs (x_c X)).
    Let Hwf := co_wf _ _ _ _ _ _ _ HC.
    Let Hok := co_ok _ _ _ _ _ _ _ HC.
    Let HX := co_X _ _ _ _ _ _ _ HC.
    Let HI := co_inst _ _ _ _ _ _ _ HC.
    Let K : ctx_ok cross (circuits rc) ctxs 0 X := Hok _ _ HX.
    Definition hc : nat := if cc_at (x_cc X) (x_out X) then 1 else 0.

    Lemma r_lq i : i <= x_out X -> exists L C lq, nth_error layouts i = Some L /\ lok ctxs L /\ ly_circ L = 0 /\ ly_layer L = i /\ nth_error (x_lcs X) i = Some C /\ layout_query L (lc_vars C) = Some lq /\
      (i < x_out X -> forall x, In x (lc_vars C) -> exists s, lookup x lq = Some s) /\ forall x, slotq X layouts i x = lookup x lq.
    Proof.
      intros Hi. destruct (Inst_lq cross ctxs _ _ _ _ _ HI HX) as [Hlen Hlq]. destruct (nth_error_Some_ex layouts i) as [L HL]; [lia|]. destruct (Hlq i L HL) as [A1 [A2 [A3 [C [lq [A4 [A5 A6]]]]]]]. exists L, C, lq. repeat (split; [assumption|]).
      intros x. unfold slotq. rewrite HL, A4. cbn [obind]. rewrite A5. auto.
    Qed.
    Lemma in_cell0 t : t < num_inputs (x_c X) -> exists s L, slotq X layouts 0 (S t) = Some s /\ nth_error layouts 0 = Some L /\ cell L s.
    Proof.
      intros Ht. pose proof (ok_out _ _ _ _ _ K) as Ho. destruct (r_lq 0 ltac:(lia)) as [L [C [lq [A1 [A2 [A3 [A4 [A5 [A6 [A7 A8]]]]]]]]]]. destruct (A7 ltac:(lia) (S t)) as [s Hs].
      { destruct (ok_lc _ _ _ _ _ K _ _ A5) as [Hv _]. unfold vars_at in Hv. destruct (nth_error (x_cc X) 0) as [o|] eqn:Eo; [|discriminate]. cbn [obind] in Hv. apply Some_inj in Hv. rewrite <- Hv, undup_in, !in_app_iff, filter_In, in_seq. left. right. right.
        pose proof (nv_eq _ _ _ _ _ K) as Hnv. split; [lia|]. replace 0 with (getn (x_min X) (S t)); [apply (layer_min _ _ _ _ _ _ K); lia|]. apply (ok_in _ _ _ _ _ K). lia. }
      exists s, L. rewrite A8. split; auto. split; auto. apply (query_lookup _ _ _ _ _ A6) in Hs. destruct Hs as [v [V1 V2]]. apply cell_cases. left. eauto.
    Qed.
    Lemma in_inj0 x y s : slotq X layouts 0 x = Some s -> slotq X layouts 0 y = Some s -> x = y.
    Proof.
      destruct (r_lq 0 ltac:(lia)) as [L [C [lq [A1 [A2 [A3 [A4 [A5 [A6 [A7 A8]]]]]]]]]]. rewrite !A8. intros H1 H2. apply (query_lookup _ _ _ _ _ A6) in H1, H2. destruct H1 as [v [V1 V2]], H2 as [v' [V1' V2']].
      destruct (co_in _ _ _ _ _ _ _ HC) as [p [P1 _]]. rewrite A1 in P1. apply Some_inj in P1. subst L. apply dense_slots in V1, V1'. congruence.
    Qed.
    Lemma cell0_in o L : nth_error layouts 0 = Some L -> cell L o -> exists t, t < num_inputs (x_c X) /\ slotq X layouts 0 (S t) = Some o.
    Proof.
      intros HL Hc. pose proof (ok_out _ _ _ _ _ K) as Ho. destruct (r_lq 0 ltac:(lia)) as [L' [C [lq [A1 [A2 [A3 [A4 [A5 [A6 [A7 A8]]]]]]]]]]. rewrite HL in A1. apply Some_inj in A1. subst L'.
      destruct (co_in _ _ _ _ _ _ _ HC) as [p [P1 _]]. rewrite HL in P1. apply Some_inj in P1. subst L. apply cell_cases in Hc. destruct Hc as [[v Hv]|[s [of [k [s' [Hm _]]]]]]; [|destruct Hm].
      assert (Hx : exists x, nth_error (lc_vars C) v = Some x).
      { unfold layout_query in A6. destruct (omap _ _) as [l1|] eqn:E1 in A6; [|discriminate]. apply In_nth_error in Hv. destruct Hv as [q Hq]. destruct (omap_at _ _ _ _ _ E1 Hq) as [y [_ Hy]]. cbn [snd] in Hy. destruct (nth_error (lc_vars C) v) as [x|]; [eauto|discriminate]. }
      destruct Hx as [x Hx]. assert (Hs : slotq X layouts 0 x = Some o) by (rewrite A8; apply (query_lookup _ _ _ _ _ A6); eauto).
      assert (Hxi : 1 <= x <= num_inputs (x_c X)); [|exists (x - 1); split; [lia|]; replace (S (x - 1)) with x by lia; auto].
      apply nth_error_In in Hx. destruct (ok_lc _ _ _ _ _ K _ _ A5) as [Hvv _]. unfold vars_at in Hvv. destruct (nth_error (x_cc X) 0) as [oc|] eqn:Eo; [|discriminate]. cbn [obind] in Hvv. apply Some_inj in Hvv. rewrite <- Hvv, undup_in, !in_app_iff, filter_In, in_seq in Hx.
      destruct oc as [c|]; [destruct (ok_cc _ _ _ _ _ K _ _ Eo); lia|]. rewrite (proj2 (Nat.eqb_neq 0 (x_out X))) in Hx by lia. destruct Hx as [[[]|[[]|[Hx1 Hx2]]]|[]].
      assert (Hxr : 1 <= x < x_nv X) by lia. pose proof (layer_ge _ _ _ _ _ _ _ K Hxr Hx2) as Hmin. destruct (kind_var _ _ _ _ _ _ K Hxr) as [kd [Hk Hk']]. destruct kd as [|e|c|k].
      - specialize (Hk' eq_refl). lia.
      - pose proof (ok_expr _ _ _ _ _ K _ _ Hk). lia.
      - pose proof (ok_coef _ _ _ _ _ K _ _ Hk). lia.
      - pose proof (ok_osub _ _ _ _ _ K _ _ Hk) as He. rewrite He in Hmin. destruct (sub_call _ _ _ _ _ _ _ K Hk) as [l [t [Hl _]]]. destruct (ok_sub _ _ _ _ _ K _ _ Hl) as [_ [Y [HY Hd]]]. pose proof (ok_out _ _ _ _ _ (Hok _ _ HY)). unfold end_of in Hmin. lia.
    Qed.
    Lemma out_vars : exists C L rest, nth_error (x_lcs X) (x_out X) = Some C /\ nth_error layouts (x_out X) = Some L /\ length (lc_vars C) <= ly_size L /\
      lc_vars C = match nth_error (x_cc X) (x_out X) with Some (Some c) => [cc_id c] | _ => [] end ++ outputs (x_c X) ++ rest /\
      forall v x, nth_error (lc_vars C) v = Some x -> slotq X layouts (x_out X) x = Some v.
    Proof.
      destruct (co_out _ _ _ _ _ _ _ HC) as [C [r [C1 C2]]]. destruct (r_lq (x_out X) ltac:(lia)) as [L' [C' [lq [A1 [A2 [A3 [A4 [A5 [A6 [A7 A8]]]]]]]]]]. rewrite C1 in A5. apply Some_inj in A5. subst C'. rewrite C2 in A1. apply Some_inj in A1. subst L'.
      destruct (ok_lc _ _ _ _ _ K _ _ C1) as [Hv _]. unfold vars_at in Hv. destruct (nth_error (x_cc X) (x_out X)) as [oc|] eqn:Eo; [|discriminate]. cbn [obind] in Hv. apply Some_inj in Hv. rewrite Nat.eqb_refl in Hv.
      destruct (undup_prefix (match oc with Some c => [cc_id c] | None => [] end ++ outputs (x_c X)) [] (filter (fun x => in_layer cross X x (x_out X)) (seq 1 (x_nv X - 1)))) as [rest Hrest].
      { cbn [rev app]. apply NoDup_app_iff. split; [destruct oc; repeat constructor; cbn; tauto|]. split; auto. intros x Hx Hxo. destruct oc as [c|]; [|destruct Hx]. destruct Hx as [<-|[]]. destruct (ok_cc _ _ _ _ _ K _ _ Eo) as [_ [Hid _]].
        pose proof (wf_out _ _ (wf_each _ _ Hwf _ _ (ok_c _ _ _ _ _ K))) as Ho. rewrite Forall_forall in Ho. specialize (Ho _ Hxo). rewrite (nv_eq _ _ _ _ _ K) in Hid. lia. }
      rewrite <- app_assoc in Hrest. rewrite Hrest in Hv. cbn [rev app] in Hv. rewrite <- app_assoc in Hv.
      exists C, (LDense 0 (x_out X) (map Some (seq 0 (length (lc_vars C))) ++ repeat None r)), rest. split; auto. split; auto. split; [cbn [ly_size]; rewrite app_length, map_length, seq_length; lia|]. split; [rewrite <- Hv; destruct oc; auto|].
      intros v x Hx. rewrite A8. apply (query_lookup _ _ _ _ _ A6). exists v. split; auto. apply dense_slots. assert (Hl : v < length (lc_vars C)) by (eapply nth_error_Some_lt; eauto).
      rewrite nth_error_app1 by (rewrite map_length, seq_length; auto). rewrite nth_error_map, nth_error_seq by auto. auto.
    Qed.
    Lemma out_slot t x : nth_error (outputs (x_c X)) t = Some x -> slotq X layouts (x_out X) x = Some (hc + t).
    Proof.
      intros H. destruct out_vars as [C [L [rest [_ [_ [_ [E1 E2]]]]]]]. apply E2. rewrite E1. unfold hc, cc_at. destruct (nth_error (x_cc X) (x_out X)) as [[c|]|]; cbn [app nth_error Nat.add]; apply nth_error_app_l; auto.
    Qed.
    Lemma cc_slot c : nth_error (x_cc X) (x_out X) = Some (Some c) -> slotq X layouts (x_out X) (cc_id c) = Some 0.
    Proof. intros H. destruct out_vars as [C [L [rest [_ [_ [_ [E1 E2]]]]]]]. apply E2. rewrite E1, H. auto. Qed.
    Lemma out_size : exists L, nth_error layouts (x_out X) = Some L /\ hc + length (outputs (x_c X)) <= ly_size L.
    Proof.
      destruct out_vars as [C [L [rest [_ [E3 [E4 [E1 E2]]]]]]]. exists L. split; auto. rewrite E1, !app_length in E4. unfold hc, cc_at. destruct (nth_error (x_cc X) (x_out X)) as [[c|]|]; cbn [length] in E4; lia.
    Qed.
    Lemma im_range : next_size im <= EMPTY -> in_range EMPTY im /\ injective EMPTY im /\ forall t, t < num_inputs (x_c X) -> exists s, slotq X layouts 0 (S t) = Some s /\ nth_error (mapping im) t = Some s /\ s <> EMPTY.
    Proof.
      intros HE. destruct (co_in _ _ _ _ _ _ _ HC) as [p [P1 [P2 P3]]]. destruct (co_map _ _ _ _ _ _ _ HC) as [M1 M2].
      assert (Hs : forall t, t < num_inputs (x_c X) -> exists s, slotq X layouts 0 (S t) = Some s /\ nth_error (mapping im) t = Some s /\ s < next_size im).
      { intros t Ht. destruct (in_cell0 t Ht) as [s [L [S1 [S2 S3]]]]. exists s. split; auto. specialize (M2 t Ht). rewrite S1 in M2. split; auto. rewrite P1 in S2. apply Some_inj in S2. subst L. rewrite P3. eapply (cell_lt ctxs) in S3; [exact S3|constructor]. }
      split; [split; auto; apply Forall_forall; intros m Hm; apply In_nth_error in Hm; destruct Hm as [t Hm]|split].
      - assert (Ht : t < num_inputs (x_c X)) by (rewrite <- M1; eapply nth_error_Some_lt; eauto). destruct (Hs t Ht) as [s [_ [S2 S3]]]. right. congruence.
      - intros i j m Hi Hj _. assert (Hi' : i < num_inputs (x_c X)) by (rewrite <- M1; eapply nth_error_Some_lt; eauto). assert (Hj' : j < num_inputs (x_c X)) by (rewrite <- M1; eapply nth_error_Some_lt; eauto).
        destruct (Hs i Hi') as [s [S1 [S2 _]]], (Hs j Hj') as [s' [S1' [S2' _]]]. rewrite Hi in S2. rewrite Hj in S2'. apply Some_inj in S2, S2'. subst s s'. pose proof (in_inj0 _ _ _ S1 S1'). lia.
      - intros t Ht. destruct (Hs t Ht) as [s [S1 [S2 S3]]]. exists s. split; auto. split; auto. lia.
    Qed.

    Lemma map_agree (ins ins' : list F) : next_size im <= EMPTY -> map_inputs EMPTY f0 im ins = Some ins' ->
      length ins = num_inputs (x_c X) /\ length ins' = next_size im /\ forall t s, nth_error (mapping im) t = Some s -> nth_error ins' s = nth_error ins t.
    Proof.
      intros HE Hm. destruct (co_map _ _ _ _ _ _ _ HC) as [M1 M2]. destruct (im_range HE) as [R1 [R2 R3]].
      assert (Hl : length ins = cur_size im) by (unfold map_inputs in Hm; destruct (Nat.eqb_spec (length ins) (length (mapping im))); [auto|discriminate]). split; [unfold cur_size in Hl; congruence|].
      destruct (map_inputs_spec EMPTY f0 im ins R1 Hl) as [r [Q1 [Q2 _]]]. rewrite Hm in Q1. apply Some_inj in Q1. subst r. split; auto.
      intros t s Hs. assert (Ht : t < num_inputs (x_c X)) by (rewrite <- M1; eapply nth_error_Some_lt; eauto). destruct (R3 t Ht) as [s' [S1 [S2 S3]]]. rewrite Hs in S2. apply Some_inj in S2. subst s'.
      apply (map_inputs_delivers EMPTY f0 im ins ins' t s R1 R2 Hm Hs S3).
    Qed.

    Section Runs.
      Variable E : Env F.
      Variables (ins ins' : list F).
      (* the values the layered circuit is given agree with the inputs wherever the mapping puts one; padding is arbitrary *)
      Hypothesis Hli : length ins = num_inputs (x_c X).
      Hypothesis Hls : length ins' = next_size im.
      Hypothesis Hagr : forall t s, nth_error (mapping im) t = Some s -> nth_error ins' s = nth_error ins t.
      Lemma ins_len : length ins = num_inputs (x_c X) /\ input_size lc = Some (length ins').
      Proof. destruct (co_in _ _ _ _ _ _ _ HC) as [p [P1 [P2 P3]]]. split; auto. congruence. Qed.
      Lemma ins_at t s : t < num_inputs (x_c X) -> slotq X layouts 0 (S t) = Some s -> nth_error ins' s = nth_error ins t.
      Proof.
        intros Ht Hs. apply Hagr. destruct (co_map _ _ _ _ _ _ _ HC) as [M1 M2]. rewrite (M2 t Ht), Hs. auto.
      Qed.
      Lemma out_split (l : list F) (z n h : nat) : z <= n -> let all := firstn n (skipn h l) in
        firstn (n + h - (z + h)) (skipn (z + h) l) = skipn z all /\ firstn (z + h) l = firstn h l ++ firstn z all.
      Proof.
        intros Hz. cbn zeta. split.
        - rewrite skipn_firstn_comm, sk_skipn. replace (n + h - (z + h)) with (n - z) by lia. replace (h + z) with (z + h) by lia. auto.
        - rewrite firstn_firstn. replace (Nat.min z n) with z by lia. replace (z + h) with (h + z) by lia. rewrite <- (firstn_skipn h l) at 1. rewrite firstn_app, firstn_firstn. f_equal; [f_equal; lia|]. rewrite firstn_length.
          destruct (Nat.le_gt_cases h (length l)) as [Hh|Hh]; [f_equal; lia|]. rewrite skipn_all2 by lia. rewrite !firstn_nil. auto.
      Qed.
      (* the last layer, as outputs and combined constraint *)
      Lemma last_layer (V : nat -> nat -> F) (w : nat -> F) (all out : list F) : agrees X layouts V ins all w -> (forall o, o < length out -> nth_error out o = Some (V (x_out X) o)) -> hc + length (outputs (x_c X)) <= length out ->
        all = firstn (length (outputs (x_c X))) (skipn hc out) /\ forallb (is0 F) (firstn hc out) = is0 F (w (x_out X)).
      Proof.
        intros [_ [A2 [_ [A4 [A5 A6]]]]] Ho Hl. split.
        - apply list_eq_nth_error. intros t. destruct (Nat.lt_ge_cases t (length (outputs (x_c X)))) as [Ht|Ht].
          + destruct (nth_error_Some_ex (outputs (x_c X)) t Ht) as [x Hx]. rewrite (A4 t x _ Hx (out_slot _ _ Hx)). rewrite ne_firstn by auto. rewrite ne_skipn. symmetry. apply Ho. lia.
          + rewrite !(proj2 (nth_error_None _ _)); auto; rewrite ?firstn_length, ?A2; lia.
        - unfold hc in *. destruct (cc_at (x_cc X) (x_out X)) eqn:Ec.
          + apply cc_at_iff in Ec. destruct Ec as [c Hc]. rewrite (A5 _ _ _ Hc (cc_slot _ Hc)). destruct out as [|o0 out]; [cbn in Hl; lia|]. specialize (Ho 0 ltac:(cbn; lia)). cbn [nth_error] in Ho. apply Some_inj in Ho. subst o0. cbn [firstn forallb]. apply andb_true_r.
          + rewrite (A6 _ Ec). cbn [firstn forallb]. symmetry. apply is0_spec. auto.
      Qed.
      Lemma lay_ge i : i <= x_out X -> exists L, nth_error layouts i = Some L /\ lok ctxs L.
      Proof. intros Hi. destruct (r_lq i Hi) as [L [C [lq [A1 [A2 _]]]]]. eauto. Qed.
      Lemma lay_lt i L : nth_error layouts i = Some L -> i <= x_out X.
      Proof. intros HL. destruct (Inst_lq cross ctxs _ _ _ _ _ HI HX) as [Hlen _]. apply nth_error_Some_lt in HL. lia. Qed.
      (* what the gates of a layer read *)
      Lemma reads (vals : list (list F)) i g w : 1 <= i <= x_out X -> i - 1 < length vals -> In g (G i) -> In w (k_ins (g_in g)) ->
        wireF (rev (firstn i vals)) w = nth (io w) (nth (i - 1 - il w) vals []) f0.
      Proof.
        intros Hi Hv Hg Hw. destruct (inst_gok cross (circuits rc) ctxs Hwf Hok _ _ _ _ HI X HX i g Hi Hg) as [_ Hr]. destruct (Hr w Hw) as [H1 _]. unfold wireF. f_equal. replace i with (S (i - 1)) at 1 by lia. apply rev_firstn_nth; lia.
      Qed.
      Theorem root_A outs sat : (exists r, e_rnd E r) -> lrun E lc ins' outs sat -> exists all w, LS cross ctxs E (S (length (circuits rc))) 0 ins all w /\ length all = length (outputs (x_c X)) /\
        expected_num_output_zeroes rc <= length all /\ outs = skipn (expected_num_output_zeroes rc) all /\ sat = is0 F (w (x_out X)) && forallb (is0 F) (firstn (expected_num_output_zeroes rc) all).
      Proof.
        intros Hr [cur [out [R1 [R2 [R3 [R4 [-> ->]]]]]]]. destruct ins_len as [Hl1 Hl2]. pose proof (ok_out _ _ _ _ _ K) as Ho1. pose proof (co_layers _ _ _ _ _ _ _ HC) as Hly. apply layers_iff in R2. destruct R2 as [nx [N1 [-> N2]]].
        set (vals := ins' :: nx). set (V := fun i o => nth o (nth i vals []) f0).
        assert (Hv : length vals = S (x_out X)) by (cbn; congruence).
        assert (Hlayer : forall i, 1 <= i <= x_out X -> exists L ps, nth_error layouts i = Some L /\ lok ctxs L /\ Forall2 (contrib E (rev (firstn i vals))) (G i) ps /\ nth i vals [] = map (fun o => at_out o ps) (seq 0 (ly_size L))).
        { intros i Hi. destruct (nth_error_Some_ex (l_layers lc) (i - 1)) as [sid Hs]; [lia|]. destruct (co_flat _ _ _ _ _ _ _ HC i sid ltac:(lia) Hs) as [s [L [B1 [B2 [B3 B4]]]]]. destruct (N2 _ _ Hs) as [v [V1 [s' [ps [V2 [V3 V4]]]]]].
          rewrite B1 in V2. apply Some_inj in V2. subst s'. destruct (lay_ge i ltac:(lia)) as [L' [L1 L2]]. rewrite B2 in L1. apply Some_inj in L1. subst L'. exists L, ps. split; auto. split; auto. rewrite B4 in V3. split.
          - replace (rev (firstn i vals)) with (rev (firstn (i - 1) nx) ++ [ins']); auto. destruct i as [|i]; [lia|]. unfold vals. replace (S i - 1) with i by lia. reflexivity.
          - rewrite <- B3, <- V4. destruct i as [|i]; [lia|]. unfold vals. cbn [nth]. replace (S i - 1) with i in V1 by lia. apply nth_error_nth. auto. }
        assert (HSat : Sat E layouts G V).
        { intros i L o Hi HL Hc. pose proof (lay_lt _ _ HL) as Hi2. destruct (Hlayer i ltac:(lia)) as [L' [ps [L1 [L2 [L3 L4]]]]]. rewrite HL in L1. apply Some_inj in L1. subst L'.
          assert (Hos : o < ly_size L) by (apply (cell_lt ctxs); auto). replace (V i o) with (at_out o ps).
          - apply gsum_ext with (w := wireF (rev (firstn i vals))); [|apply contrib_gsum; auto]. intros g w Hg Hw. apply filter_In in Hg. destruct Hg as [Hg _]. unfold rd, V. apply (reads vals i g w); auto; lia.
          - unfold V. rewrite L4. rewrite nth_indep with (d' := at_out 0 ps) by (rewrite map_length, seq_length; auto). rewrite (map_nth (fun o => at_out o ps)), seq_nth by auto. auto. }
        destruct (inst_A cross (circuits rc) ctxs Hwf Hok E Hr _ _ _ _ HI X V HX HSat) as [ins2 [all [w [HLS Hag]]]].
        assert (Hins : ins2 = ins).
        { destruct Hag as [A1 [_ [A3 _]]]. apply list_eq_nth_error. intros t. destruct (Nat.lt_ge_cases t (num_inputs (x_c X))) as [Ht|Ht].
          - destruct (in_cell0 t Ht) as [s [L [S1 _]]]. rewrite (A3 t s Ht S1). rewrite <- (ins_at t s Ht S1). unfold V, vals. cbn [nth]. destruct (nth_error_Some_ex ins t) as [x Hx]; [lia|]. rewrite <- (ins_at t s Ht S1) in Hx. rewrite Hx. f_equal. apply nth_error_nth. auto.
          - rewrite !(proj2 (nth_error_None _ _)); auto; lia. }
        subst ins2. exists all, w. split; auto. destruct (co_num _ _ _ _ _ _ _ HC) as [C1 C2]. fold hc in C1, C2.
        assert (Hout : out = nth (x_out X) vals []).
        { destruct (x_out X) as [|q] eqn:Eq; [lia|]. unfold vals. cbn [nth]. rewrite <- (rev_involutive nx). assert (Hrl : length (rev nx) = S q) by (rewrite rev_length; lia). destruct (rev nx) as [|a r]; [discriminate|]. cbn [hd_error app] in R3. apply Some_inj in R3. subst a. cbn [rev]. rewrite app_nth2 by (rewrite rev_length; cbn in Hrl; lia). rewrite rev_length. replace (q - length r) with 0 by (cbn in Hrl; lia). auto. }
        destruct (Hlayer (x_out X) ltac:(lia)) as [L [ps [L1 [L2 [L3 L4]]]]]. destruct out_size as [L' [L1' Hsz]]. rewrite L1 in L1'. apply Some_inj in L1'. subst L'.
        destruct (last_layer V w all out Hag) as [Q1 Q2].
        { intros o Ho. unfold V. rewrite <- Hout. apply nth_error_nth'. auto. }
        { rewrite Hout, L4, map_length, seq_length. auto. }
        destruct Hag as [_ [A2 _]]. split; auto. split; [lia|]. rewrite C1, C2. destruct (out_split out (expected_num_output_zeroes rc) (length (outputs (x_c X))) hc ltac:(lia)) as [D1 D2]. rewrite <- Q1 in D1, D2. rewrite D1, D2, forallb_app, Q2. auto.
      Qed.
      Theorem root_B all w : LS cross ctxs E (S (length (circuits rc))) 0 ins all w -> expected_num_output_zeroes rc <= length all ->
        lrun E lc ins' (skipn (expected_num_output_zeroes rc) all) (is0 F (w (x_out X)) && forallb (is0 F) (firstn (expected_num_output_zeroes rc) all)).
      Proof.
        intros HLS Hz. destruct (inst_B cross (circuits rc) ctxs Hwf Hok E _ _ _ _ HI X ins all w HX HLS) as [V [HSat Hag]]. destruct ins_len as [Hl1 Hl2]. pose proof (ok_out _ _ _ _ _ K) as Ho1. pose proof (co_layers _ _ _ _ _ _ _ HC) as Hly.
        set (Vn := fun i o => if i =? 0 then nth o ins' f0 else match at_o o (G i) with [] => f0 | _ => V i o end).
        set (sz := fun i => match nth_error layouts i with Some L => ly_size L | None => 0 end).
        set (nx := map (fun i => map (Vn i) (seq 0 (sz i))) (seq 1 (x_out X))). set (vals := ins' :: nx).
        assert (Hnl : length nx = x_out X) by (unfold nx; rewrite map_length, seq_length; auto). assert (Hv : length vals = S (x_out X)) by (cbn; congruence).
        assert (Hvi : forall i, 1 <= i <= x_out X -> nth i vals [] = map (Vn i) (seq 0 (sz i))).
        { intros i Hi. destruct i as [|i]; [lia|]. unfold vals. cbn [nth]. unfold nx. apply nth_error_nth. rewrite nth_error_map, nth_error_seq by lia. auto. }
        assert (Hcell : forall i L o, nth_error layouts i = Some L -> cell L o -> nth o (nth i vals []) f0 = V i o).
        { intros i L o HL Hc. pose proof (lay_lt _ _ HL) as Hi2. destruct (Nat.eq_dec i 0) as [->|Hne].
          - unfold vals. cbn [nth]. destruct (cell0_in o L HL Hc) as [t [T1 T2]]. destruct Hag as [_ [_ [A3 _]]]. specialize (A3 t o T1 T2). rewrite <- (ins_at t o T1 T2) in A3. apply nth_error_nth. auto.
          - destruct (lay_ge i Hi2) as [L' [L1 L2]]. rewrite HL in L1. apply Some_inj in L1. subst L'. pose proof (cell_lt ctxs _ _ Hc L2) as Hos. rewrite Hvi by lia. unfold sz. rewrite HL.
            rewrite nth_indep with (d' := Vn i 0) by (rewrite map_length, seq_length; auto). rewrite map_nth, seq_nth by auto. cbn [Nat.add]. unfold Vn. rewrite (proj2 (Nat.eqb_neq i 0)) by auto. specialize (HSat i L o ltac:(lia) HL Hc).
            destruct (at_o o (G i)); auto. apply gsum_nil in HSat. auto. }
        assert (Hlast : exists Lo, nth_error layouts (x_out X) = Some Lo /\ hc + length (outputs (x_c X)) <= ly_size Lo) by apply out_size. destruct Hlast as [Lo [HLo Hsz]].
        destruct (co_num _ _ _ _ _ _ _ HC) as [C1 C2]. fold hc in C1, C2. assert (Hall : length all = length (outputs (x_c X))) by apply Hag.
        exists (rev nx ++ [ins']), (nth (x_out X) vals []). split; auto. split; [|split; [|split]].
        - apply layers_iff. exists nx. split; [lia|]. split; auto. intros k sid Hk. assert (Hkl : k < x_out X) by (rewrite <- Hly; eapply nth_error_Some_lt; eauto). destruct (co_flat _ _ _ _ _ _ _ HC (S k) sid ltac:(lia)) as [s [L [B1 [B2 [B3 B4]]]]]; [replace (S k - 1) with k by lia; auto|].
          exists (map (Vn (S k)) (seq 0 (sz (S k)))). split; [unfold nx; rewrite nth_error_map, nth_error_seq by auto; auto|]. replace (rev (firstn k nx) ++ [ins']) with (rev (firstn (S k) vals)) by reflexivity.
          destruct (gsum_contrib E (rev (firstn (S k) vals)) (G (S k)) (Vn (S k))) as [ps [P1 P2]].
          { intros o. unfold Vn. cbn [Nat.eqb]. destruct (at_o o (G (S k))) as [|g gs] eqn:Eo; [apply gsum_nil; auto|]. assert (Hg : In g (G (S k)) /\ g_out g = o).
            { assert (Hi : In g (at_o o (G (S k)))) by (rewrite Eo; left; auto). apply filter_In in Hi. destruct Hi as [Hi1 Hi2]. apply Nat.eqb_eq in Hi2. auto. }
            destruct Hg as [Hg1 Hg2]. destruct (inst_gok cross (circuits rc) ctxs Hwf Hok _ _ _ _ HI X HX (S k) g ltac:(lia) Hg1) as [[L' [L1 L2]] _]. rewrite Hg2 in L2. rewrite <- Eo.
            apply gsum_ext with (w := rd V (S k)); [|apply (HSat (S k) L'); auto; lia]. intros g' w' Hg' Hw'. apply filter_In in Hg'. destruct Hg' as [Hg' _]. rewrite (reads vals (S k) g' w') by (auto; lia).
            destruct (inst_gok cross (circuits rc) ctxs Hwf Hok _ _ _ _ HI X HX (S k) g' ltac:(lia) Hg') as [_ Hrd]. destruct (Hrd w' Hw') as [_ [L2' [Q1 Q2]]]. unfold rd. symmetry. eapply Hcell; eauto. }
          exists s, ps. split; auto. rewrite B4. split; auto. unfold sz. rewrite B2, B3. apply map_ext. auto.
        - destruct (x_out X) as [|q] eqn:Eq; [lia|]. unfold vals. cbn [nth]. assert (Hr : rev nx <> []) by (intros Hr; apply (f_equal (@length _)) in Hr; rewrite rev_length in Hr; cbn in Hr; lia). rewrite <- (rev_involutive nx) at 2. assert (Hrl : length (rev nx) = S q) by (rewrite rev_length; lia).
          destruct (rev nx) as [|a r]; [congruence|]. cbn [hd_error app rev]. rewrite app_nth2 by (rewrite rev_length; cbn in Hrl; lia). rewrite rev_length. replace (q - length r) with 0 by (cbn in Hrl; lia). auto.
        - rewrite C1, C2, (Hvi (x_out X)) by lia. rewrite map_length, seq_length. unfold sz. rewrite HLo. lia.
        - assert (Hlen : length (nth (x_out X) vals []) = ly_size Lo) by (rewrite Hvi by lia; rewrite map_length, seq_length; unfold sz; rewrite HLo; auto).
          destruct (last_layer (fun i o => nth o (nth i vals []) f0) w all (nth (x_out X) vals [])) as [Q1 Q2].
          { destruct Hag as [A1 [A2 [A3 [A4 [A5 A6]]]]]. 
            assert (Hsl : forall i x s, slotq X layouts i x = Some s -> nth s (nth i vals []) f0 = V i s).
            { intros i x s Hs. assert (Hi : i <= x_out X) by (unfold slotq in Hs; destruct (nth_error layouts i) eqn:EL; [eapply lay_lt; eauto|discriminate]). destruct (r_lq i Hi) as [L [C [lq [D1 [D2 [D3 [D4 [D5 [D6 [D7 D8]]]]]]]]]].
              apply (Hcell i L); auto. rewrite D8 in Hs. apply (query_lookup _ _ _ _ _ D6) in Hs. destruct Hs as [v [V1 V2]]. apply cell_cases. left. eauto. }
            split; auto. split; auto. split; [intros t s T1 T2; rewrite (Hsl _ _ _ T2); auto|]. split; [intros t x s T1 T2; rewrite (Hsl _ _ _ T2); eauto|]. split; auto. intros i c s T1 T2. rewrite (Hsl _ _ _ T2). eauto. }
          { intros o Ho. apply nth_error_nth'. auto. }
          { lia. }
          rewrite C1, C2. destruct (out_split (nth (x_out X) vals []) (expected_num_output_zeroes rc) (length (outputs (x_c X))) hc ltac:(lia)) as [D1 D2]. rewrite <- Q1 in D1, D2. rewrite D1, D2, forallb_app, Q2. auto.
      Qed.
    End Runs.
  End Root.
End LayRoot.
