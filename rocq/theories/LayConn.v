(* Connecting the layouts never fails: every wire a gate reads has a place. *)
From Verif Require Import Prelude Field Zp Sorting Expr Topo Ir IrInst InputMapping Layered SolveDuplicates LayeredFacts LayeredOpt LayeredOptFacts LayeredExpand LayeredCommon IrFacts Sim Layering LaySem LaySched LayInst LayLayout LayOwn LayBlock LayTotA LayTotB LayMerge LayGroups LaySolve.
Open Scope nat_scope.

Lemma nodup_map_on {A B} (f : A -> B) (l : list A) : NoDup l -> (forall x y, In x l -> In y l -> f x = f y -> x = y) -> NoDup (map f l).
Proof.
  induction 1 as [|x l Hx Hl IH]; intros Hi; cbn [map]; constructor.
  - intros H. apply in_map_iff in H. destruct H as [y [E H]]. assert (y = x) by (apply Hi; [right; auto|left; auto|auto]). congruence.
  - apply IH. intros a b Ha Hb. apply Hi; right; auto.
Qed.
Lemma layout_query_total L vs : NoDup vs -> NoDup (map snd (layout_slots L)) -> (forall v, In v (map snd (layout_slots L)) -> v < length vs) -> exists lq, layout_query L vs = Some lq.
Proof.
  intros Nv Ns Hr. unfold layout_query. rewrite omap_map with (h := fun p => (nth (snd p) vs 0, fst p)).
  - cbn [obind]. rewrite map_map. cbn [fst]. rewrite <- (map_map snd (fun v => nth v vs 0)). rewrite guard_true; [cbn [obind]; eauto|]. apply nodupb_iff. apply nodup_map_on; auto. intros x y Hx Hy E. apply (proj1 (NoDup_nth vs 0) Nv); auto.
  - intros [o v] Hp. cbn [fst snd]. rewrite nth_error_nth' with (d := 0); auto. apply Hr. apply in_map_iff. exists (o, v). auto.
Qed.
Lemma pc_nodup (p : list (option nat)) : (forall s s' v, nth_error p s = Some (Some v) -> nth_error p s' = Some (Some v) -> s = s') -> NoDup (pc p).
Proof.
  induction p as [|[v|] p IH]; intros H; [constructor| |].
  - change (pc (Some v :: p)) with (v :: pc p). constructor.
    + intros Hv. apply pc_in in Hv. apply In_nth_error in Hv. destruct Hv as [s Hs]. specialize (H 0 (S s) v eq_refl Hs). discriminate.
    + apply IH. intros s s' w A B. specialize (H (S s) (S s') w A B). lia.
  - change (pc (None :: p)) with (pc p). apply IH. intros s s' w A B. specialize (H (S s) (S s') w A B). lia.
Qed.
Lemma combine_nth_inv {A B} (l : list A) : forall (r : list B) t a b, nth_error (combine l r) t = Some (a, b) -> nth_error l t = Some a /\ nth_error r t = Some b.
Proof. induction l as [|y l IH]; intros [|z r] [|t] a b H; cbn in *; try discriminate; [injection H as <- <-; auto|eauto]. Qed.
Lemma query_pc pos vs fs sv c ly L o : query pos vs fs sv c ly = Some (L, o) -> NoDup fs -> exists p, L = LDense c ly p /\ NoDup (pc p) /\ forall v, In v (pc p) -> v < length sv.
Proof.
  unfold query. intros H Hn. destruct vs as [|x0 vs].
  - apply Some_inj in H. injection H as <- <-. exists [None]. split; auto. split; [constructor|intros v []].
  - destruct (block _) as [off n]. destruct (ofold _ _ _) as [pl|] eqn:Ew in H; [|discriminate]. cbn [obind] in H. apply Some_inj in H. injection H as <- <-. eexists. split; [reflexivity|].
    set (p := map _ pl). assert (Hp : forall s v, nth_error p s = Some (Some v) -> exists f, nth_error pl s = Some (Some f) /\ index_of f sv = Some v).
    { intros s v Hs. unfold p in Hs. rewrite nth_error_map in Hs. destruct (nth_error pl s) as [[f|]|]; cbn [option_map] in Hs; try discriminate. apply Some_inj in Hs. eauto. }
    split.
    + apply pc_nodup. intros s s' v A B. apply Hp in A, B. destruct A as [f [A1 A2]], B as [f' [B1 B2]]. apply index_of_some in A2, B2. assert (f' = f) by congruence. subst f'.
      destruct (writes_in _ _ _ _ Ew _ _ A1) as [Hr|Hr]; [apply nth_error_In, repeat_spec in Hr; discriminate|]. destruct (writes_in _ _ _ _ Ew _ _ B1) as [Hr'|Hr']; [apply nth_error_In, repeat_spec in Hr'; discriminate|].
      apply In_nth_error in Hr, Hr'. destruct Hr as [t Ht], Hr' as [t' Ht']. pose proof (combine_nth_inv _ _ _ _ _ Ht) as [P1 P2]. pose proof (combine_nth_inv _ _ _ _ _ Ht') as [Q1 Q2].
      assert (t = t') by (rewrite NoDup_nth_error in Hn; apply Hn; [eapply nth_error_Some_lt; eauto|congruence]). subst t'. assert (off + s = off + s') by congruence. lia.
    + intros v Hv. apply pc_in in Hv. apply In_nth_error in Hv. destruct Hv as [s Hs]. apply Hp in Hs. destruct Hs as [f [_ Hf]]. apply index_of_some in Hf. eapply nth_error_Some_lt; eauto.
Qed.
Lemma pairs_in : forall l a b, In (a, b) (pairs l) -> In a l.
Proof.
  induction l as [|x l IH]; intros a b H; [destruct H|]. destruct l as [|y l]; [destruct H|]. change (pairs (x :: y :: l)) with ((x, y) :: pairs (y :: l)) in H. destruct H as [H|H]; [injection H as <- <-; left; auto|right; eauto].
Qed.
Lemma pairs_lt' : forall l a p q, StronglySorted lt (a :: l) -> In (p, q) (pairs (a :: l)) -> p < q /\ a <= p /\ In q l.
Proof.
  induction l as [|b l IH]; intros a p q Hs Hi; [destruct Hi|]. change (pairs (a :: b :: l)) with ((a, b) :: pairs (b :: l)) in Hi. inversion Hs as [|? ? Hs' Hf]; subst. assert (a < b) by (inversion Hf; auto).
  destruct Hi as [Hi|Hi]; [injection Hi as <- <-; split; auto; split; auto; left; auto|]. destruct (IH _ _ _ Hs' Hi) as [A [B D]]. split; auto. split; [lia|]. right; auto.
Qed.
Lemma nth_from {B} (f : nat -> option B) a n ls j : omap f (seq a n) = Some ls -> j < n -> exists y, nth_error ls j = Some y /\ f (a + j) = Some y.
Proof. intros H Hj. apply (omap_at _ _ _ j (a + j) H). apply nth_error_seq; auto. Qed.

Section LayConn.
  Context {F : Fld}.
  Notation DI := (DestI F true).
  Notation Ctx := (Ctx (F := F)).
  Variable cross : bool.
  Variable cs : list (nat * Circuit DI).
  Variable ctxs : list (nat * Ctx).
  Hypothesis Hwf : wf_circuits DI cs.
  Variable rank : nat -> nat.
  Hypothesis Hrank : ranked DI cs rank.
  Hypothesis Hnd : forall id c, lookup id cs = Some c -> NoDup (outputs c).
  Hypothesis Hni : forall id c l, lookup id cs = Some c -> In l (calls_of c) -> NoDup (cl_ins l).
  Hypothesis Hok : forall id X, lookup id ctxs = Some X -> ctx_ok cross cs ctxs id X.
  Hypothesis Htot : forall id X, lookup id ctxs = Some X -> ctx_tot cross ctxs id X.

  (* only the inputs are in the first layer *)
  Lemma layer0 id X C x : lookup id ctxs = Some X -> nth_error (x_lcs X) 0 = Some C -> In x (lc_vars C) -> 1 <= x <= num_inputs (x_c X).
  Proof.
    intros HX HC Hx. pose proof (Hok _ _ HX) as K. apply (in_vars cross cs ctxs Hwf id X 0 C x K HC) in Hx. destruct Hx as [[H1 H2]|[c [Hc _]]].
    - split; [lia|]. pose proof (layer_ge _ _ _ _ _ _ _ K H1 H2) as Hm. destruct (kind_var _ _ _ _ _ _ K H1) as [kd [Hk Hi]]. destruct kd as [|e|c|k].
      + auto.
      + pose proof (ok_expr _ _ _ _ _ K _ _ Hk). lia.
      + pose proof (ok_coef _ _ _ _ _ K _ _ Hk). lia.
      + pose proof (ok_osub _ _ _ _ _ K _ _ Hk) as Ho. destruct (sub_call _ _ _ _ _ _ _ K Hk) as [l [t [Hl _]]]. destruct (call_facts cross cs ctxs Hwf rank Hrank Hnd Hok id X k l HX Hl) as [Y [_ [_ [He [_ [H1' _]]]]]]. lia.
    - destruct (ok_cc _ _ _ _ _ K _ _ Hc) as [Hz _]. lia.
  Qed.

  Section Level.
    Variables (id : nat) (X : Ctx) (layouts : list Layout).
    Hypothesis HX : lookup id ctxs = Some X.
    Hypothesis Hlen : length layouts = S (x_out X).
    Hypothesis Hl : forall i L, nth_error layouts i = Some L -> okl ctxs L /\ lok ctxs L /\ ly_circ L = id /\ ly_layer L = i.
    Let K : ctx_ok cross cs ctxs id X := Hok _ _ HX.

    Lemma okl_at i L C : nth_error layouts i = Some L -> nth_error (x_lcs X) i = Some C -> NoDup (map snd (layout_slots L)) /\ (forall v, In v (map snd (layout_slots L)) -> v < length (lc_vars C)) /\
      (i < x_out X \/ id = 0 -> forall v, v < length (lc_vars C) -> In v (map snd (layout_slots L))) /\
      (forall k, In k (lc_mid C) -> exists s off, In (s, off, k) (mids L)) /\
      (forall s off k, In (s, off, k) (mids L) -> exists l, nth_error (x_calls X) k = Some l /\ ly_circ s = cl_sub l /\ ly_layer s = i - start_of X k) /\
      (forall s off k, In (s, off, k) (mids L) -> okl ctxs s).
    Proof.
      intros HL HC. destruct (Hl _ _ HL) as [O [_ [Hc Hy]]]. destruct O as [L X' C' A1 A2 A3 A4 A5 A6 A7 A8]. rewrite Hc in *. rewrite Hy in *. assert (X' = X) by congruence. subst X'. assert (C' = C) by congruence. subst C'. auto 10.
    Qed.
    Lemma lqs_total : exists lqs, omap (fun L => let* C := nth_error (x_lcs X) (ly_layer L) in layout_query L (lc_vars C)) layouts = Some lqs.
    Proof.
      apply omap_total. intros L HL. apply In_nth_error in HL. destruct HL as [i Hi]. destruct (Hl _ _ Hi) as [_ [_ [_ Hy]]]. rewrite Hy. pose proof (nth_error_Some_lt _ _ _ Hi) as Hlt.
      destruct (nth_error_Some_ex (x_lcs X) i) as [C HC]; [rewrite (ok_lcs _ _ _ _ _ K); lia|]. rewrite HC. cbn [obind]. destruct (okl_at _ _ _ Hi HC) as [A1 [A2 _]]. apply layout_query_total; auto. eapply vars_nodup; eauto.
    Qed.
    Variable lqs : list (list (nat * nat)).
    Hypothesis Hlq : omap (fun L => let* C := nth_error (x_lcs X) (ly_layer L) in layout_query L (lc_vars C)) layouts = Some lqs.
    Lemma at_layer i : i <= x_out X -> exists L C lq, nth_error layouts i = Some L /\ nth_error (x_lcs X) i = Some C /\ nth_error lqs i = Some lq /\ layout_query L (lc_vars C) = Some lq.
    Proof.
      intros Hi. destruct (nth_error_Some_ex layouts i) as [L HL]; [lia|]. destruct (omap_at _ _ _ i L Hlq HL) as [lq [Q1 Q2]]. destruct (Hl _ _ HL) as [_ [_ [_ Hy]]]. rewrite Hy in Q2.
      destruct (nth_error (x_lcs X) i) as [C|] eqn:EC; [|discriminate]. cbn [obind] in Q2. exists L, C, lq. auto.
    Qed.
    Lemma placed i C lq x : nth_error (x_lcs X) i = Some C -> nth_error lqs i = Some lq -> i < x_out X \/ id = 0 -> In x (lc_vars C) -> exists s, lookup x lq = Some s.
    Proof.
      intros HC Hq Hp Hx. assert (Hi : i <= x_out X) by (apply nth_error_Some_lt in HC; rewrite (ok_lcs _ _ _ _ _ K) in HC; lia). destruct (at_layer i Hi) as [L [C' [lq' [HL [HC' [Hq' Hlq']]]]]].
      assert (C' = C) by congruence. subst C'. assert (lq' = lq) by congruence. subst lq'. destruct (okl_at _ _ _ HL HC) as [_ [_ [A3 _]]]. apply In_nth_error in Hx. destruct Hx as [v Hv].
      specialize (A3 Hp v (nth_error_Some_lt _ _ _ Hv)). apply in_map_iff in A3. destruct A3 as [[s v'] [E Hs]]. cbn in E. subst v'. exists s. apply (query_lookup _ _ _ _ _ Hlq'). eauto.
    Qed.
    (* a variable in a layer before the last has a place *)
    Lemma placed_var i x : 1 <= x < x_nv X -> in_layer cross X x i = true -> i < x_out X -> exists lq s, nth_error lqs i = Some lq /\ lookup x lq = Some s.
    Proof.
      intros H1 H2 H3. destruct (at_layer i ltac:(lia)) as [L [C [lq [HL [HC [Hq _]]]]]]. destruct (placed i C lq x HC Hq (or_introl H3)) as [s Hs]; [|eauto]. apply (in_vars cross cs ctxs Hwf id X i C x K HC). auto.
    Qed.
    Lemma placed_cc i c : nth_error (x_cc X) i = Some (Some c) -> exists lq s, nth_error lqs i = Some lq /\ lookup (cc_id c) lq = Some s.
    Proof.
      intros Hc. assert (Ha : cc_at (x_cc X) i = true) by (apply cc_at_iff; eauto). pose proof (cc_le _ _ _ _ _ _ K Ha) as Hle. destruct (at_layer i Hle) as [L [C [lq [HL [HC [Hq _]]]]]]. exists lq.
      destruct (placed i C lq (cc_id c) HC Hq) as [s Hs]; [|apply (in_vars cross cs ctxs Hwf id X i C _ K HC); right; eauto|eauto].
      destruct (Nat.eq_dec id 0) as [E|E]; [auto|left; apply (ok_cc_inner _ _ _ _ _ K E _ Ha)].
    Qed.
    Lemma lq_inj i lq y z q : nth_error lqs i = Some lq -> lookup y lq = Some q -> lookup z lq = Some q -> y = z.
    Proof.
      intros Hq Hy Hz. assert (Hi : i <= x_out X). { apply nth_error_Some_lt in Hq. rewrite (omap_length _ _ _ Hlq) in Hq. lia. } destruct (at_layer i Hi) as [L [C [lq' [HL [HC [Hq' Hlq']]]]]]. assert (lq' = lq) by congruence. subst lq'.
      apply (query_lookup _ _ _ _ _ Hlq') in Hy, Hz. destruct Hy as [v [A B]], Hz as [v' [A' B']]. assert (v = v') by (apply (lok_slot ctxs L q v v'); auto; apply (Hl _ _ HL)). congruence.
    Qed.

    Lemma sub_layout_total k l Y j : nth_error (x_calls X) k = Some l -> lookup (cl_sub l) ctxs = Some Y -> start_of X k <= j <= end_of X k ->
      exists p, sub_layout ctxs X layouts lqs k j = Some p /\ okl ctxs (fst p) /\ ly_circ (fst p) = cl_sub l /\ ly_layer (fst p) = j - start_of X k.
    Proof.
      intros Hk HY Hj. destruct (call_facts cross cs ctxs Hwf rank Hrank Hnd Hok id X k l HX Hk) as [Y' [HY' [Hs0 [He [Hex [Ho1 [Hlo [Hli [No [Ny _]]]]]]]]]]. assert (Y' = Y) by congruence. subst Y'. clear HY'.
      destruct (at_layer j ltac:(lia)) as [L [C [lq [HL [HC [Hq Hlq']]]]]]. destruct (okl_at _ _ _ HL HC) as [_ [_ [_ [A4 [A5 A6]]]]]. destruct (Hl _ _ HL) as [_ [Lk [Hc Hy]]].
      unfold sub_layout. rewrite Hk. cbn [obind]. rewrite HY. cbn [obind]. rewrite HL. cbn [obind]. rewrite Hq. cbn [obind].
      set (q := if j =? end_of X k then _ else _).
      destruct (Nat.eq_dec j (start_of X k)) as [Es|Es]; [|destruct (Nat.eq_dec j (end_of X k)) as [Ee|Ee]].
      - (* first layer of the call *)
        assert (Hnone : match L with LDense _ _ _ => q | LSparse _ _ _ _ subs => match find (fun s => snd s =? k) (rev subs) with Some (Ls, off, _) => Some (Ls, off) | None => q end end = q).
        { destruct L as [c ly p|c ly sz p subs]; auto. destruct (find _ _) as [[[Ls of] k']|] eqn:Ef; auto. apply find_some in Ef. destruct Ef as [Ef1 Ef2]. cbn in Ef2. apply Nat.eqb_eq in Ef2. subst k'. rewrite <- in_rev in Ef1.
          destruct (lok_mid ctxs _ X Ls of k Lk ltac:(rewrite Hc; auto) Ef1) as [_ [_ [_ Hm]]]. rewrite Hy in Hm. lia. }
        rewrite Hnone. unfold q. assert (Ne : (j =? end_of X k) = false) by (apply Nat.eqb_neq; lia). rewrite Ne. assert (Eq : (j =? start_of X k) = true) by (apply Nat.eqb_eq; auto). rewrite Eq.
        destruct (nth_error_Some_ex (x_lcs Y) 0) as [Cs HCs]; [rewrite (ok_lcs _ _ _ _ _ (Hok _ _ HY)); lia|]. rewrite HCs. cbn [obind].
        destruct (query_total lq (cl_ins l) (seq 1 (length (cl_ins l))) (lc_vars Cs) (cl_sub l) 0) as [[L' o] Hr]. rewrite Hr. eexists. split; [reflexivity|]. cbn [fst].
        destruct (query_pc _ _ _ _ _ _ _ _ Hr (seq_NoDup _ _)) as [p [-> [P1 P2]]]. cbn [ly_circ ly_layer]. split; [|split; [auto|lia]].
        rewrite <- (dense_snd (cl_sub l) 0) in P1. assert (P2' : forall v, In v (map snd (layout_slots (LDense (cl_sub l) 0 p))) -> v < length (lc_vars Cs)) by (intros v Hv; rewrite dense_snd in Hv; auto).
        pose proof (vars_nodup cross cs ctxs Hok (cl_sub l) Y 0 Cs HY HCs) as Nv. destruct (layout_query_total _ _ Nv P1 P2') as [lq2 Hlq2].
        econstructor; [exact HY|exact HCs|exact P1|exact P2'| | |intros ? ? ? []|intros ? ? ? []].
        + intros _ v Hv. destruct (nth_error_Some_ex (lc_vars Cs) v Hv) as [f Hf]. pose proof (layer0 _ _ _ _ HY HCs (nth_error_In _ _ Hf)) as Hfr. destruct (nth_error_Some_ex (cl_ins l) (f - 1)) as [x Hx]; [lia|].
          assert (Hxi : In x (cl_ins l)) by (eapply nth_error_In; eauto). destruct (t_args _ _ _ _ (Htot _ _ HX) k l x Hk Hxi) as [T1 T2]. rewrite <- Es in T2. destruct (placed_var j x T1 T2 ltac:(lia)) as [lq3 [pp [E3 Hpp]]]. assert (lq3 = lq) by congruence. subst lq3.
          destruct (query_q2 lq (cl_ins l) (seq 1 (length (cl_ins l))) (lc_vars Cs) (cl_sub l) 0 _ o lq2 (f - 1) x f pp Hr Hlq2) as [s [_ Hs]]; auto.
          * eapply Hni; [apply (ok_c _ _ _ _ _ K)|]. rewrite <- (ok_calls _ _ _ _ _ K). eapply nth_error_In; eauto.
          * intros y z u. apply (lq_inj j); auto.
          * eapply nth_error_In; eauto.
          * rewrite nth_error_seq by lia. f_equal. lia.
          * apply (query_in _ _ _ _ _ Hlq2) in Hs. destruct Hs as [v' [V1 V2]]. assert (v' = v) by (rewrite NoDup_nth_error in Nv; apply Nv; [eapply nth_error_Some_lt; eauto|congruence]). subst v'. apply in_map_iff. exists (s, v). auto.
        + rewrite (mid_nil cross cs ctxs Hok _ _ _ _ HY HCs (or_introl eq_refl)). intros ? [].
      - (* last layer of the call *)
        assert (Hnone : match L with LDense _ _ _ => q | LSparse _ _ _ _ subs => match find (fun s => snd s =? k) (rev subs) with Some (Ls, off, _) => Some (Ls, off) | None => q end end = q).
        { destruct L as [c ly p|c ly sz p subs]; auto. destruct (find _ _) as [[[Ls of] k']|] eqn:Ef; auto. apply find_some in Ef. destruct Ef as [Ef1 Ef2]. cbn in Ef2. apply Nat.eqb_eq in Ef2. subst k'. rewrite <- in_rev in Ef1.
          destruct (lok_mid ctxs _ X Ls of k Lk ltac:(rewrite Hc; auto) Ef1) as [_ [_ [_ Hm]]]. rewrite Hy in Hm. lia. }
        rewrite Hnone. unfold q. assert (Eq : (j =? end_of X k) = true) by (apply Nat.eqb_eq; auto). rewrite Eq.
        destruct (nth_error_Some_ex (x_lcs Y) (x_out Y)) as [Cs HCs]; [rewrite (ok_lcs _ _ _ _ _ (Hok _ _ HY)); lia|]. rewrite HCs. cbn [obind].
        destruct (query_total lq (cl_outs l) (outputs (x_c Y)) (lc_vars Cs) (cl_sub l) (x_out Y)) as [[L' o] Hr]. rewrite Hr. eexists. split; [reflexivity|]. cbn [fst].
        destruct (query_pc _ _ _ _ _ _ _ _ Hr Ny) as [p [-> [P1 P2]]]. cbn [ly_circ ly_layer]. split; [|split; [auto|lia]].
        econstructor; [exact HY|exact HCs|rewrite dense_snd; exact P1|rewrite dense_snd; exact P2| | |intros ? ? ? []|intros ? ? ? []].
        + cbn [ly_circ ly_layer]. intros [H|H]; [lia|congruence].
        + rewrite (mid_nil cross cs ctxs Hok _ _ _ _ HY HCs (or_intror eq_refl)). intros ? [].
      - (* in between *)
        assert (Hin : In k (lc_mid C)). { destruct (ok_lc _ _ _ _ _ K _ _ HC) as [_ ->]. apply filter_In. split; [apply in_seq; apply nth_error_Some_lt in Hk; lia|]. apply andb_true_iff. rewrite !Nat.ltb_lt. lia. }
        destruct (A4 k Hin) as [s [off Hs]]. destruct L as [c ly p|c ly sz p subs]; [destruct Hs|]. cbn [mids] in *. destruct (find (fun s => snd s =? k) (rev subs)) as [[[Ls of] k']|] eqn:Ef.
        + apply find_some in Ef. destruct Ef as [Ef1 Ef2]. cbn in Ef2. apply Nat.eqb_eq in Ef2. subst k'. rewrite <- in_rev in Ef1. eexists. split; [reflexivity|]. cbn [fst]. destruct (A5 _ _ _ Ef1) as [l' [B1 [B2 B3]]]. assert (l' = l) by congruence. subst l'. split; eauto.
        + exfalso. rewrite in_rev in Hs. apply (find_none _ _ Ef) in Hs. cbn in Hs. rewrite Nat.eqb_refl in Hs. discriminate.
    Qed.

    (* ------------------------------------------------------------ the gates of a layer *)
    Lemma first_total i x : 1 <= i <= x_out X -> x < x_nv X -> exists g, first_gates X lqs i x = Some g.
    Proof.
      intros Hi Hx. unfold first_gates. destruct (Nat.eqb_spec (getn (x_min X) x) i) as [Em|]; [|eauto]. assert (Hx1 : 1 <= x < x_nv X). { split; auto. destruct x; [|lia]. rewrite (t_min0 _ _ _ _ (Htot _ _ HX)) in Em. lia. }
      destruct (at_layer (i - 1) ltac:(lia)) as [La [Ca [aq [_ [_ [Ha _]]]]]]. destruct (at_layer i ltac:(lia)) as [Lb [Cb [bq [_ [HCb [Hb _]]]]]]. rewrite Ha, Hb. cbn [obind].
      destruct (lookup x bq) as [o|] eqn:Eo.
      - destruct (nth_error (x_kinds X) x) as [[|e|c|k]|] eqn:Ek; eauto.
        assert (Hv : forall v, In v (e_vars F e) -> exists p, lookup v aq = Some p).
        { intros v Hv. destruct (expr_args cross cs ctxs Hwf id X x e v K Ek Hv) as [V1 V2]. pose proof (ok_use _ _ _ _ _ K _ _ _ Ek Hv) as Hu. rewrite Em in Hu. destruct (placed_var (i - 1) v ltac:(lia) Hu ltac:(lia)) as [lq [s [E1 E2]]]. assert (lq = aq) by congruence. subst lq. eauto. }
        apply omap_total. intros t Ht. assert (Hv' : forall v, In v (vs_vars (vars t)) -> exists p, lookup v aq = Some p) by (intros v Hvt; apply Hv; apply in_flat_map; eauto).
        unfold term_gate. destruct (vars t) as [|v|v0 v1|ty vl|v]; cbn [vs_vars] in Hv'.
        + eauto.
        + destruct (Hv' v (or_introl eq_refl)) as [p ->]. cbn [obind]. eauto.
        + destruct (Hv' v0 (or_introl eq_refl)) as [p ->]. destruct (Hv' v1 (or_intror (or_introl eq_refl))) as [p' ->]. cbn [obind]. eauto.
        + destruct (omap_total (fun v => let* p := lookup v aq in Some (mkInp 0 p)) vl) as [ps Hps]; [|rewrite Hps; cbn [obind]; eauto]. intros v Hvl. destruct (Hv' v Hvl) as [p ->]. cbn [obind]. eauto.
        + destruct (Hv' v (or_introl eq_refl)) as [p ->]. cbn [obind]. eauto.
      - destruct (Nat.eqb_spec i (x_out X)) as [|Hne]; [eauto|]. exfalso. pose proof (layer_min _ _ _ _ _ _ K Hx1) as Hm. rewrite Em in Hm. destruct (placed_var i x Hx1 Hm ltac:(lia)) as [lq [s [E1 E2]]]. congruence.
    Qed.
    Lemma relay1_total i x a : 1 <= x < x_nv X -> a < i <= x_out X -> in_layer cross X x a = true -> in_layer cross X x i = true -> exists g, relay_gate X lqs x a i = Some g.
    Proof.
      intros Hx Hi La Li. unfold relay_gate. destruct (placed_var a x Hx La ltac:(lia)) as [aq [s [Ha Hs]]]. destruct (at_layer i ltac:(lia)) as [Lb [Cb [bq [_ [HCb [Hb _]]]]]]. rewrite Ha, Hb. cbn [obind].
      destruct (lookup x bq) as [o|] eqn:Eo; [rewrite Hs; cbn [obind]; eauto|]. destruct (Nat.eqb_spec i (x_out X)) as [|Hne]; [eauto|]. exfalso. destruct (placed_var i x Hx Li ltac:(lia)) as [lq [s' [E1 E2]]]. congruence.
    Qed.
    Lemma relay_total i x : 1 <= i <= x_out X -> x < x_nv X -> exists g, relay_gates cross X lqs i x = Some g.
    Proof.
      intros Hi Hx. unfold relay_gates. destruct (bool_dec cross true) as [Ecr|Ecr]; [|apply not_true_iff_false in Ecr]; rewrite Ecr.
      - destruct (omap_total (fun p => if snd p =? i then relay_gate X lqs x (fst p) (snd p) else Some []) (pairs (nth x (x_occ X) []))) as [g Hg]; [|rewrite Hg; cbn [obind]; eauto].
        intros [a b] Hp. cbn [fst snd]. destruct (Nat.eqb_spec b i) as [->|]; [|eauto]. assert (Hx1 : 1 <= x < x_nv X). { split; auto. destruct x; [|lia]. rewrite (t_occ0 _ _ _ _ (Htot _ _ HX) Ecr) in Hp. destruct Hp. }
        destruct (ok_occ _ _ _ _ _ K Ecr x Hx1) as [t [Ht Hs]]. rewrite Ht in Hp. destruct (pairs_lt' _ _ _ _ Hs Hp) as [P1 [_ P3]]. apply relay1_total; auto; [lia| |]; unfold in_layer; rewrite Ecr, Ht; apply memb_spec.
        + apply (pairs_in _ _ _ Hp).
        + right; auto.
      - destruct (Nat.ltb_spec (getn (x_min X) x) i) as [H1|]; [|cbn; eauto]. destruct (Nat.leb_spec i (getn (x_max X) x)) as [H2|]; [|cbn; eauto]. cbn [andb].
        assert (Hx1 : 1 <= x < x_nv X). { split; auto. destruct x; [|lia]. rewrite (t_max0 _ _ _ _ (Htot _ _ HX) Ecr) in H2. lia. }
        apply relay1_total; auto; [lia| |]; unfold in_layer; rewrite Ecr; apply andb_true_iff; rewrite !Nat.leb_le; lia.
    Qed.
    Lemma cc_total i : 1 <= i <= x_out X -> exists g, cc_gates ctxs X layouts lqs i = Some g.
    Proof.
      intros Hi. unfold cc_gates. destruct (nth_error (x_cc X) i) as [[c|]|] eqn:Ec; eauto. destruct (placed_cc i c Ec) as [bq [o [Hb Ho]]]. destruct (at_layer (i - 1) ltac:(lia)) as [La [Ca [aq [_ [HCa [Ha _]]]]]]. rewrite Ha, Hb. cbn [obind]. rewrite Ho. cbn [obind].
      destruct (ok_cc _ _ _ _ _ K _ _ Ec) as [_ [_ [_ [Hsub [lv [ch [Ev [Hlv [Hch Hchn]]]]]]]]].
      match goal with |- context [omap ?f (cc_vars c)] => destruct (omap_total f (cc_vars c)) as [g1 Hg1] end.
      { intros v Hv. enough (exists p, lookup v aq = Some p) as [p ->] by (cbn [obind]; eauto). destruct (Nat.le_gt_cases (x_nv X) v) as [Hge|Hlt].
        - destruct (ok_cc_chain _ _ _ _ _ K _ _ _ Ec Hv Hge) as [c' [Ec' <-]]. destruct (placed_cc _ _ Ec') as [lq [s [E1 E2]]]. assert (lq = aq) by congruence. subst lq. eauto.
        - rewrite Ev in Hv. apply in_app_iff in Hv. destruct Hv as [Hv|Hv].
          + destruct (Hlv v Hv) as [V1 V2]. pose proof (wf_con _ _ (wf_each _ _ Hwf _ _ (ok_c _ _ _ _ _ K))) as W. rewrite Forall_forall in W. apply W in V1. cbn in V1. destruct (placed_var (i - 1) v ltac:(lia) V2 ltac:(lia)) as [lq [s [E1 E2]]]. assert (lq = aq) by congruence. subst lq. eauto.
          + destruct Hch as [->|[v' [-> Hv']]]; [destruct Hv|]. destruct Hv as [->|[]]. lia. }
      rewrite Hg1. cbn [obind]. match goal with |- context [omap ?f (cc_subs c)] => destruct (omap_total f (cc_subs c)) as [g2 Hg2] end; [|rewrite Hg2; cbn [obind]; eauto].
      intros k Hk. destruct (Hsub k Hk) as [Hkl Hks]. destruct (nth_error_Some_ex (x_calls X) k Hkl) as [l Hlk]. rewrite Hlk. cbn [obind].
      destruct (call_facts cross cs ctxs Hwf rank Hrank Hnd Hok id X k l HX Hlk) as [Y [HY [Hs0 [He [Hex [Ho1 _]]]]]]. rewrite HY. cbn [obind].
      pose proof (t_sub _ _ _ _ (Htot _ _ HX) _ _ _ _ _ Ec Hk Hlk HY) as Hcc. pose proof (ok_cc_inner _ _ _ _ _ (Hok _ _ HY) Hs0 _ Hcc) as Hj. set (j := i - 1 - start_of X k) in *. destruct (proj1 (cc_at_iff _ _) Hcc) as [cY HcY]. rewrite HcY. cbn [obind].
      destruct (nth_error_Some_ex (x_lcs Y) j) as [Cs HCs]; [rewrite (ok_lcs _ _ _ _ _ (Hok _ _ HY)); lia|]. rewrite HCs. cbn [obind].
      destruct (index_of_in (cc_id cY) (lc_vars Cs)) as [v Hv]; [apply (in_vars cross cs ctxs Hwf (cl_sub l) Y j Cs _ (Hok _ _ HY) HCs); right; eauto|]. rewrite Hv. cbn [obind].
      destruct (sub_layout_total k l Y (i - 1) Hlk HY ltac:(lia)) as [p [Hp [Op [Cp Lp]]]]. rewrite Hp. cbn [obind]. fold j in Lp.
      destruct (find (fun p => snd p =? v) (layout_slots (fst p))) as [sp|] eqn:Ef; [cbn [obind]; eauto|]. exfalso.
      destruct Op as [L X' C' A1 A2 A3 A4 A5 A6 A7 A8]. rewrite Cp in *. rewrite Lp in *. assert (X' = Y) by congruence. subst X'. assert (C' = Cs) by congruence. subst C'.
      specialize (A5 (or_introl Hj) v (nth_error_Some_lt _ _ _ (index_of_some _ _ _ Hv))). apply in_map_iff in A5. destruct A5 as [[s v'] [E Hs]]. cbn in E. subst v'. apply (find_none _ _ Ef) in Hs. cbn in Hs. rewrite Nat.eqb_refl in Hs. discriminate.
    Qed.
    Lemma own_total i : 1 <= i <= x_out X -> exists g, own_gates cross ctxs X layouts lqs i = Some g.
    Proof.
      intros Hi. unfold own_gates. match goal with |- context [omap ?f (seq 0 (x_nv X))] => destruct (omap_total f (seq 0 (x_nv X))) as [gs Hgs] end.
      - intros x Hx. apply in_seq in Hx. destruct (first_total i x Hi ltac:(lia)) as [a ->]. destruct (relay_total i x Hi ltac:(lia)) as [b ->]. cbn [obind]. eauto.
      - rewrite Hgs. cbn [obind]. destruct (cc_total i Hi) as [c ->]. cbn [obind]. eauto.
    Qed.

    (* ------------------------------------------------------------ segments *)
    Definition sb_ok (s : Sub) : Prop := exists l Y, nth_error (x_calls X) (sb_k s) = Some l /\ lookup (cl_sub l) ctxs = Some Y /\ length (sb_ids s) = x_out Y /\ length (sb_offs s) = S (x_out Y).
    Lemma from_vec_total (Y : Ctx) idy i {A} (f : nat -> option A) : forall (r : list nat) (g : nat -> option nat), lookup idy ctxs = Some Y -> 1 <= i <= x_out Y -> omap g (rev (seq (getn (x_used Y) i) (i - getn (x_used Y) i))) = Some r -> from_vec cross r = Some r.
    Proof.
      intros r g HY Hi Hr. unfold from_vec. destruct (bool_dec cross true) as [Ecr|Ecr]; [rewrite Ecr; auto|apply not_true_iff_false in Ecr]. rewrite Ecr. cbn [orb]. apply omap_length in Hr. rewrite rev_length, seq_length in Hr.
      rewrite (t_used1 _ _ _ _ (Htot _ _ HY) Ecr i) in Hr by lia. assert (length r = 1) by lia. rewrite H. auto.
    Qed.
    Lemma used_at (Y : Ctx) idy i : lookup idy ctxs = Some Y -> 1 <= i <= x_out Y -> nth_error (x_used Y) i = Some (getn (x_used Y) i) /\ getn (x_used Y) i < i.
    Proof.
      intros HY Hi. pose proof (ok_used1 _ _ _ _ _ (Hok _ _ HY) i Hi). split; [|lia]. unfold getn. apply nth_error_nth'. rewrite (t_used _ _ _ _ (Htot _ _ HY)). lia.
    Qed.
    Lemma child_total s i : sb_ok s -> start_of X (sb_k s) < i <= end_of X (sb_k s) -> exists l Y p, nth_error (x_calls X) (sb_k s) = Some l /\ lookup (cl_sub l) ctxs = Some Y /\ child_alloc cross X Y s i = Some p.
    Proof.
      intros [l [Y [Hk [HY [L1 L2]]]]] Hi. exists l, Y. destruct (call_facts cross cs ctxs Hwf rank Hrank Hnd Hok id X _ l HX Hk) as [Y' [HY' [_ [He _]]]]. assert (Y' = Y) by congruence. subst Y'.
      unfold child_alloc. set (j := i - start_of X (sb_k s)). assert (Hj : 1 <= j <= x_out Y) by (unfold j; lia).
      destruct (nth_error_Some_ex (sb_ids s) (j - 1)) as [sid Hsid]; [lia|]. rewrite Hsid. cbn [obind]. destruct (used_at Y _ j HY Hj) as [U1 U2]. rewrite U1. cbn [obind].
      destruct (omap_total (nth_error (sb_offs s)) (rev (seq (getn (x_used Y) j) (j - getn (x_used Y) j)))) as [offs Hoffs].
      { intros t Ht. rewrite <- in_rev in Ht. apply in_seq in Ht. apply nth_error_Some_ex. lia. }
      rewrite Hoffs. cbn [obind]. rewrite (from_vec_total Y _ j (fun _ => Some 0) _ _ HY Hj Hoffs). cbn [obind]. destruct (nth_error_Some_ex (sb_offs s) j) as [o Ho]; [lia|]. rewrite Ho. cbn [obind]. eauto.
    Qed.
    Lemma children_total sbs i : Forall sb_ok sbs -> exists r, children_at cross ctxs X sbs i = Some r.
    Proof.
      intros H. rewrite Forall_forall in H. unfold children_at. match goal with |- exists r, ofold ?f _ _ = _ => destruct (ofold_total f (fun _ => True) sbs) with (a := @nil (nat * list Alloc)) as [r [Hr _]] end; auto; [|eauto].
      intros chs s Hs _. destruct (Nat.ltb_spec (start_of X (sb_k s)) i) as [H1|]; [|cbn; eauto]. destruct (Nat.leb_spec i (end_of X (sb_k s))) as [H2|]; [|cbn; eauto]. cbn [andb].
      destruct (child_total s i (H s Hs) ltac:(lia)) as [l [Y [p [A [B D]]]]]. rewrite A. cbn [obind]. rewrite B. cbn [obind]. rewrite D. cbn [obind]. eauto.
    Qed.
    Lemma segment_total sbs i : Forall sb_ok sbs -> 1 <= i <= x_out X -> exists s, make_segment cross ctxs X layouts lqs sbs i = Some s.
    Proof.
      intros Hs Hi. unfold make_segment. destruct (used_at X _ i HX Hi) as [U1 U2]. rewrite U1. cbn [obind].
      destruct (omap_total (fun j => let* L := nth_error layouts j in Some (ly_size L)) (rev (seq (getn (x_used X) i) (i - getn (x_used X) i)))) as [ins Hins].
      { intros t Ht. rewrite <- in_rev in Ht. apply in_seq in Ht. destruct (nth_error_Some_ex layouts t) as [L HL]; [lia|]. rewrite HL. cbn [obind]. eauto. }
      rewrite Hins. cbn [obind]. rewrite (from_vec_total X _ i (fun _ => Some 0) _ _ HX Hi Hins). cbn [obind]. destruct (nth_error_Some_ex layouts i) as [L HL]; [lia|]. rewrite HL. cbn [obind].
      destruct (children_total sbs i Hs) as [chs ->]. cbn [obind]. destruct (own_total i Hi) as [gs ->]. cbn [obind]. eauto.
    Qed.
    Lemma subs_total rec : (forall Y idy ls segs, rank idy < rank id -> lookup idy ctxs = Some Y -> length ls = S (x_out Y) -> (forall i L, nth_error ls i = Some L -> okl ctxs L /\ lok ctxs L /\ ly_circ L = idy /\ ly_layer L = i) ->
        exists segs' ids, rec ls segs = Some (segs', ids) /\ length ids = x_out Y) ->
      forall ks segs, (forall k, In k ks -> k < length (x_calls X)) -> exists segs' sbs, connect_subs rec ctxs X layouts lqs ks segs = Some (segs', sbs) /\ Forall sb_ok sbs.
    Proof.
      intros Hrec. induction ks as [|k ks IH]; intros segs Hks; cbn [connect_subs]; [exists segs, []; auto|].
      destruct (nth_error_Some_ex (x_calls X) k (Hks k (or_introl eq_refl))) as [l Hlk]. destruct (call_facts cross cs ctxs Hwf rank Hrank Hnd Hok id X k l HX Hlk) as [Y [HY [Hs0 [He [Hex [Ho1 [_ [_ [_ [_ Hrk]]]]]]]]]].
      destruct (omap_total (sub_layout ctxs X layouts lqs k) (seq (start_of X k) (S (end_of X k - start_of X k)))) as [ls Hls].
      { intros j Hj. apply in_seq in Hj. destruct (sub_layout_total k l Y j Hlk HY ltac:(lia)) as [p [Hp _]]. eauto. }
      rewrite Hls. cbn [obind]. assert (Hln : length ls = S (x_out Y)) by (rewrite (omap_length _ _ _ Hls), seq_length; lia).
      destruct (Hrec Y (cl_sub l) (map fst ls) segs Hrk HY) as [segs1 [ids [Hr Hids]]].
      { rewrite map_length. auto. }
      { intros i L HL. rewrite nth_error_map in HL. destruct (nth_error ls i) as [p|] eqn:Ep; [|discriminate]. cbn [option_map] in HL. apply Some_inj in HL. subst L. pose proof (nth_error_Some_lt _ _ _ Ep) as Hlt.
        destruct (nth_from _ _ _ _ i Hls ltac:(lia)) as [p' [P1 P2]]. assert (p' = p) by congruence. subst p'. destruct (sub_layout_total k l Y (start_of X k + i) Hlk HY ltac:(lia)) as [p' [Q1 [Q2 [Q3 Q4]]]]. assert (p' = p) by congruence. subst p'.
        split; auto. split; [|split; auto; lia]. eapply sub_layout_lok; [|exact P2]. intros i' L' HL'. apply (Hl _ _ HL'). }
      rewrite Hr. cbn [obind fst snd]. destruct (IH segs1 (fun k' Hk' => Hks k' (or_intror Hk'))) as [segs2 [sbs [Hc Hsb]]]. rewrite Hc. cbn [obind fst snd]. eexists _, _. split; [reflexivity|]. constructor; auto. exists l, Y. cbn [sb_k sb_ids sb_offs]. rewrite map_length. auto.
    Qed.
  End Level.

  Theorem connect_total : forall fuel id X layouts segs, rank id < fuel -> lookup id ctxs = Some X -> length layouts = S (x_out X) ->
    (forall i L, nth_error layouts i = Some L -> okl ctxs L /\ lok ctxs L /\ ly_circ L = id /\ ly_layer L = i) ->
    exists segs' ids, connect cross fuel ctxs layouts segs = Some (segs', ids) /\ length ids = x_out X.
  Proof.
    induction fuel as [|fuel IH]; intros id X layouts segs Hr HX Hlen Hl; [lia|]. cbn [connect]. destruct (nth_error_Some_ex layouts 0) as [L0 H0]; [lia|]. assert (Hh : hd_error layouts = Some L0) by (destruct layouts; auto). rewrite Hh. cbn [obind].
    destruct (Hl _ _ H0) as [_ [_ [Hc0 _]]]. rewrite Hc0. rewrite guard_true.
    2:{ apply forallb_forall. intros [i L] Hi. apply in_combine_seq in Hi. rewrite Nat.sub_0_r in Hi. destruct Hi as [_ Hi]. destruct (Hl _ _ Hi) as [_ [_ [E1 E2]]]. cbn [fst snd]. rewrite E1, E2, !Nat.eqb_refl. auto. }
    cbn [obind]. rewrite HX. cbn [obind]. rewrite guard_true by (apply Nat.eqb_eq; auto). cbn [obind]. destruct (lqs_total id X layouts HX Hlen Hl) as [lqs Hlq]. rewrite Hlq. cbn [obind].
    rewrite guard_true.
    2:{ apply forallb_forall. intros [C lq] Hi. cbn [fst snd]. apply forallb_forall. intros x Hx. apply In_nth_error in Hi. destruct Hi as [i Hi]. pose proof (nth_error_Some_lt _ _ _ Hi) as Hlt. rewrite firstn_length in Hlt. rewrite nth_firstn_lt in Hi by lia. apply combine_nth_inv in Hi. destruct Hi as [I1 I2].
        destruct (placed id X layouts HX Hlen Hl lqs Hlq i C lq x I1 I2 ltac:(left; lia) Hx) as [s ->]. auto. }
    cbn [obind]. destruct (subs_total id X layouts HX Hlen Hl lqs Hlq (connect cross fuel ctxs)) with (ks := seq 0 (length (x_calls X))) (segs := segs) as [segs1 [sbs [Hs Hsb]]].
    { intros Y idy ls sg Hrk HY. apply IH; auto. lia. }
    { intros k Hk. apply in_seq in Hk. lia. }
    rewrite Hs. cbn [obind fst snd]. destruct (omap_total (make_segment cross ctxs X layouts lqs sbs) (seq 1 (x_out X))) as [new Hnew].
    { intros i Hi. apply in_seq in Hi. apply (segment_total id X layouts HX Hlen Hl lqs Hlq sbs i Hsb). lia. }
    rewrite Hnew. cbn [obind]. eexists _, _. split; [reflexivity|]. rewrite seq_length, (omap_length _ _ _ Hnew), seq_length. auto.
  Qed.
End LayConn.
