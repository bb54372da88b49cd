(* Layered circuits up to what they compute; dedup_gates and sort_everything. *)
From Verif Require Import Prelude Field Zp Expr Topo Ir UnionFind Sorting Layered LayeredFacts LayeredOpt LayeredOptFacts.

Section LOS.
  Context {F : Fld} {MD : Mode}.
  Add Field LOSf : (fth F).
  Notation UG := (UG F). Notation Segment := (Segment F). Notation LCircuit := (LCircuit F). Notation Gate := (Gate F).

  Lemma F2_impl {A B} (R S : A -> B -> Prop) l l' : (forall a b, R a b -> S a b) -> Forall2 R l l' -> Forall2 S l l'.
  Proof. intros H. induction 1; constructor; auto. Qed.
  (* ------------------------------------------------------------ a segment *)
  Lemma seg_gates_ul (s : Segment) : seg_gates s = ul k_mul (s_muls s) ++ ul KAdd (s_adds s) ++ ul k_const (s_consts s) ++ ul k_custom (s_customs s).
  Proof. reflexivity. Qed.
  Lemma gq_add_zeros (gs : list UG) os : gq gs (gs ++ ul k_const (map zconst os)).
  Proof.
    eapply gq_trans; [|apply gq_perm; apply Permutation_app_comm]. induction os as [|o os IH]; [apply gq_refl|]. cbn [map ul app].
    change (map (uni k_const) (map zconst os)) with (ul (A := unit) k_const (map (@zconst F) os)). eapply gq_trans; [exact IH|].
    assert (H : gq (uni k_const (zconst o) :: (ul (A := unit) k_const (map (@zconst F) os) ++ gs)) (ul k_const (map zconst os) ++ gs)) by (apply gq_drop; exists f0; split; [auto|apply is0_spec; auto]).
    destruct H as [H1 [H2 [H3 H4]]]. repeat split; auto.
  Qed.
  Definition s1_of (s : Segment) : Segment := seg_set s (s_children s) (dedup k_mul true (s_muls s)) (dedup KAdd true (s_adds s)) (dedup k_const false (s_consts s)) (dedup k_custom true (s_customs s)).
  Definition need_of (s : Segment) : list nat := filter (fun o => memb o (outs_of s) && negb (memb o (outs_of (s1_of s)))) (seq 0 (s_outs s)).
  Lemma seg_dedup_perm (s : Segment) : Permutation (seg_gates (seg_dedup s)) (seg_gates (s1_of s) ++ ul k_const (map zconst (need_of s))).
  Proof.
    unfold seg_dedup. fold (s1_of s). fold (need_of s). rewrite !seg_gates_ul. cbn [seg_set s_muls s_adds s_consts s_customs].
    assert (H : Permutation (ul k_const (gsort k_const (s_consts (s1_of s) ++ map zconst (need_of s)))) (ul k_const (s_consts (s1_of s)) ++ ul k_const (map zconst (need_of s)))).
    { unfold ul. rewrite <- map_app. apply Permutation_map. apply gsort_perm. }
    rewrite H. rewrite <- !app_assoc. apply Permutation_app_head. apply Permutation_app_head. apply Permutation_app_head. apply Permutation_app_comm.
  Qed.
  Lemma in_outs (s : Segment) o : In o (outs_of s) <-> exists g, In g (seg_gates s) /\ g_out g = o.
  Proof. unfold outs_of. rewrite in_map_iff. split; intros [g [H1 H2]]; exists g; auto. Qed.
  Lemma ul_dedup_outs {A} (k : A -> Kind) trim (l : list (Gate A)) g : In g (ul k (dedup k trim l)) -> exists h, In h (ul k l) /\ g_out h = g_out g.
  Proof. intros H. apply in_map_iff in H. destruct H as [g0 [<- H]]. apply dedup_outs in H. destruct H as [h [H1 [H2 H3]]]. exists (uni k h). split; [apply in_map; auto|auto]. Qed.
  Lemma seg_dedup_fe (s : Segment) : Forall (fun g => g_out g < s_outs s) (seg_gates s) -> fequiv (seg_gates s) (seg_gates (seg_dedup s)).
  Proof.
    intros Hb. assert (H1 : gq (seg_gates s) (seg_gates (s1_of s))).
    { rewrite !seg_gates_ul. cbn [s1_of seg_set s_muls s_adds s_consts s_customs]. repeat apply gq_app; apply dedup_gq. }
    split.
    - eapply gq_trans; [exact H1|]. eapply gq_trans; [apply (gq_add_zeros _ (need_of s))|]. apply gq_perm. symmetry. apply seg_dedup_perm.
    - eapply outs_trans; [|apply outs_perm; symmetry; apply seg_dedup_perm]. intros o. rewrite map_app, in_app_iff.
      assert (Hsub : In o (outs_of (s1_of s)) -> In o (outs_of s)).
      { rewrite !in_outs. rewrite !seg_gates_ul. cbn [s1_of seg_set s_muls s_adds s_consts s_customs]. intros [g [Hg <-]]. rewrite !in_app_iff in Hg.
        destruct Hg as [Hg|[Hg|[Hg|Hg]]]; apply ul_dedup_outs in Hg; destruct Hg as [h [X1 X2]]; exists h; rewrite !in_app_iff; auto. }
      change (map (fun g => g_out g) (seg_gates s)) with (outs_of s). change (map g_out (seg_gates (s1_of s))) with (outs_of (s1_of s)).
      assert (Hn : In o (map g_out (ul (A := unit) k_const (map (@zconst F) (need_of s)))) <-> In o (need_of s)).
      { unfold ul. rewrite !map_map. cbn. rewrite map_id. reflexivity. }
      split.
      + intros Ho. destruct (memb o (outs_of (s1_of s))) eqn:E; [left; apply memb_spec; auto|]. right. apply Hn. apply filter_In. split.
        * apply in_seq. assert (Ho' := Ho). apply in_outs in Ho'. destruct Ho' as [g [Hg <-]]. rewrite Forall_forall in Hb. specialize (Hb g Hg). lia.
        * apply andb_true_iff. split; [apply memb_spec; auto|]. rewrite E. auto.
      + intros [Ho|Ho]; auto. apply Hn in Ho. apply filter_In in Ho. destruct Ho as [_ Ho]. apply andb_true_iff in Ho. apply memb_spec. tauto.
  Qed.
  (* constants at pairwise different places *)
  Definition cst (g : UG) : bool := is_const (g_coef g).
  Definition cdistinct (gs : list UG) : Prop := NoDup (map ug_key (filter cst gs)).
  Lemma cdistinct_app a b : cdistinct a -> cdistinct b -> (forall x y, In x a -> In y b -> ug_key x <> ug_key y) -> cdistinct (a ++ b).
  Proof.
    unfold cdistinct. intros Ha Hb H. rewrite filter_app, map_app. apply NoDup_app_iff. split; auto. split; auto.
    intros x X1 X2. apply in_map_iff in X1, X2. destruct X1 as [u [U1 U2]]. destruct X2 as [v [V1 V2]]. apply filter_In in U2, V2. apply (H u v); [tauto|tauto|congruence].
  Qed.
  Lemma cdistinct_perm a b : Permutation a b -> cdistinct a -> cdistinct b.
  Proof. unfold cdistinct. intros H. apply Permutation_NoDup. apply Permutation_map. apply filter_perm; auto. Qed.
  Lemma cdistinct_nodup gs : cdistinct gs -> NoDup (filter cst gs).
  Proof. apply NoDup_map_inv. Qed.
  Lemma ul_tag {A} (k : A -> Kind) (l : list (Gate A)) t : (forall a, hd 9 (kind_key (k a)) = t) -> forall g, In g (ul k l) -> hd 9 (ug_key g) = t.
  Proof. intros H g Hg. apply in_map_iff in Hg. destruct Hg as [x [<- _]]. unfold ug_key. cbn [uni g_in]. rewrite <- (H (g_in x)). destruct (k (g_in x)); auto. Qed.
  Ltac tagsplit H := repeat (apply in_app_or in H; destruct H as [H|H]).
  Lemma seg_dedup_distinct (s : Segment) : cdistinct (seg_gates (seg_dedup s)).
  Proof.
    eapply cdistinct_perm; [symmetry; apply seg_dedup_perm|].
    assert (Hc : forall A (k : A -> Kind) trim (l : list (Gate A)), cdistinct (ul k (dedup k trim l))) by (intros; apply dedup_keys).
    assert (T0 : forall l : list (Gate (Inp * Inp)), forall g, In g (ul k_mul l) -> hd 9 (ug_key g) = 0) by (intros l; apply ul_tag; auto).
    assert (T1 : forall l : list (Gate Inp), forall g, In g (ul KAdd l) -> hd 9 (ug_key g) = 1) by (intros l; apply ul_tag; auto).
    assert (T2 : forall l : list (Gate unit), forall g, In g (ul k_const l) -> hd 9 (ug_key g) = 2) by (intros l; apply ul_tag; auto).
    assert (T3 : forall l : list (Gate (nat * list Inp)), forall g, In g (ul k_custom l) -> hd 9 (ug_key g) = 3) by (intros l; apply ul_tag; auto).
    apply cdistinct_app.
    - rewrite seg_gates_ul. cbn [s1_of seg_set s_muls s_adds s_consts s_customs]. repeat (apply cdistinct_app; [apply Hc| |]); try apply Hc;
        intros x y Hx Hy E; tagsplit Hy; first [apply T0 in Hx|apply T1 in Hx|apply T2 in Hx|apply T3 in Hx]; first [apply T1 in Hy|apply T2 in Hy|apply T3 in Hy]; congruence.
    - unfold cdistinct. assert (He : filter cst (ul k_const (map zconst (need_of s))) = ul k_const (map zconst (need_of s))).
      { generalize (need_of s). induction l as [|o l IH]; auto. cbn [map ul filter]. cbn. f_equal. exact IH. }
      rewrite He. unfold ul. rewrite !map_map. apply FinFun.Injective_map_NoDup; [intros x y H; cbn in H; injection H; auto|]. apply NoDup_filter. apply seq_NoDup.
    - intros x y Hx Hy E. apply in_map_iff in Hy. destruct Hy as [z [<- Hz]]. apply in_map_iff in Hz. destruct Hz as [o [<- Ho]]. apply filter_In in Ho. destruct Ho as [_ Ho]. apply andb_true_iff in Ho. destruct Ho as [_ Ho].
      apply negb_true_iff in Ho. assert (H : In o (outs_of (s1_of s))); [|apply memb_spec in H; congruence]. apply in_outs. exists x. split; auto.
      unfold ug_key in E. apply kind_key_inj in E. destruct E as [_ E]. injection E as E _. auto.
  Qed.

  (* ------------------------------------------------------------ circuits *)
  Definition fl (segs : list Segment) (id : nat) : list UG := flat (length segs) segs id.
  Definition seg_sim (segs segs' : list Segment) (id id' : nat) : Prop :=
    exists s s', nth_error segs id = Some s /\ nth_error segs' id' = Some s' /\ s_ins s' = s_ins s /\ s_outs s' = s_outs s /\ fequiv (fl segs id) (fl segs' id').
  Definition lequiv (c c' : LCircuit) : Prop :=
    l_pub c' = l_pub c /\ l_actual c' = l_actual c /\ l_zeroes c' = l_zeroes c /\
    exists rn, l_layers c' = map rn (l_layers c) /\ forall id, In id (l_layers c) -> seg_sim (l_segs c) (l_segs c') id (rn id).
  Lemma lequiv_trans a b c : lequiv a b -> lequiv b c -> lequiv a c.
  Proof.
    intros [A1 [A2 [A3 [ra [A4 A5]]]]] [B1 [B2 [B3 [rb [B4 B5]]]]]. split; [congruence|]. split; [congruence|]. split; [congruence|]. exists (fun x => rb (ra x)). split; [rewrite B4, A4, map_map; auto|].
    intros id Hid. destruct (A5 id Hid) as [s [s1 [S1 [S2 [S3 [S4 S5]]]]]]. assert (Hid2 : In (ra id) (l_layers b)) by (rewrite A4; apply in_map; auto).
    destruct (B5 _ Hid2) as [s1' [s2 [T1 [T2 [T3 [T4 T5]]]]]]. assert (s1' = s1) by congruence. subst. exists s, s2. split; auto. split; auto. split; [congruence|]. split; [congruence|]. eapply fe_trans; eauto.
  Qed.
  Lemma layer_sem_sim E segs segs' id id' cur nxt : drawn E -> seg_sim segs segs' id id' -> layer_sem E segs id cur nxt <-> layer_sem E segs' id' cur nxt.
  Proof.
    intros HD [s [s' [S1 [S2 [S3 [S4 [[S5 [S6 _]] _]]]]]]]. unfold layer_sem. split.
    - intros [s0 [cs [H1 [H2 ->]]]]. assert (s0 = s) by congruence. subst. destruct (S5 E (wireF cur) cs HD) as [cs' [C1 C2]]; [eapply F2_impl; [|exact H2]; intros g p; apply contrib_w|].
      exists s', cs'. split; auto. split; [eapply F2_impl; [|exact C1]; intros g p; apply contrib_w|]. rewrite S4. apply map_ext. auto.
    - intros [s0 [cs [H1 [H2 ->]]]]. assert (s0 = s') by congruence. subst. destruct (S6 E (wireF cur) cs HD) as [cs' [C1 C2]]; [eapply F2_impl; [|exact H2]; intros g p; apply contrib_w|].
      exists s, cs'. split; auto. split; [eapply F2_impl; [|exact C1]; intros g p; apply contrib_w|]. rewrite S4. apply map_ext. auto.
  Qed.
  Lemma layers_sem_sim E segs segs' rn : drawn E -> forall ids, (forall id, In id ids -> seg_sim segs segs' id (rn id)) -> forall cur cur', layers_sem E segs ids cur cur' <-> layers_sem E segs' (map rn ids) cur cur'.
  Proof.
    intros HD. induction ids as [|id ids IH]; intros H cur cur'; cbn [map].
    - split; intros X; inversion X; subst; constructor.
    - assert (Hs := H id (or_introl eq_refl)). specialize (IH (fun x Hx => H x (or_intror Hx))). split; intros X; inversion X as [|? ? ? nxt ? X1 X2]; subst; apply (LSCons _ _ _ _ _ nxt).
      + apply (layer_sem_sim E _ _ _ _ _ _ HD Hs); auto.
      + apply IH; auto.
      + apply (layer_sem_sim E _ _ _ _ _ _ HD Hs); auto.
      + apply IH; auto.
  Qed.
  Lemma lequiv_input c c' : lequiv c c' -> input_size c' = input_size c.
  Proof.
    intros [_ [_ [_ [rn [H1 H2]]]]]. unfold input_size. rewrite H1. destruct (l_layers c) as [|id ids]; auto. cbn [map]. destruct (H2 id (or_introl eq_refl)) as [s [s' [S1 [S2 [S3 _]]]]].
    unfold seg_of. rewrite S1, S2. cbn [obind]. rewrite S3. auto.
  Qed.
  Theorem lequiv_run E c c' ins outs sat : drawn E -> lequiv c c' -> lrun E c ins outs sat <-> lrun E c' ins outs sat.
  Proof.
    intros HD H. assert (Hi := lequiv_input _ _ H). destruct H as [_ [H2 [H3 [rn [H4 H5]]]]]. unfold lrun. rewrite Hi, H2, H3, H4.
    split; intros [cur [out [X1 [X2 X3]]]]; exists cur, out; (split; [auto|]; split; [|exact X3]); apply (layers_sem_sim E (l_segs c) (l_segs c') rn HD (l_layers c) H5 [ins] cur); auto.
  Qed.
  Lemma last_map {A B} (f : A -> B) l d : last (map f l) (f d) = f (last l d).
  Proof. induction l as [|x [|y l] IH]; auto. Qed.
  Lemma last_in {A} (l : list A) d : l <> [] -> In (last l d) l.
  Proof. induction l as [|x [|y l] IH]; intros H; [congruence|left; auto|]. right. apply IH. discriminate. Qed.
  Lemma lequiv_last c c' : l_layers c <> [] -> lequiv c c' -> last_size c' = last_size c.
  Proof.
    intros Hn [_ [_ [_ [rn [H1 H2]]]]]. unfold last_size. rewrite H1. assert (Hd : forall d d', last (map rn (l_layers c)) d = last (map rn (l_layers c)) d').
    { intros d d'. destruct (l_layers c) as [|x l]; [congruence|]. cbn [map]. clear. revert x. induction l as [|y l IH]; intros x; auto. cbn [map]. change (last (rn y :: map rn l) d = last (rn y :: map rn l) d'). apply IH. }
    rewrite (Hd 0 (rn 0)), last_map. destruct (H2 (last (l_layers c) 0) (last_in _ _ Hn)) as [s [s' [S1 [S2 [_ [S4 _]]]]]]. rewrite S1, S2. auto.
  Qed.

  (* ------------------------------------------------------------ validation *)
  Lemma in_mask_sound (segs : list Segment) : forall fuel id w, in_mask fuel segs id w = true -> exists g, In g (flat fuel segs id) /\ In w (k_ins (g_in g)).
  Proof.
    induction fuel as [|fuel IH]; intros id w H; cbn [flat in_mask] in *; [discriminate|]. destruct (nth_error segs id) as [s|]; [|discriminate].
    apply orb_true_iff in H. destruct H as [H|H]; apply existsb_exists in H.
    - destruct H as [g [Hg H]]. apply existsb_exists in H. destruct H as [i [Hi H]]. apply andb_true_iff in H. destruct H as [H1 H2]. apply Nat.eqb_eq in H1, H2. exists g. split; [apply in_or_app; auto|].
      destruct i, w. cbn in *. subst. auto.
    - destruct H as [ch [Hch H]]. destruct (nth_error segs (fst ch)) as [sub|]; [|discriminate]. apply existsb_exists in H. destruct H as [a [Ha H]].
      destruct (nth_error (a_in a) (il w)) as [off|] eqn:Eo; [|discriminate]. destruct (nth_error (s_ins sub) (il w)) as [len|]; [|discriminate]. rewrite !andb_true_iff in H. destruct H as [[H1 _] H2].
      apply Nat.leb_le in H1. destruct (IH _ _ H2) as [g [Hg Hw]]. exists (ushift a g). split.
      + apply in_or_app. right. apply in_flat_map. exists ch. split; auto. apply in_flat_map. exists a. split; auto. apply in_map; auto.
      + cbn [ushift g_in]. rewrite k_ins_map. apply in_map_iff. exists (mkInp (il w) (io w - off)). split; auto. unfold shift. cbn [il io]. rewrite (nth_error_nth _ _ 0 Eo). destruct w; cbn in *. f_equal. lia.
  Qed.
  Lemma out_mask_complete (segs : list Segment) : wf_segs segs -> forall fuel id s g, nth_error segs id = Some s -> In g (flat fuel segs id) -> out_mask fuel segs id (g_out g) = true.
  Proof.
    intros W. induction fuel as [|fuel IH]; intros id s g Hs Hg; cbn [flat out_mask] in *; [destruct Hg|]. rewrite Hs in *. destruct (W id s Hs) as [_ [_ Wc]]. apply orb_true_iff.
    apply in_app_or in Hg. destruct Hg as [Hg|Hg].
    - left. apply existsb_exists. exists g. split; auto. apply Nat.eqb_refl.
    - right. apply in_flat_map in Hg. destruct Hg as [ch [Hch Hg]]. apply in_flat_map in Hg. destruct Hg as [a [Ha Hg]]. apply in_map_iff in Hg. destruct Hg as [g0 [<- Hg]].
      apply existsb_exists. exists ch. split; auto. rewrite Forall_forall in Wc. destruct (Wc ch Hch) as [_ [sub [Hsub [Hl Hal]]]]. rewrite Hsub. apply existsb_exists. exists a. split; auto.
      pose proof (flat_inb segs W fuel _ _ Hsub) as Hf. rewrite Forall_forall in Hf. destruct (Hf g0 Hg) as [_ G2]. cbn [ushift g_out].
      replace (a_out a + g_out g0 - a_out a) with (g_out g0) by lia. rewrite (IH _ _ _ Hsub Hg). destruct (Nat.leb_spec (a_out a) (a_out a + g_out g0)); [|lia]. destruct (Nat.ltb_spec (a_out a + g_out g0) (a_out a + s_outs sub)); [auto|lia].
  Qed.
  Lemma masks_sim c c' rn : wf_segs (l_segs c) -> wf_segs (l_segs c') -> forall ids done, (forall id, In id (ids ++ done) -> seg_sim (l_segs c) (l_segs c') id (rn id)) ->
    masks_ok c ids done = true -> masks_ok c' (map rn ids) (map rn done) = true.
  Proof.
    intros W W'. induction ids as [|id ids IH]; intros done Hd H; cbn [map masks_ok] in *; auto. unfold seg_of in *.
    destruct (Hd id (or_introl eq_refl)) as [s [s' [S1 [S2 [S3 [S4 [[_ [_ [Sr _]]] _]]]]]]]. rewrite S2. rewrite S1 in H. apply andb_true_iff in H. destruct H as [H1 H2]. apply andb_true_iff. split.
    - rewrite S3. rewrite forallb_forall in H1 |- *. intros [l len] Hin. specialize (H1 _ Hin). cbn beta iota in H1 |- *. rewrite nth_error_map. destruct (nth_error done l) as [src|] eqn:Ed; [|auto]. cbn [option_map].
      rewrite forallb_forall in H1 |- *. intros j Hj. specialize (H1 j Hj). apply orb_true_iff in H1. apply orb_true_iff.
      destruct (Hd src) as [t [t' [T1 [T2 [_ [_ [_ To]]]]]]]. { cbn. right. apply in_or_app. right. eapply nth_error_In; eauto. }
      destruct H1 as [H1|H1].
      + left. apply negb_true_iff. destruct (in_mask _ (l_segs c') _ _) eqn:Em; auto. apply in_mask_sound in Em. destruct Em as [g [Hg Hw]].
        assert (Hi : In (mkInp l j) (all_ins (fl (l_segs c) id))) by (apply Sr; apply in_flat_map; eauto). apply in_flat_map in Hi. destruct Hi as [g0 [Hg0 Hw0]].
        apply negb_true_iff in H1. rewrite (in_mask_complete _ W _ _ _ _ _ S1 Hg0 Hw0) in H1. discriminate.
      + right. apply out_mask_sound in H1. destruct H1 as [g [Hg <-]]. assert (Ho : In (g_out g) (map g_out (fl (l_segs c') (rn src)))) by (apply To; apply in_map; auto).
        apply in_map_iff in Ho. destruct Ho as [g' [<- Hg']]. eapply out_mask_complete; eauto.
    - apply (IH (id :: done)); auto. intros x Hx. apply Hd. rewrite in_app_iff in Hx. cbn in *. rewrite in_app_iff. tauto.
  Qed.
  Lemma sizes_sim c c' rn : forall ids sizes, (forall id, In id ids -> seg_sim (l_segs c) (l_segs c') id (rn id)) -> sizes_ok c ids sizes = true -> sizes_ok c' (map rn ids) sizes = true.
  Proof.
    induction ids as [|id ids IH]; intros sizes Hd H; cbn [map sizes_ok] in *; auto. unfold seg_of in *. destruct (Hd id (or_introl eq_refl)) as [s [s' [S1 [S2 [S3 [S4 _]]]]]]. rewrite S1 in H. rewrite S2, S3, S4.
    apply andb_true_iff in H. destruct H as [H1 H2]. rewrite H1. apply IH; auto. intros x Hx. apply Hd. right; auto.
  Qed.
  Theorem lequiv_valid c c' : lequiv c c' -> l_validate c = true -> segs_ok (length (l_layers c)) (l_segs c') 0 (l_segs c') = true -> l_validate c' = true.
  Proof.
    intros He Hv Hs. assert (W := validate_wf_segs _ Hv). assert (W' : wf_segs (l_segs c')).
    { intros i s Hi. eapply seg_ok_wf. apply (segs_ok_nth _ _ _ 0 i s Hs Hi). }
    destruct He as [_ [_ [_ [rn [H1 H2]]]]]. unfold l_validate in *. rewrite !andb_true_iff in Hv. destruct Hv as [[V1 V2] V3]. rewrite H1, map_length, Hs. cbn [andb].
    apply andb_true_iff. split.
    - apply forallb_forall. intros x Hx. apply in_map_iff in Hx. destruct Hx as [id [<- Hid]]. destruct (H2 id Hid) as [s [s' [_ [S2 _]]]]. apply Nat.ltb_lt. eapply nth_error_Some_lt; eauto.
    - destruct (l_layers c) as [|id ids] eqn:El; [discriminate|]. cbn [map]. destruct (H2 id (or_introl eq_refl)) as [s [s' [S1 [S2 [S3 _]]]]]. unfold seg_of in *. rewrite S1 in V3. rewrite S2, S3. destruct (s_ins s) as [|n ns]; [discriminate|].
      apply andb_true_iff in V3. destruct V3 as [V3 V4]. apply andb_true_iff. split.
      + apply (sizes_sim c c' rn (id :: ids)); auto.
      + apply (masks_sim c c' rn W W' (id :: ids) []); auto. intros x Hx. apply H2. rewrite app_nil_r in Hx. auto.
  Qed.

  (* ------------------------------------------------------------ per-segment passes: same children, same gates up to fequiv *)
  Lemma flat_local (segs segs' : list Segment) : wf_segs segs -> length segs' = length segs ->
    (forall i s, nth_error segs i = Some s -> exists s', nth_error segs' i = Some s' /\ Permutation (s_children s) (s_children s') /\ fequiv (seg_gates s) (seg_gates s')) ->
    forall f id, fequiv (flat f segs id) (flat f segs' id).
  Proof.
    intros W Hl H. induction f as [|f IH]; intros id; cbn [flat]; [apply fe_refl|]. destruct (nth_error segs id) as [s|] eqn:Es.
    - destruct (H id s Es) as [s' [H1 [H2 H3]]]. rewrite H1. apply fe_app; auto. eapply fe_trans; [|apply fe_perm; apply Permutation_flat_map; exact H2].
      apply fe_flat_map. intros ch _. apply fe_flat_map. intros a _. apply fe_shift. apply IH.
    - destruct (nth_error segs' id) as [s'|] eqn:Es'; [|apply fe_refl]. apply nth_error_Some_lt in Es'. apply nth_error_None in Es. lia.
  Qed.
  Lemma gates_ok_fe nl (s s' : Segment) gs gs' : s_ins s' = s_ins s -> s_outs s' = s_outs s -> fequiv gs gs' -> forallb (gate_ok nl s) gs = true -> forallb (gate_ok nl s') gs' = true.
  Proof.
    intros H1 H2 [[_ [_ [Hr _]]] Ho] H. apply forallb_forall. intros g Hg. unfold gate_ok. rewrite H1, H2. rewrite forallb_forall in H. apply andb_true_iff. split.
    - apply forallb_forall. intros i Hi. assert (Hi2 : In i (all_ins gs)) by (apply Hr; apply in_flat_map; eauto). apply in_flat_map in Hi2. destruct Hi2 as [g0 [G1 G2]]. specialize (H g0 G1). unfold gate_ok in H.
      apply andb_true_iff in H. destruct H as [H _]. rewrite forallb_forall in H. apply H; auto.
    - assert (Hx : In (g_out g) (map g_out gs)) by (apply Ho; apply in_map; auto). apply in_map_iff in Hx. destruct Hx as [g0 [<- G1]]. specialize (H g0 G1). unfold gate_ok in H. apply andb_true_iff in H. tauto.
  Qed.
  Lemma segs_ok_intro nl (all : list Segment) : forall l i, (forall j s, nth_error l j = Some s -> seg_ok nl all (i + j) s = true) -> segs_ok nl all i l = true.
  Proof.
    induction l as [|s l IH]; intros i H; cbn [segs_ok]; auto. apply andb_true_iff. split; [specialize (H 0 s eq_refl); rewrite Nat.add_0_r in H; auto|]. apply IH. intros j s' Hj. specialize (H (S j) s' Hj). replace (S i + j) with (i + S j) by lia. auto.
  Qed.
  Lemma seg_gates_inb_out nl segs i (s : Segment) : seg_ok nl segs i s = true -> Forall (fun g => g_out g < s_outs s) (seg_gates s).
  Proof. intros H. destruct (seg_ok_wf _ _ _ _ H) as [_ [H2 _]]. eapply Forall_impl; [|exact H2]. intros g [_ X]. auto. Qed.
  (* what the optimiser keeps *)
  Definition nonempty (segs : list Segment) : Prop := forall s ch, In s segs -> In ch (s_children s) -> snd ch <> [].
  Definition nodupf (segs : list Segment) : Prop := forall id, id < length segs -> NoDup (filter nconst (fl segs id)).
  Definition good (c : LCircuit) : Prop := l_validate c = true /\ nonempty (l_segs c) /\ nodupf (l_segs c).
  Definition local_pass (f : Segment -> Segment) : Prop := forall s, s_ins (f s) = s_ins s /\ s_outs (f s) = s_outs s /\ Permutation (s_children s) (s_children (f s)) /\
    (Forall (fun g => g_out g < s_outs s) (seg_gates s) -> fequiv (seg_gates s) (seg_gates (f s))).
  Lemma local_pass_ok f (c : LCircuit) : local_pass f -> l_validate c = true -> let c' := with_segs c (map f (l_segs c)) (l_layers c) in
    lequiv c c' /\ l_validate c' = true /\ (forall f0 id, fequiv (flat f0 (l_segs c) id) (flat f0 (l_segs c') id)).
  Proof.
    intros Hf Hv c'. assert (W := validate_wf_segs _ Hv). assert (Hv' := Hv). unfold l_validate in Hv'. rewrite !andb_true_iff in Hv'. destruct Hv' as [[V1 V2] _].
    assert (Hfl : forall f0 id, fequiv (flat f0 (l_segs c) id) (flat f0 (l_segs c') id)).
    { apply flat_local; auto; [apply map_length|]. intros i s Hi. exists (f s). split; [cbn; rewrite nth_error_map, Hi; auto|]. destruct (Hf s) as [_ [_ [H3 H4]]]. split; auto. apply H4.
      eapply seg_gates_inb_out. apply (segs_ok_nth _ _ _ 0 i s V1 Hi). }
    assert (He : lequiv c c').
    { split; auto. split; auto. split; auto. exists (fun x => x). split; [rewrite map_id; auto|]. intros id Hid. rewrite forallb_forall in V2. specialize (V2 id Hid). apply Nat.ltb_lt in V2.
      destruct (nth_error_Some_ex _ _ V2) as [s Hs]. exists s, (f s). split; auto. split; [cbn; rewrite nth_error_map, Hs; auto|]. destruct (Hf s) as [H1 [H2 _]]. split; auto. split; auto.
      unfold fl. cbn [c' with_segs l_segs]. rewrite map_length. apply Hfl. }
    split; auto. split; auto. apply (lequiv_valid c c'); auto. apply segs_ok_intro. intros j s' Hj. cbn [c' with_segs l_segs] in *. rewrite nth_error_map in Hj. destruct (nth_error (l_segs c) j) as [s|] eqn:Es; [|discriminate]. injection Hj as <-.
    pose proof (segs_ok_nth _ _ _ 0 j s V1 Es) as H. assert (Hout := seg_gates_inb_out _ _ _ _ H). destruct (Hf s) as [F1 [F2 [F3 F4]]]. specialize (F4 Hout). unfold seg_ok in *. rewrite F1, F2. rewrite !andb_true_iff in *. destruct H as [[[[H1 H2] H3] H4] H5].
    repeat split; auto.
    - eapply gates_ok_fe; [| |exact F4|exact H4]; auto.
    - apply forallb_forall. intros ch Hch. assert (Hch2 : In ch (s_children s)) by (eapply Permutation_in; [symmetry; exact F3|exact Hch]). rewrite forallb_forall in H5. specialize (H5 ch Hch2).
      unfold child_ok in *. rewrite nth_error_map. destruct (nth_error (l_segs c) (fst ch)) as [sub|]; cbn [option_map]; auto. destruct (Hf sub) as [G1 [G2 _]]. rewrite G1, G2, F1, F2. auto.
  Qed.
  Lemma local_pass_good f (c : LCircuit) : local_pass f -> good c -> good (with_segs c (map f (l_segs c)) (l_layers c)).
  Proof.
    intros Hf [H1 [H2 H3]]. destruct (local_pass_ok f c Hf H1) as [A [B C]]. split; auto. split.
    - intros s ch Hs Hch. cbn in Hs. apply in_map_iff in Hs. destruct Hs as [s0 [<- Hs]]. destruct (Hf s0) as [_ [_ [P _]]]. apply (H2 s0 ch Hs). eapply Permutation_in; [symmetry; exact P|exact Hch].
    - intros id Hid. cbn [with_segs l_segs] in *. rewrite map_length in Hid. unfold fl. rewrite map_length. specialize (C (length (l_segs c)) id). destruct C as [[_ [_ [_ Cp]]] _]. eapply Permutation_NoDup; [exact Cp|]. apply H3; auto.
  Qed.
  Lemma dedup_local : local_pass seg_dedup.
  Proof. intros s. split; auto. split; auto. split; [apply Permutation_refl|]. apply seg_dedup_fe. Qed.
  Lemma sort_local : local_pass seg_sort.
  Proof.
    intros s. split; auto. split; auto. split; [cbn; symmetry; apply isort_perm|]. intros _. apply fe_perm. rewrite !seg_gates_ul. cbn [seg_sort seg_set s_muls s_adds s_consts s_customs].
    repeat apply Permutation_app; apply Permutation_map; symmetry; apply gsort_perm.
  Qed.
End LOS.
