(* expand_small_segments: counting uses, renumbering, and the whole pass. *)
From Verif Require Import Prelude Field Zp Expr Topo Ir UnionFind Sorting Layered LayeredFacts LayeredOpt LayeredOptFacts LayeredOptSim LayeredExpand.

Lemma bump_len cnt i n : length (bump cnt i n) = length cnt.
Proof. apply upd_length. Qed.
Lemma bump_nth cnt i n j : i < length cnt -> nth j (bump cnt i n) 0 = if i =? j then nth j cnt 0 + n else nth j cnt 0.
Proof.
  intros H. unfold bump. revert i j H. induction cnt as [|x l IH]; intros i j H; cbn in H; [lia|]. destruct i as [|i], j as [|j]; cbn; auto. apply IH. lia.
Qed.
Lemma omap_map_some {A B} (f : A -> option B) (g : A -> B) l : (forall x, In x l -> f x = Some (g x)) -> omap f l = Some (map g l).
Proof. induction l as [|x l IH]; intros H; cbn [omap map]; auto. rewrite H by (left; auto). rewrite IH; auto. intros y Hy. apply H. right; auto. Qed.

Section Keep.
  Variable keep : nat -> bool.
  Definition ids (n : nat) : list nat := filter keep (seq 0 n).
  Lemma ids_split n id : id < n -> keep id = true -> ids n = ids id ++ id :: filter keep (seq (S id) (n - S id)).
  Proof.
    intros H Hk. unfold ids. replace n with (id + S (n - S id)) at 1 by lia. rewrite seq_app, filter_app. f_equal. cbn [seq filter Nat.add]. rewrite Hk. auto.
  Qed.
  Lemma new_id_nth n id : id < n -> keep id = true -> nth_error (ids n) (new_id keep id) = Some id.
  Proof. intros H Hk. rewrite (ids_split n id H Hk). unfold new_id. fold (ids id). rewrite nth_error_app2 by lia. rewrite Nat.sub_diag. auto. Qed.
  Lemma ids_in n id : In id (ids n) <-> id < n /\ keep id = true.
  Proof. unfold ids. rewrite filter_In, in_seq. intuition; lia. Qed.
  Lemma ids_nth n j id : nth_error (ids n) j = Some id -> j = new_id keep id /\ id < n /\ keep id = true.
  Proof.
    intros H. assert (Hin := nth_error_In _ _ H). apply ids_in in Hin. destruct Hin as [H1 H2]. split; auto. assert (Hn : NoDup (ids n)) by (apply NoDup_filter; apply seq_NoDup).
    apply (proj1 (NoDup_nth_error (ids n)) Hn); [eapply nth_error_Some_lt; eauto|]. rewrite H, new_id_nth; auto.
  Qed.
  Lemma new_id_lt a b : a < b -> keep a = true -> new_id keep a < new_id keep b.
  Proof. intros H Hk. unfold new_id. fold (ids a) (ids b). rewrite (ids_split b a H Hk), app_length. cbn. lia. Qed.
End Keep.

Section LEA.
  Context {F : Fld} {MD : Mode}.
  Notation UG := (UG F). Notation Segment := (Segment F). Notation LCircuit := (LCircuit F). Notation Gate := (Gate F).

  (* ------------------------------------------------------------ counting *)
  Lemma bumps_spec (l : list (nat * nat)) : forall cnt, (forall p, In p l -> fst p < length cnt) ->
    length (fold_left (fun cnt p => bump cnt (fst p) (snd p)) l cnt) = length cnt /\
    (forall j, nth j cnt 0 <= nth j (fold_left (fun cnt p => bump cnt (fst p) (snd p)) l cnt) 0) /\
    (forall j, (forall p, In p l -> fst p <> j) -> nth j (fold_left (fun cnt p => bump cnt (fst p) (snd p)) l cnt) 0 = nth j cnt 0) /\
    (forall p, In p l -> 0 < snd p -> 0 < nth (fst p) (fold_left (fun cnt p => bump cnt (fst p) (snd p)) l cnt) 0).
  Proof.
    induction l as [|p l IH]; intros cnt H; cbn [fold_left].
    - split; auto. split; auto. split; auto. intros p [].
    - assert (Hp := H p (or_introl eq_refl)). destruct (IH (bump cnt (fst p) (snd p))) as [A [B [C D]]]. { intros q Hq. rewrite bump_len. apply H. right; auto. } rewrite bump_len in A.
      split; auto. split; [|split].
      + intros j. specialize (B j). rewrite bump_nth in B by auto. destruct (_ =? _); lia.
      + intros j Hj. rewrite C by (intros q Hq; apply Hj; right; auto). rewrite bump_nth by auto. destruct (Nat.eqb_spec (fst p) j) as [E|]; auto. exfalso. apply (Hj p (or_introl eq_refl)); auto.
      + intros q [<-|Hq] Hpos; [|apply D; auto]. specialize (B (fst p)). rewrite bump_nth, Nat.eqb_refl in B by auto. lia.
  Qed.
  Lemma bumps_children (chs : list (nat * list Alloc)) cnt : fold_left (fun cnt ch => bump cnt (fst ch) (length (snd ch))) chs cnt = fold_left (fun cnt p => bump cnt (fst p) (snd p)) (map (fun ch => (fst ch, length (snd ch))) chs) cnt.
  Proof. revert cnt. induction chs as [|ch chs IH]; intros cnt; cbn; auto. Qed.
  Lemma bumps_layers (l : list nat) cnt : fold_left (fun cnt id => bump cnt id 2) l cnt = fold_left (fun cnt p => bump cnt (fst p) (snd p)) (map (fun id => (id, 2)) l) cnt.
  Proof. revert cnt. induction l as [|ch chs IH]; intros cnt; cbn; auto. Qed.
  Definition below (segs : list Segment) : Prop := forall i s ch, nth_error segs i = Some s -> In ch (s_children s) -> fst ch < i.
  Lemma use_loop_spec (segs : list Segment) : below segs -> forall i cnt, i <= length segs -> length cnt = length segs ->
    length (use_loop segs i cnt) = length cnt /\ (forall j, nth j cnt 0 <= nth j (use_loop segs i cnt) 0) /\ (forall j, i <= j -> nth j (use_loop segs i cnt) 0 = nth j cnt 0) /\
    (forall j s ch, j < i -> nth_error segs j = Some s -> 0 < nth j (use_loop segs i cnt) 0 -> In ch (s_children s) -> snd ch <> [] -> 0 < nth (fst ch) (use_loop segs i cnt) 0).
  Proof.
    intros Hb. induction i as [|k IH]; intros cnt Hi Hl; cbn [use_loop].
    - split; auto. split; auto. split; auto. intros; lia.
    - destruct (nth_error_Some_ex segs k) as [sk Hsk]; [lia|]. assert (Hks : nth_seg segs k = sk) by (apply nth_error_nth; auto). rewrite Hks.
      set (cnt' := if 0 <? nth k cnt 0 then fold_left (fun cnt ch => bump cnt (fst ch) (length (snd ch))) (s_children sk) cnt else cnt).
      assert (Hc : length cnt' = length cnt /\ (forall j, nth j cnt 0 <= nth j cnt' 0) /\ (forall j, k <= j -> nth j cnt' 0 = nth j cnt 0) /\ (0 < nth k cnt 0 -> forall ch, In ch (s_children sk) -> snd ch <> [] -> 0 < nth (fst ch) cnt' 0)).
      { unfold cnt'. destruct (Nat.ltb_spec 0 (nth k cnt 0)) as [Hp|Hp].
        - rewrite bumps_children. destruct (bumps_spec (map (fun ch => (fst ch, length (snd ch))) (s_children sk)) cnt) as [A [B [C D]]].
          { intros p Hp2. apply in_map_iff in Hp2. destruct Hp2 as [ch [<- Hch]]. cbn. specialize (Hb _ _ _ Hsk Hch). lia. }
          split; auto. split; auto. split.
          + intros j Hj. apply C. intros p Hp2. apply in_map_iff in Hp2. destruct Hp2 as [ch [<- Hch]]. cbn. specialize (Hb _ _ _ Hsk Hch). lia.
          + intros _ ch Hch Hne. apply (D (fst ch, length (snd ch))); [apply in_map_iff; eauto|]. cbn. destruct (snd ch); [congruence|cbn; lia].
        - split; auto. split; auto. split; auto. intros; lia. }
      destruct Hc as [C1 [C2 [C3 C4]]]. destruct (IH cnt') as [A [B [C D]]]; [lia|congruence|]. split; [congruence|]. split; [intros j; etransitivity; [apply C2|apply B]|]. split.
      + intros j Hj. rewrite C by lia. apply C3. lia.
      + intros j s ch Hj Hs Hp Hch Hne. destruct (Nat.eq_dec j k) as [->|Hjk]; [|apply (D j s); auto; lia]. assert (s = sk) by congruence. subst s. rewrite C in Hp by lia. rewrite C3 in Hp by lia. specialize (C4 Hp ch Hch Hne). specialize (B (fst ch)). lia.
  Qed.
  Lemma valid_good (c : LCircuit) : l_validate c = true -> forall i s, nth_error (l_segs c) i = Some s -> sgood (length (l_layers c)) (l_segs c) i s.
  Proof. intros H. apply segs_ok_iff. unfold l_validate in H. rewrite !andb_true_iff in H. tauto. Qed.
  Lemma valid_layers (c : LCircuit) id : l_validate c = true -> In id (l_layers c) -> id < length (l_segs c).
  Proof. intros H Hin. unfold l_validate in H. rewrite !andb_true_iff in H. destruct H as [[_ H] _]. rewrite forallb_forall in H. apply Nat.ltb_lt. auto. Qed.
  Lemma good_below nl (segs : list Segment) : (forall i s, nth_error segs i = Some s -> sgood nl segs i s) -> below segs.
  Proof. intros G i s ch Hi Hch. destruct (G i s Hi) as [_ [_ [_ [_ H]]]]. rewrite Forall_forall in H. destruct (H ch Hch). auto. Qed.
  Lemma used_layers (c : LCircuit) : l_validate c = true -> forall id, In id (l_layers c) -> (0 <? nth id (used_count c) 0) = true.
  Proof.
    intros Hv id Hin. apply Nat.ltb_lt. unfold used_count. assert (Hlc : length (layer_counts c) = length (l_segs c) /\ 0 < nth id (layer_counts c) 0).
    { unfold layer_counts. rewrite bumps_layers. destruct (bumps_spec (map (fun id => (id, 2)) (l_layers c)) (repeat 0 (length (l_segs c)))) as [A [_ [_ D]]].
      { intros p Hp. apply in_map_iff in Hp. destruct Hp as [x [<- Hx]]. rewrite repeat_length. apply valid_layers; auto. }
      rewrite repeat_length in A. split; auto. apply (D (id, 2)); [apply in_map_iff; eauto|cbn; lia]. }
    destruct Hlc as [L1 L2]. destruct (use_loop_spec (l_segs c) (good_below _ _ (valid_good c Hv)) (length (l_segs c)) (layer_counts c)) as [_ [B _]]; auto. specialize (B id). lia.
  Qed.
  Lemma used_closed (c : LCircuit) : l_validate c = true -> nonempty (l_segs c) -> forall i s ch, nth_error (l_segs c) i = Some s -> (0 <? nth i (used_count c) 0) = true -> In ch (s_children s) -> (0 <? nth (fst ch) (used_count c) 0) = true.
  Proof.
    intros Hv Hn i s ch Hi Hu Hch. apply Nat.ltb_lt in Hu. apply Nat.ltb_lt. unfold used_count in *.
    assert (Hlc : length (layer_counts c) = length (l_segs c)). { unfold layer_counts. rewrite bumps_layers. destruct (bumps_spec (map (fun id => (id, 2)) (l_layers c)) (repeat 0 (length (l_segs c)))) as [A _]; [|rewrite repeat_length in A; auto].
      intros p Hp. apply in_map_iff in Hp. destruct Hp as [x [<- Hx]]. rewrite repeat_length. apply valid_layers; auto. }
    destruct (use_loop_spec (l_segs c) (good_below _ _ (valid_good c Hv)) (length (l_segs c)) (layer_counts c)) as [_ [_ [_ D]]]; auto. apply (D i s); auto; [eapply nth_error_Some_lt; eauto|]. apply (Hn s); auto. eapply nth_error_In; eauto.
  Qed.

  (* ------------------------------------------------------------ renumbering a set of segments closed under children *)
  Section Renum.
    Variable nl : nat. Variable keep : nat -> bool. Variable sg : list Segment.
    Hypothesis G : forall i s, nth_error sg i = Some s -> sgood nl sg i s.
    Hypothesis K : forall i s ch, nth_error sg i = Some s -> keep i = true -> In ch (s_children s) -> keep (fst ch) = true.
    Definition rnch (ch : nat * list Alloc) : nat * list Alloc := (new_id keep (fst ch), snd ch).
    Definition rnseg (s : Segment) : Segment := seg_set s (map rnch (s_children s)) (s_muls s) (s_adds s) (s_consts s) (s_customs s).
    Definition sg' : list Segment := map (fun id => seg_dedup (rnseg (nth_seg sg id))) (ids keep (length sg)).
    Lemma sg'_nth id s : nth_error sg id = Some s -> keep id = true -> nth_error sg' (new_id keep id) = Some (seg_dedup (rnseg s)).
    Proof.
      intros Hs Hk. unfold sg'. rewrite nth_error_map. rewrite new_id_nth; auto; [|eapply nth_error_Some_lt; eauto]. cbn [option_map]. f_equal. f_equal. f_equal. apply nth_error_nth; auto.
    Qed.
    Lemma sg'_inv j s' : nth_error sg' j = Some s' -> exists id s, j = new_id keep id /\ keep id = true /\ nth_error sg id = Some s /\ s' = seg_dedup (rnseg s).
    Proof.
      unfold sg'. rewrite nth_error_map. destruct (nth_error (ids keep (length sg)) j) as [id|] eqn:E; [|discriminate]. intros H. injection H as <-. apply ids_nth in E. destruct E as [E1 [E2 E3]].
      destruct (nth_error_Some_ex sg id E2) as [s Hs]. exists id, s. split; auto. split; auto. split; auto. f_equal. f_equal. apply nth_error_nth; auto.
    Qed.
    Lemma sg'_fe id s : nth_error sg id = Some s -> fequiv (seg_gates s) (seg_gates (seg_dedup (rnseg s))).
    Proof.
      intros Hs. apply (seg_dedup_fe (rnseg s)). change (seg_gates (rnseg s)) with (seg_gates s). change (s_outs (rnseg s)) with (s_outs s). eapply seg_gates_inb_out. apply seg_ok_iff. apply (G id s Hs).
    Qed.
    Lemma sg'_good : forall j s', nth_error sg' j = Some s' -> sgood nl sg' j s'.
    Proof.
      intros j s' Hj. apply sg'_inv in Hj. destruct Hj as [id [s [-> [Hk [Hs ->]]]]]. destruct (G id s Hs) as [G1 [G2 [G3 [G4 G5]]]]. split; [exact G1|]. split; [exact G2|]. split; [exact G3|]. split.
      - eapply gates_ok_fe; [| |apply (sg'_fe id s Hs)|exact G4]; auto.
      - apply Forall_forall. intros ch Hch. change (s_children (seg_dedup (rnseg s))) with (map rnch (s_children s)) in Hch. apply in_map_iff in Hch. destruct Hch as [ch0 [<- Hch]]. rewrite Forall_forall in G5. destruct (G5 ch0 Hch) as [C1 [sub [C2 [C3 C4]]]].
        assert (Kc := K _ _ _ Hs Hk Hch). split; [cbn; apply new_id_lt; auto|]. exists (seg_dedup (rnseg sub)). cbn [rnch fst snd]. split; [apply sg'_nth; auto|]. split; [exact C3|]. exact C4.
    Qed.
    Lemma sg'_flat : forall id, id < length sg -> keep id = true -> fequiv (fl sg id) (fl sg' (new_id keep id)).
    Proof.
      assert (W := sgood_wf nl sg G). assert (W' := sgood_wf nl sg' sg'_good).
      induction id as [id IH] using lt_wf_ind. intros Hi Hk. destruct (nth_error_Some_ex sg id Hi) as [s Hs]. rewrite (fl_unfold sg id s W Hs), (fl_unfold sg' _ _ W' (sg'_nth id s Hs Hk)). apply fe_app; [apply (sg'_fe id s Hs)|].
      change (s_children (seg_dedup (rnseg s))) with (map rnch (s_children s)). unfold cflat. rewrite (flat_map_concat_map _ (map rnch _)), map_map, <- flat_map_concat_map. apply fe_flat_map. intros ch Hch. cbn [rnch fst snd]. apply fe_flat_map. intros a _. apply fe_shift.
      destruct (G id s Hs) as [_ [_ [_ [_ G5]]]]. rewrite Forall_forall in G5. destruct (G5 ch Hch) as [C1 _]. apply IH; [auto|lia|]. eapply K; eauto.
    Qed.
    Lemma sg'_nonempty : nonempty sg -> nonempty sg'.
    Proof.
      intros Hn s' ch Hs Hch. apply In_nth_error in Hs. destruct Hs as [j Hj]. apply sg'_inv in Hj. destruct Hj as [id [s [-> [Hk [Hs ->]]]]]. change (s_children (seg_dedup (rnseg s))) with (map rnch (s_children s)) in Hch.
      apply in_map_iff in Hch. destruct Hch as [ch0 [<- Hch]]. cbn. apply (Hn s); auto. eapply nth_error_In; eauto.
    Qed.
    Lemma sg'_nodup : nodupf sg -> nodupf sg'.
    Proof.
      intros Hn j Hj. destruct (nth_error_Some_ex sg' j Hj) as [s' Hs']. apply sg'_inv in Hs'. destruct Hs' as [id [s [-> [Hk [Hs ->]]]]]. assert (Hlt := nth_error_Some_lt _ _ _ Hs).
      destruct (sg'_flat id Hlt Hk) as [[_ [_ [_ Hp]]] _]. eapply Permutation_NoDup; [exact Hp|]. apply Hn; auto.
    Qed.
    Lemma sg'_distinct s' : In s' sg' -> cdistinct (seg_gates s').
    Proof. intros H. unfold sg' in H. apply in_map_iff in H. destruct H as [id [<- _]]. apply seg_dedup_distinct. Qed.
  End Renum.

  Definition cdist (c : LCircuit) : Prop := forall s, In s (l_segs c) -> cdistinct (seg_gates s).
  Theorem expand_small_spec (c : LCircuit) : good c -> exists c', expand_small_segments c = Some c' /\ good c' /\ lequiv c c' /\ (cdist c -> cdist c').
  Proof.
    intros [Hv [Hn Hd]]. unfold expand_small_segments. destruct (forallb (keep_seg c) (seq 0 (length (l_segs c)))) eqn:Eo.
    - exists c. split; auto. split; [split; auto|]. split; auto. split; auto. split; auto. split; auto. exists (fun x => x). split; [rewrite map_id; auto|]. intros id Hid. apply valid_layers in Hid; auto. destruct (nth_error_Some_ex _ _ Hid) as [s Hs]. exists s, s. repeat split; auto; apply fe_refl.
    - set (used := fun id => 0 <? nth id (used_count c) 0). set (exp := to_expand c). set (segs := l_segs c) in *. set (keep := keep_seg c). set (nl := length (l_layers c)).
      assert (G := valid_good c Hv). fold segs nl in G.
      assert (Hu1 : forall i, exp i = true -> used i = true). { intros i. unfold exp, to_expand, used. rewrite !andb_true_iff. tauto. }
      assert (Hu2 : forall i s ch, nth_error segs i = Some s -> used i = true -> In ch (s_children s) -> used (fst ch) = true) by (intros i s ch; apply used_closed; auto).
      assert (Gx := ex_good nl used exp segs G). assert (Fx := ex_flat nl used exp segs G). assert (Lx := ex_len used exp segs). change (expand_all used exp segs) with (ex used exp segs) in *.
      assert (Kx : forall i s ch, nth_error (ex used exp segs) i = Some s -> keep i = true -> In ch (s_children s) -> keep (fst ch) = true).
      { intros i s ch Hi Hk Hch. unfold keep, keep_seg in *. apply andb_true_iff in Hk. destruct Hk as [Hk _]. destruct (ex_child nl used exp segs G Hu2 i s ch Hi Hk Hch) as [A B]. fold exp. fold (used (fst ch)). rewrite A, B. auto. }
      assert (Kl : forall id, In id (l_layers c) -> keep id = true).
      { intros id Hid. unfold keep, keep_seg, to_expand. rewrite (used_layers c Hv id Hid). cbn [andb]. rewrite (proj2 (memb_spec id (l_layers c)) Hid). auto. }
      set (xs := ex used exp segs) in *.
      exists (with_segs c (sg' keep xs) (map (new_id keep) (l_layers c))). split.
      { rewrite (omap_map_some _ (fun id => seg_dedup (rnseg keep (nth_seg xs id)))).
        - cbn [obind]. rewrite (omap_map_some _ (new_id keep)); [cbn [obind]; unfold sg', ids; rewrite Lx; auto|]. intros x Hx. rewrite (Kl x Hx). auto.
        - intros id Hid. apply filter_In in Hid. destruct Hid as [Hid Hk]. apply in_seq in Hid. destruct (nth_error_Some_ex xs id) as [s Hs]; [lia|]. rewrite (nth_seg_error _ _ _ Hs). unfold rename_children.
          rewrite (omap_map_some _ (rnch keep)); [cbn [obind]; auto|]. intros ch Hch. rewrite (Kx _ _ _ Hs Hk Hch). auto. }
      assert (He : lequiv c (with_segs c (sg' keep xs) (map (new_id keep) (l_layers c)))).
      { split; auto. split; auto. split; auto. exists (new_id keep). split; auto. intros id Hid. assert (Hlt := valid_layers c id Hv Hid). fold segs in Hlt. destruct (nth_error_Some_ex segs id Hlt) as [s Hs]. destruct (ex_sizes nl used exp segs G id s Hs) as [s1 [S1 [S2 S3]]]. fold xs in S1.
        exists s, (seg_dedup (rnseg keep s1)). split; auto. split; [apply sg'_nth; auto|]. split; [exact S2|]. split; [exact S3|]. eapply fe_trans; [apply fe_perm; apply Fx; auto|]. cbn [with_segs l_segs]. apply (sg'_flat nl keep xs Gx Kx); auto. lia. }
      split; [|split; [exact He|]].
      + split; [|split].
        * apply (lequiv_valid c); auto. cbn [with_segs l_segs]. apply segs_ok_iff. apply sg'_good; auto.
        * cbn. apply (sg'_nonempty keep xs). apply (ex_nonempty nl used exp segs G). exact Hn.
        * cbn [with_segs l_segs]. apply (sg'_nodup nl keep xs Gx Kx). intros id Hid. rewrite Lx in Hid. specialize (Fx id Hid). eapply Permutation_NoDup; [apply filter_perm; exact Fx|]. apply Hd; auto.
      + intros _ s Hs. apply (sg'_distinct keep xs). exact Hs.
  Qed.
End LEA.
