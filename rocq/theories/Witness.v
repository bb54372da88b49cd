(* Model of circuit/layered/witness.rs:10-187 (packing, iterators, conversion) and of
   WitnessSolver (circuit/ir/hint_normalized/witness_solver.rs:18-107). *)
From Verif Require Import Prelude Field Expr Topo Hints Ir IrFacts IrInst Sim Solver.

Section Witness.
  Context {F : Fld}.
  Variable P : nat.                       (* PACK_SIZE *)
  Notation Simd := (list F).
  Notation d0 := (f0 : F).

  (* witness.rs:10-22 *)
  Inductive WitnessValues := Scalar (l : list F) | SimdV (l : list Simd).
  Record Witness := { num_witnesses : nat; nin : nat; npub : nat; values : WitnessValues }.

  (* witness.rs:24-46 *)
  Definition item_of (s : list Simd) (a b j : nat) : list F * list F :=
    (map (lane j) (firstn a s), map (lane j) (firstn b (skipn a s))).
  Definition unpack_block (s : list Simd) (a b : nat) : list (list F * list F) := map (item_of s a b) (seq 0 P).
  (* witness.rs:48-79; None = panic (division by zero, or no witness in the block) *)
  Definition pack_col (s : list F) (m ssize k : nat) : Simd :=
    map (fun j => nth ((if j <? ssize then j else ssize - 1) * m + k) s d0) (seq 0 P).
  Definition pack_block (s : list F) (a b : nat) : option (list Simd * list Simd) :=
    if a + b =? 0 then None else
    let ssize := Nat.min (length s / (a + b)) P in
    if ssize =? 0 then None else
    Some (map (pack_col s (a + b) ssize) (seq 0 a), map (pack_col s (a + b) ssize) (seq a b)).

  (* slices panic when out of range *)
  Definition slice {A} (l : list A) (from len : nat) : option (list A) :=
    if from + len <=? length l then Some (firstn len (skipn from l)) else None.
  Definition from {A} (l : list A) (k : nat) : option (list A) := if k <=? length l then Some (skipn k l) else None.

  (* witness.rs:94-124: the scalar iterator with its buffer; [cnt] items remain *)
  Fixpoint sc_items (w : Witness) (cnt idx : nat) (buf : list (list F * list F)) : option (list (list F * list F)) :=
    match cnt with
    | 0 => Some []
    | S cnt =>
        let a := nin w in let b := npub w in
        match values w with
        | Scalar vs =>
            let* x := slice vs (idx * (a + b)) a in
            let* y := slice vs (idx * (a + b) + a) b in
            let* r := sc_items w cnt (S idx) buf in Some ((x, y) :: r)
        | SimdV vs =>
            let* buf := if idx mod P =? 0 then let* s := from vs ((idx / P) * (a + b)) in Some (unpack_block s a b) else Some buf in
            let* it := nth_error buf (idx mod P) in
            let* r := sc_items w cnt (S idx) (upd buf (idx mod P) ([], [])) in Some (it :: r)
        end
    end.
  Definition iter_scalar (w : Witness) : option (list (list F * list F)) := sc_items w (num_witnesses w) 0 [].

  (* witness.rs:131-153; [cnt] bounds the number of blocks *)
  Fixpoint simd_items (w : Witness) (cnt idx : nat) : option (list (list Simd * list Simd)) :=
    match cnt with
    | 0 => Some []
    | S cnt =>
        if num_witnesses w <=? idx * P then Some [] else
        let a := nin w in let b := npub w in
        let* it := match values w with
                   | Scalar vs => let* s := from vs (idx * P * (a + b)) in pack_block s a b
                   | SimdV vs => let* x := slice vs (idx * (a + b)) a in let* y := slice vs (idx * (a + b) + a) b in Some (x, y)
                   end in
        let* r := simd_items w cnt (S idx) in Some (it :: r)
    end.
  Definition iter_simd (w : Witness) : option (list (list Simd * list Simd)) := simd_items w (num_witnesses w) 0.

  (* witness.rs:170-186 *)
  Definition num_blocks (n : nat) : nat := (n + P - 1) / P.
  Definition convert_to_simd (w : Witness) : option Witness :=
    match values w with
    | SimdV _ => Some w
    | Scalar vs =>
        let a := nin w + npub w in
        let* bl := omap (fun i => let* s := from vs (i * P * a) in let* t := pack_block s a 0 in Some (fst t)) (seq 0 (num_blocks (num_witnesses w))) in
        Some {| num_witnesses := num_witnesses w; nin := nin w; npub := npub w; values := SimdV (concat bl) |}
    end.

  (* ------------------------------------------------------------ proofs *)
  Lemma sc_items_simd w vs : values w = SimdV vs -> 0 < P -> forall cnt idx buf,
    (forall i, idx <= i < idx + cnt -> (i / P) * (nin w + npub w) <= length vs) ->
    (idx mod P = 0 \/ (length buf = P /\ forall j, idx mod P <= j < P -> nth_error buf j = Some (item_of (skipn ((idx / P) * (nin w + npub w)) vs) (nin w) (npub w) j))) ->
    sc_items w cnt idx buf = Some (map (fun i => item_of (skipn ((i / P) * (nin w + npub w)) vs) (nin w) (npub w) (i mod P)) (seq idx cnt)).
  Proof.
    intros Hv HP. induction cnt as [|cnt IH]; intros idx buf Hlen Hb; cbn [sc_items seq map]; auto. rewrite Hv.
    pose proof (Nat.mod_upper_bound idx P ltac:(lia)) as Hm.
    set (blk := unpack_block (skipn ((idx / P) * (nin w + npub w)) vs) (nin w) (npub w)).
    assert (Hblk : forall j, j < P -> nth_error blk j = Some (item_of (skipn ((idx / P) * (nin w + npub w)) vs) (nin w) (npub w) j)).
    { intros j Hj. unfold blk, unpack_block. erewrite map_nth_error; [reflexivity|]. rewrite nth_error_seq by auto. auto. }
    assert (exists buf', (if idx mod P =? 0 then let* s := from vs ((idx / P) * (nin w + npub w)) in Some (unpack_block s (nin w) (npub w)) else Some buf) = Some buf' /\
       length buf' = P /\ forall j, idx mod P <= j < P -> nth_error buf' j = Some (item_of (skipn ((idx / P) * (nin w + npub w)) vs) (nin w) (npub w) j)) as [buf' [-> [L' H']]].
    { destruct (Nat.eqb_spec (idx mod P) 0) as [E|E].
      - unfold from. rewrite (proj2 (Nat.leb_le _ _)) by (apply Hlen; lia). cbn [obind]. exists blk. split; auto. split; [unfold blk, unpack_block; rewrite map_length, seq_length; auto|].
        intros j Hj. apply Hblk. lia.
      - destruct Hb as [Hb|Hb]; [contradiction|]. exists buf. split; auto. }
    cbn [obind]. rewrite H' by lia. cbn [obind].
    rewrite IH; [reflexivity| |].
    - intros i Hi. apply Hlen. lia.
    - destruct (Nat.eq_dec (S (idx mod P)) P) as [E|E].
      + left. rewrite <- Nat.add_1_r. rewrite Nat.add_mod by lia. destruct (Nat.eq_dec P 1) as [->|Hp1].
        * apply Nat.mod_1_r.
        * rewrite (Nat.mod_small 1) by lia. replace (idx mod P + 1) with P by lia. apply Nat.mod_same. lia.
      + right. assert (Hd : S idx / P = idx / P /\ S idx mod P = S (idx mod P)).
        { pose proof (Nat.div_mod idx P ltac:(lia)) as Hdm. split.
          - symmetry. apply (Nat.div_unique (S idx) P (idx / P) (S (idx mod P))); lia.
          - symmetry. apply (Nat.mod_unique (S idx) P (idx / P) (S (idx mod P))); lia. }
        destruct Hd as [-> ->]. rewrite upd_length. split; auto. intros j Hj. rewrite nth_error_upd_ne by lia. apply H'. lia.
  Qed.
  Lemma sc_items_scalar w vs : values w = Scalar vs -> forall cnt idx buf, (idx + cnt) * (nin w + npub w) <= length vs ->
    sc_items w cnt idx buf = Some (map (fun i => (firstn (nin w) (skipn (i * (nin w + npub w)) vs), firstn (npub w) (skipn (i * (nin w + npub w) + nin w) vs))) (seq idx cnt)).
  Proof.
    intros Hv. induction cnt as [|cnt IH]; intros idx buf Hl; cbn [sc_items seq map]; auto. rewrite Hv. unfold slice.
    assert (Hle : idx * (nin w + npub w) + (nin w + npub w) <= length vs) by nia.
    rewrite !(proj2 (Nat.leb_le _ _)) by lia. cbn [obind]. rewrite IH by lia. auto.
  Qed.

  Lemma skipn_skipn {A} x y (l : list A) : skipn x (skipn y l) = skipn (x + y) l.
  Proof. revert l; induction y as [|y IH]; intros l; [rewrite Nat.add_0_r; auto|]. rewrite Nat.add_succ_r. destruct l as [|h l]; cbn [skipn]; [apply skipn_nil|apply IH]. Qed.
  (* concatenation of equal-sized blocks *)
  Lemma concat_len {A} (bl : list (list A)) m : Forall (fun b => length b = m) bl -> length (concat bl) = length bl * m.
  Proof. induction 1; cbn; auto. rewrite app_length. lia. Qed.
  Lemma skipn_concat {A} (bl : list (list A)) m : Forall (fun b => length b = m) bl -> forall i, i <= length bl -> skipn (i * m) (concat bl) = concat (skipn i bl).
  Proof.
    induction 1 as [|b bl Hb Hbl IH]; intros i Hi; cbn [length] in Hi.
    - replace i with 0 by lia. reflexivity.
    - destruct i as [|i]; [reflexivity|]. cbn [skipn concat Nat.mul]. rewrite skipn_app. rewrite Hb. replace (m + i * m - m) with (i * m) by lia. rewrite skipn_all2 by lia. cbn [app]. apply IH. lia.
  Qed.
  Lemma item_of_app s t a b j : a + b <= length s -> item_of (s ++ t) a b j = item_of s a b j.
  Proof.
    intros H. unfold item_of. rewrite firstn_app. replace (a - length s) with 0 by lia. cbn [firstn]. rewrite app_nil_r. f_equal. f_equal. rewrite skipn_app, firstn_app.
    rewrite skipn_length. replace (b - (length s - a)) with 0 by lia. cbn [firstn]. rewrite app_nil_r. auto.
  Qed.
  Lemma skipn_nth {A} (bl : list (list A)) i : i < length bl -> exists t, concat (skipn i bl) = nth i bl [] ++ t.
  Proof.
    revert i; induction bl as [|b bl IH]; intros i Hi; cbn in Hi; [lia|]. destruct i as [|i]; cbn [skipn concat nth]; [eauto|]. apply IH. lia.
  Qed.
  Lemma map_nth_seq {A} (d : A) l : map (fun k => nth k l d) (seq 0 (length l)) = l.
  Proof.
    induction l as [|x l IH]; auto. cbn [length seq map nth]. f_equal. rewrite <- seq_shift, map_map. auto.
  Qed.
  Lemma nth_firstn {A} (d : A) l n i : i < n -> nth i (firstn n l) d = nth i l d.
  Proof. revert l i; induction n as [|n IH]; intros [|x l] [|i] H; cbn; auto; try lia. apply IH. lia. Qed.
  Lemma nth_skipn' {A} (d : A) l k i : nth i (skipn k l) d = nth (k + i) l d.
  Proof. revert l i; induction k as [|k IH]; intros [|x l] i; cbn; auto. destruct i; auto. Qed.
  Lemma firstn_skipn_nth {A} (d : A) l k n : k + n <= length l -> firstn n (skipn k l) = map (fun i => nth (k + i) l d) (seq 0 n).
  Proof.
    intros H. apply (nth_ext _ _ d d).
    - rewrite map_length, seq_length, firstn_length, skipn_length. lia.
    - intros i Hi. rewrite firstn_length, skipn_length in Hi. rewrite nth_firstn by lia. rewrite nth_skipn'.
      symmetry. apply nth_error_nth. erewrite map_nth_error; [reflexivity|]. rewrite nth_error_seq by lia. auto.
  Qed.

  Lemma num_blocks_bound n i : 0 < P -> i < n -> i / P < num_blocks n.
  Proof.
    intros HP Hi. unfold num_blocks. apply Nat.div_le_lower_bound; [lia|]. pose proof (Nat.div_mod i P ltac:(lia)). pose proof (Nat.mod_upper_bound i P ltac:(lia)).
    enough (P * (i / P) + P <= n + P - 1) by nia. nia.
  Qed.
  Lemma num_blocks_inv n k : 0 < P -> k < num_blocks n -> k * P < n.
  Proof.
    intros HP Hk. unfold num_blocks in Hk. pose proof (Nat.div_mod (n + P - 1) P ltac:(lia)) as H. pose proof (Nat.mod_upper_bound (n + P - 1) P ltac:(lia)). nia.
  Qed.

  Lemma pack_block_lane s a b ssize j : 0 < a + b -> ssize = Nat.min (length s / (a + b)) P -> 0 < ssize -> j < P ->
    exists x y, pack_block s a b = Some (x, y) /\ length x = a /\ length y = b /\ Forall (fun v => length v = P) x /\ Forall (fun v => length v = P) y /\
      (map (lane j) x, map (lane j) y) = (firstn a (skipn ((if j <? ssize then j else ssize - 1) * (a + b)) s),
                                             firstn b (skipn ((if j <? ssize then j else ssize - 1) * (a + b) + a) s)).
  Proof.
    intros Hab Hs Hpos Hj. unfold pack_block. rewrite <- Hs. destruct (Nat.eqb_spec (a + b) 0); [lia|]. destruct (Nat.eqb_spec ssize 0); [lia|].
    eexists _, _. split; [reflexivity|]. rewrite !map_length, !seq_length. split; auto. split; auto.
    assert (Hf : forall l, Forall (fun v : Simd => length v = P) (map (pack_col s (a + b) ssize) l)).
    { intros l. apply Forall_forall. intros v Hv. apply in_map_iff in Hv. destruct Hv as [k [<- _]]. unfold pack_col. rewrite map_length, seq_length. auto. }
    split; auto. split; auto.
    set (jj := if j <? ssize then j else ssize - 1). assert (Hjj : jj < ssize) by (unfold jj; destruct (Nat.ltb_spec j ssize); lia).
    assert (Hlen : jj * (a + b) + (a + b) <= length s).
    { assert (ssize * (a + b) <= length s); [|nia]. assert (ssize <= length s / (a + b)) by lia. pose proof (Nat.mul_div_le (length s) (a + b) ltac:(lia)). nia. }
    assert (Hl : forall k, lane j (pack_col s (a + b) ssize k) = nth (jj * (a + b) + k) s d0).
    { intros k. unfold lane, pack_col. apply nth_error_nth. erewrite map_nth_error; [|apply nth_error_seq; auto]. cbn [Nat.add]. fold jj. auto. }
    rewrite !map_map. rewrite (firstn_skipn_nth d0 s _ a) by lia. rewrite (firstn_skipn_nth d0 s _ b) by lia. f_equal.
    - apply map_ext. intros k. apply Hl.
    - assert (Hseq : seq a b = map (fun i => a + i) (seq 0 b)).
      { clear. revert a. induction b as [|b IH]; intros a; cbn [seq map]; auto. f_equal; [lia|]. rewrite (IH (S a)), <- seq_shift, map_map. apply map_ext. intros; lia. }
      rewrite Hseq, map_map. apply map_ext. intros k. rewrite Hl. f_equal. lia.
  Qed.

  (* the block that contains witness i, and its lane, hold exactly witness i; lanes past the last witness repeat it *)
  Lemma block_lane w vs k j : values w = Scalar vs -> 0 < P -> 0 < nin w + npub w -> length vs = num_witnesses w * (nin w + npub w) ->
    k < num_blocks (num_witnesses w) -> j < P ->
    let i := Nat.min (k * P + j) (num_witnesses w - 1) in
    forall a b, a + b = nin w + npub w ->
    exists x y, pack_block (skipn (k * P * (nin w + npub w)) vs) a b = Some (x, y) /\ length x = a /\ length y = b /\ Forall (fun v => length v = P) x /\ Forall (fun v => length v = P) y /\
      (map (lane j) x, map (lane j) y) = (firstn a (skipn (i * (nin w + npub w)) vs), firstn b (skipn (i * (nin w + npub w) + a) vs)).
  Proof.
    intros Hv HP Hm Hl Hk Hj i a b Hab. set (m := nin w + npub w) in *. set (n := num_witnesses w) in *. pose proof (num_blocks_inv n k HP Hk) as Hkn.
    set (s := skipn (k * P * m) vs). assert (Hls : length s = (n - k * P) * m) by (unfold s; rewrite skipn_length, Hl; nia).
    assert (Hdiv : length s / (a + b) = n - k * P) by (rewrite Hls, Hab; apply Nat.div_mul; lia).
    destruct (pack_block_lane s a b (Nat.min (length s / (a + b)) P) j) as [x [y [H1 [H2 [H3 [H4 [H5 H6]]]]]]]; auto; try (rewrite Hdiv); try lia.
    exists x, y. split; auto. split; auto. split; auto. split; auto. split; auto. rewrite H6. rewrite Hdiv, Hab.
    assert (Hjj : k * P + (if j <? Nat.min (n - k * P) P then j else Nat.min (n - k * P) P - 1) = i).
    { unfold i. destruct (Nat.ltb_spec j (Nat.min (n - k * P) P)); lia. }
    unfold s. rewrite !skipn_skipn. f_equal; f_equal; f_equal; nia.
  Qed.

  Theorem convert_spec w vs : values w = Scalar vs -> 0 < P -> 0 < nin w + npub w -> length vs = num_witnesses w * (nin w + npub w) ->
    exists w', convert_to_simd w = Some w' /\ num_witnesses w' = num_witnesses w /\ nin w' = nin w /\ npub w' = npub w /\
      iter_scalar w' = iter_scalar w /\ iter_simd w' = iter_simd w /\
      (exists vs', values w' = SimdV vs' /\ Forall (fun v => length v = P) vs').
  Proof.
    intros Hv HP Hm Hl. set (m := nin w + npub w) in *. set (n := num_witnesses w) in *.
    set (blk := fun k => match pack_block (skipn (k * P * m) vs) m 0 with Some (x, _) => x | None => [] end).
    assert (Hblk : forall k, k < num_blocks n -> (let* s := from vs (k * P * m) in let* t := pack_block s m 0 in Some (fst t)) = Some (blk k) /\ length (blk k) = m /\ Forall (fun v => length v = P) (blk k)).
    { intros k Hk. destruct (block_lane w vs k 0 Hv HP Hm Hl Hk HP m 0 ltac:(lia)) as [x [y [H1 [H2 [H3 [H4 _]]]]]]. fold m in H1. unfold from. rewrite (proj2 (Nat.leb_le _ _)).
      2: { rewrite Hl. pose proof (num_blocks_inv n k HP Hk). fold m n. nia. }
      cbn [obind]. unfold blk. rewrite H1. cbn [obind fst]. auto. }
    assert (Hom : omap (fun i => let* s := from vs (i * P * m) in let* t := pack_block s m 0 in Some (fst t)) (seq 0 (num_blocks n)) = Some (map blk (seq 0 (num_blocks n)))).
    { apply omap_some. assert (G : forall l, (forall k, In k l -> k < num_blocks n) -> Forall2 (fun i y => (let* s := from vs (i * P * m) in let* t := pack_block s m 0 in Some (fst t)) = Some y) l (map blk l)).
      { induction l as [|k l IH]; intros Hin; cbn [map]; constructor; [apply Hblk; apply Hin; left; auto|apply IH; intros; apply Hin; right; auto]. }
      apply G. intros k Hk. apply in_seq in Hk. lia. }
    unfold convert_to_simd. rewrite Hv. fold m n. rewrite Hom. cbn [obind]. set (bl := map blk (seq 0 (num_blocks n))).
    assert (Hbl : Forall (fun b => length b = m) bl). { apply Forall_forall. intros b Hb. apply in_map_iff in Hb. destruct Hb as [k [<- Hk]]. apply in_seq in Hk. apply Hblk. lia. }
    assert (Hlb : length bl = num_blocks n) by (unfold bl; rewrite map_length, seq_length; auto).
    assert (Hnth : forall k, k < num_blocks n -> nth k bl [] = blk k). { intros k Hk. apply nth_error_nth. unfold bl. erewrite map_nth_error; [reflexivity|]. rewrite nth_error_seq by auto. auto. }
    eexists. split; [reflexivity|]. cbn [num_witnesses nin npub values]. split; auto. split; auto. split; auto.
    set (w' := {| num_witnesses := n; nin := nin w; npub := npub w; values := SimdV (concat bl) |}).
    assert (Hskip : forall k, k < num_blocks n -> exists t, skipn (k * m) (concat bl) = blk k ++ t).
    { intros k Hk. rewrite (skipn_concat bl m Hbl) by lia. destruct (skipn_nth bl k ltac:(lia)) as [t Ht]. rewrite Ht, Hnth by auto. eauto. }
    split; [|split].
    - unfold iter_scalar. rewrite (sc_items_simd w' (concat bl) eq_refl HP).
      2: { intros i Hi. cbn [w' nin npub num_witnesses] in *. fold m. rewrite (concat_len bl m Hbl), Hlb. pose proof (num_blocks_bound n i HP ltac:(lia)). nia. }
      2: { left. apply Nat.mod_0_l. lia. }
      rewrite (sc_items_scalar w vs Hv) by (fold m n; lia). cbn [w' nin npub num_witnesses]. fold m n. f_equal. apply map_ext_in. intros i Hi. apply in_seq in Hi.
      pose proof (num_blocks_bound n i HP ltac:(lia)) as Hk. destruct (Hskip (i / P) Hk) as [t ->]. rewrite item_of_app by (rewrite (proj1 (proj2 (Hblk _ Hk))); fold m; lia).
      pose proof (Nat.mod_upper_bound i P ltac:(lia)) as Hmod. pose proof (Nat.div_mod i P ltac:(lia)) as Hdm.
      destruct (block_lane w vs (i / P) (i mod P) Hv HP Hm Hl Hk Hmod m 0 ltac:(lia)) as [x [y [H1 [H2 [H3 [H4 [_ H5]]]]]]]. fold m n in H1, H5.
      replace (Nat.min (i / P * P + i mod P) (n - 1)) with i in H5 by lia. injection H5 as H5 _.
      assert (Hbx : blk (i / P) = x) by (unfold blk; rewrite H1; auto). rewrite Hbx. unfold item_of.
      rewrite <- firstn_map. rewrite H5. rewrite firstn_firstn. rewrite Nat.min_l by (fold m; lia). f_equal.
      rewrite <- firstn_map, <- skipn_map, H5. rewrite skipn_firstn_comm. rewrite firstn_firstn. rewrite Nat.min_l by lia. rewrite skipn_skipn. f_equal. f_equal. lia.
    - assert (Hgen : forall cnt idx, simd_items w' cnt idx = simd_items w cnt idx); [|apply Hgen].
      induction cnt as [|cnt IH]; intros idx; cbn [simd_items]; auto. cbn [w' nin npub num_witnesses values]. rewrite Hv. fold n m. destruct (Nat.leb_spec n (idx * P)) as [|Hlt]; auto.
      assert (Hk : idx < num_blocks n). { pose proof (num_blocks_bound n (idx * P) HP Hlt) as G. rewrite Nat.div_mul in G by lia. auto. }
      fold w'. rewrite IH. destruct (Hskip idx Hk) as [t Ht]. destruct (Hblk idx Hk) as [B1 [B2 B3]].
      assert (Hlen : idx * m + m <= length (concat bl)) by (rewrite (concat_len bl m Hbl), Hlb; nia).
      unfold slice. rewrite !(proj2 (Nat.leb_le _ _)) by (fold m; lia). cbn [obind].
      unfold from. rewrite (proj2 (Nat.leb_le _ _)) by (rewrite Hl; nia). cbn [obind].
      set (s := skipn (idx * P * m) vs) in *.
      assert (Hls : length s = (n - idx * P) * m) by (unfold s; rewrite skipn_length, Hl; fold n m; nia).
      assert (Hdiv : length s / m = n - idx * P) by (rewrite Hls; apply Nat.div_mul; lia).
      assert (Hpk : pack_block s (nin w) (npub w) = Some (firstn (nin w) (blk idx), firstn (npub w) (skipn (nin w) (blk idx)))).
      { unfold blk. fold s. unfold pack_block. rewrite Nat.add_0_r. fold m. destruct (Nat.eqb_spec m 0); [lia|]. rewrite Hdiv. destruct (Nat.eqb_spec (Nat.min (n - idx * P) P) 0); [lia|].
        rewrite firstn_map, skipn_map, firstn_map. do 2 f_equal; f_equal.
        - assert (m = nin w + npub w) as -> by reflexivity. rewrite seq_app, firstn_app, seq_length, Nat.sub_diag. cbn [firstn]. rewrite app_nil_r. rewrite firstn_all2 by (rewrite seq_length; lia). auto.
        - assert (m = nin w + npub w) as -> by reflexivity. rewrite seq_app, skipn_app, seq_length, Nat.sub_diag. cbn [skipn Nat.add]. rewrite skipn_all2 by (rewrite seq_length; lia). cbn [app]. rewrite firstn_all2 by (rewrite seq_length; lia). auto. }
      rewrite Hpk. cbn [obind].
      assert (E1 : firstn (nin w) (skipn (idx * m) (concat bl)) = firstn (nin w) (blk idx)).
      { rewrite Ht, firstn_app. replace (nin w - length (blk idx)) with 0 by (rewrite B2; fold m; lia). cbn [firstn]. rewrite app_nil_r. auto. }
      assert (E2 : firstn (npub w) (skipn (idx * m + nin w) (concat bl)) = firstn (npub w) (skipn (nin w) (blk idx))).
      { rewrite Nat.add_comm, <- skipn_skipn, Ht, skipn_app, firstn_app. rewrite skipn_length, B2. replace (npub w - (m - nin w)) with 0 by (unfold m; lia). cbn [firstn]. rewrite app_nil_r. auto. }
      rewrite E1, E2. auto.
    - eexists. split; [reflexivity|]. apply Forall_concat. apply Forall_forall. intros b Hb. apply in_map_iff in Hb. destruct Hb as [k [<- Hk]]. apply in_seq in Hk. apply Hblk. lia.
  Qed.

  (* ------------------------------------------------------------ WitnessSolver *)
  Variable hint : N -> nat -> list F -> option (list F).
  Notation HR := (RootCircuit (HnI F)).
  Fixpoint rmap {A B} (f : A -> Res B) (l : list A) : Res (list B) :=
    match l with [] => Ok [] | x :: l => rbind (f x) (fun y => rbind (rmap f l) (fun r => Ok (y :: r))) end.
  (* Circuit::input_size = num_inputs of circuit 0; indexing panics without it *)
  Definition input_size (rc : HR) : option nat := option_map (fun c => num_inputs c) (lookup 0 (circuits rc)).
  Definition sizes_ok (rc : HR) (isz : nat) (p : list F * list F) : bool := (length (fst p) =? isz) && (length (snd p) =? num_public_inputs rc).
  (* witness_solver.rs:17-45 *)
  Definition solve_witness (rc : HR) (vars pub : list F) : Res Witness :=
    match input_size rc with
    | None => Panic
    | Some isz => if sizes_ok rc isz (vars, pub) then
        rbind (eval_safe hint rc pub vars) (fun a =>
          Ok {| num_witnesses := 1; nin := length a; npub := num_public_inputs rc; values := Scalar (a ++ pub) |})
      else Panic
    end.
  (* witness_solver.rs:74-92: one packed column; lanes past the last witness of the block repeat it *)
  Definition fill (l : list F) : Simd := l ++ repeat (last l d0) (P - length l).
  Definition columns (rows : list (list F)) (m : nat) : list Simd := map (fun k => fill (map (fun r => nth k r d0) rows)) (seq 0 m).
  (* witness_solver.rs:59-99 *)
  Definition solve_block (rc : HR) (isz n : nat) (f : nat -> list F * list F) (j : nat) : Res (list Simd * list Simd) :=
    let rows := map f (seq (j * P) (Nat.min n ((j + 1) * P) - j * P)) in
    if forallb (sizes_ok rc isz) rows then
      let pubs := columns (map snd rows) (num_public_inputs rc) in
      rbind (eval_safe_simd hint P rc pubs (columns (map fst rows) isz)) (fun r => Ok (r, pubs))
    else Panic.
  (* witness_solver.rs:47-106 *)
  Definition solve_witnesses (rc : HR) (n : nat) (f : nat -> list F * list F) : Res Witness :=
    if P =? 0 then Panic else
    match input_size rc with
    | None => if n =? 0 then Ok {| num_witnesses := 0; nin := 0; npub := num_public_inputs rc; values := SimdV [] |} else Panic
    | Some isz => rbind (rmap (solve_block rc isz n f) (seq 0 (num_blocks n))) (fun bl =>
        Ok {| num_witnesses := n; nin := length (fst (last bl ([], []))); npub := num_public_inputs rc; values := SimdV (concat (map (fun b => fst b ++ snd b) bl)) |})
    end.

  Lemma rmap_ok {A B} (f : A -> Res B) l r : rmap f l = Ok r <-> Forall2 (fun x y => f x = Ok y) l r.
  Proof.
    revert r; induction l as [|x l IH]; intros r; cbn [rmap].
    - split; [intros H; injection H as <-; constructor|intros H; inversion H; auto].
    - split.
      + destruct (f x) as [y| | |] eqn:E; cbn [rbind]; try discriminate. destruct (rmap f l) as [r'| | |] eqn:E2; cbn [rbind]; try discriminate.
        intros H; injection H as <-. constructor; auto. apply IH; auto.
      + intros H; inversion H; subst. rewrite H2. cbn [rbind]. rewrite (proj2 (IH _) H4). auto.
  Qed.
  Lemma nth_last {A} (l : list A) d : last l d = nth (length l - 1) l d.
  Proof. induction l as [|x l IH]; auto. destruct l as [|y l]; auto. change (last (x :: y :: l) d) with (last (y :: l) d). rewrite IH. cbn [length]. replace (S (S (length l)) - 1) with (S (S (length l) - 1)) by lia. auto. Qed.
  Lemma fill_lane l j : l <> [] -> length l <= P -> j < P -> length (fill l) = P /\ lane j (fill l) = nth (Nat.min j (length l - 1)) l d0.
  Proof.
    intros Hn Hl Hj. unfold fill. rewrite app_length, repeat_length. split; [lia|]. unfold lane. destruct (Nat.lt_ge_cases j (length l)) as [H|H].
    - rewrite app_nth1 by auto. rewrite Nat.min_l by lia. auto.
    - rewrite app_nth2 by auto. rewrite (nth_indep _ d0 (last l d0)) by (rewrite repeat_length; lia). rewrite nth_repeat. rewrite Nat.min_r by lia. apply nth_last.
  Qed.
  Lemma columns_lane rows m j : rows <> [] -> length rows <= P -> j < P -> Forall (fun r => length r = m) rows ->
    Forall (full P) (columns rows m) /\ length (columns rows m) = m /\ map (lane j) (columns rows m) = nth (Nat.min j (length rows - 1)) rows [].
  Proof.
    intros Hn Hl Hj Hr. assert (Hfl : forall k, length (fill (map (fun r => nth k r d0) rows)) = P /\ lane j (fill (map (fun r => nth k r d0) rows)) = nth k (nth (Nat.min j (length rows - 1)) rows []) d0).
    { intros k. destruct (fill_lane (map (fun r => nth k r d0) rows) j) as [A B]; auto; [destruct rows; cbn; congruence|rewrite map_length; auto|]. split; auto. rewrite B, map_length.
      assert (length rows <> 0) by (destruct rows; cbn; congruence).
      rewrite (nth_indep _ d0 (nth k [] d0)) by (rewrite map_length; lia). rewrite (map_nth (fun r => nth k r d0)). auto. }
    unfold columns. split; [|split].
    - apply Forall_forall. intros v Hv. apply in_map_iff in Hv. destruct Hv as [k [<- _]]. apply Hfl.
    - rewrite map_length, seq_length. auto.
    - rewrite map_map. erewrite map_ext; [|intros k; apply Hfl]. set (row := nth (Nat.min j (length rows - 1)) rows []).
      assert (Hlr : length row = m). { rewrite Forall_forall in Hr. apply Hr. apply nth_In. assert (length rows <> 0) by (destruct rows; cbn; congruence). lia. }
      rewrite <- Hlr. apply map_nth_seq.
  Qed.
  Lemma eval_safe_len rc pub ins outs c0 : lookup 0 (circuits rc) = Some c0 -> eval_safe hint rc pub ins = Ok outs -> length outs = length (outputs c0).
  Proof.
    intros Hc. unfold eval_safe. rewrite Hc. destruct (length ins =? num_inputs c0); [|discriminate]. destruct (length (circuits rc)) as [|fuel]; cbn [es_sub]; [discriminate|]. rewrite Hc.
    destruct (es_insns _ _ _ _ _) as [v| | |]; cbn [rbind]; try discriminate. destruct (forallb _ _); [|discriminate]. intros H; injection H as <-. apply map_length.
  Qed.
  Lemma block_ids n k : 0 < P -> k < num_blocks n -> 0 < Nat.min n ((k + 1) * P) - k * P <= P.
  Proof. intros HP Hk. pose proof (num_blocks_inv n k HP Hk). nia. Qed.

  (* one block: success exactly when every witness of the block solves, and every lane is the scalar solution of its witness *)
  Lemma solve_block_spec rc c0 n f k : 0 < P -> lookup 0 (circuits rc) = Some c0 -> k < num_blocks n ->
    (forall i, i < n -> length (fst (f i)) = num_inputs c0 /\ length (snd (f i)) = num_public_inputs rc) ->
    (forall r, solve_block rc (num_inputs c0) n f k = Ok r -> length (fst r) = length (outputs c0) /\ length (snd r) = num_public_inputs rc /\
      forall j, j < P -> let i := Nat.min (k * P + j) (n - 1) in eval_safe hint rc (snd (f i)) (fst (f i)) = Ok (map (lane j) (fst r)) /\ map (lane j) (snd r) = snd (f i)) /\
    ((forall i, k * P <= i < n -> exists o, eval_safe hint rc (snd (f i)) (fst (f i)) = Ok o) -> exists r, solve_block rc (num_inputs c0) n f k = Ok r).
  Proof.
    intros HP Hc Hk Hf. pose proof (num_blocks_inv n k HP Hk) as Hkn. pose proof (block_ids n k HP Hk) as Hids. unfold solve_block.
    set (cnt := Nat.min n ((k + 1) * P) - k * P) in *. set (rows := map f (seq (k * P) cnt)).
    assert (Hlr : length rows = cnt) by (unfold rows; rewrite map_length, seq_length; auto).
    assert (Hin : forall p, In p rows -> exists i, i < n /\ p = f i). { intros p Hp. apply in_map_iff in Hp. destruct Hp as [i [<- Hi]]. apply in_seq in Hi. exists i. split; auto. lia. }
    assert (Hsz : forallb (sizes_ok rc (num_inputs c0)) rows = true).
    { apply forallb_forall. intros p Hp. destruct (Hin p Hp) as [i [Hi ->]]. unfold sizes_ok. destruct (Hf i Hi) as [-> ->]. rewrite !Nat.eqb_refl. auto. }
    rewrite Hsz. assert (Hrn : rows <> []) by (intros Heq; rewrite Heq in Hlr; cbn in Hlr; lia).
    assert (Hrow : forall j, j < P -> nth (Nat.min j (cnt - 1)) rows ([], []) = f (Nat.min (k * P + j) (n - 1))).
    { intros j Hj. apply nth_error_nth. unfold rows. erewrite map_nth_error; [|apply nth_error_seq; lia]. f_equal. f_equal. unfold cnt. lia. }
    assert (Hci : forall j, j < P -> Forall (full P) (columns (map fst rows) (num_inputs c0)) /\ length (columns (map fst rows) (num_inputs c0)) = num_inputs c0 /\ map (lane j) (columns (map fst rows) (num_inputs c0)) = fst (f (Nat.min (k * P + j) (n - 1)))).
    { intros j Hj. destruct (columns_lane (map fst rows) (num_inputs c0) j) as [A [B C]]; auto; try (rewrite map_length; lia).
      - destruct rows; cbn; congruence.
      - apply Forall_forall. intros r Hr. apply in_map_iff in Hr. destruct Hr as [p [<- Hp]]. destruct (Hin p Hp) as [i [Hi ->]]. apply Hf; auto.
      - split; auto. split; auto. rewrite C, map_length, Hlr. change (@nil F) with (fst (@nil F, @nil F)). rewrite map_nth. rewrite Hrow by auto. auto. }
    assert (Hcp : forall j, j < P -> Forall (full P) (columns (map snd rows) (num_public_inputs rc)) /\ length (columns (map snd rows) (num_public_inputs rc)) = num_public_inputs rc /\ map (lane j) (columns (map snd rows) (num_public_inputs rc)) = snd (f (Nat.min (k * P + j) (n - 1)))).
    { intros j Hj. destruct (columns_lane (map snd rows) (num_public_inputs rc) j) as [A [B C]]; auto; try (rewrite map_length; lia).
      - destruct rows; cbn; congruence.
      - apply Forall_forall. intros r Hr. apply in_map_iff in Hr. destruct Hr as [p [<- Hp]]. destruct (Hin p Hp) as [i [Hi ->]]. apply Hf; auto.
      - split; auto. split; auto. rewrite C, map_length, Hlr. change (@nil F) with (snd (@nil F, @nil F)). rewrite map_nth. rewrite Hrow by auto. auto. }
    destruct (eval_safe_simd_lane hint P rc (columns (map snd rows) (num_public_inputs rc)) (columns (map fst rows) (num_inputs c0)) HP (proj1 (Hcp 0 HP)) (proj1 (Hci 0 HP))) as [A B].
    split.
    - intros r Hr. destruct (eval_safe_simd hint P rc _ _) as [v| | |]; try discriminate. cbn [rbind] in Hr. injection Hr as <-. cbn [fst snd].
      destruct (A v eq_refl) as [A1 A2]. 
      assert (A3 : forall j, j < P -> eval_safe hint rc (snd (f (Nat.min (k * P + j) (n - 1)))) (fst (f (Nat.min (k * P + j) (n - 1)))) = Ok (map (lane j) v)).
      { intros j Hj. specialize (A2 j Hj). cbn beta in A2. cbn beta in A2. rewrite (proj2 (proj2 (Hci j Hj))), (proj2 (proj2 (Hcp j Hj))) in A2. auto. }
      split; [|split].
      + pose proof (eval_safe_len _ _ _ _ _ Hc (A3 0 HP)) as L. rewrite map_length in L. auto.
      + apply (Hcp 0 HP).
      + intros j Hj. cbn zeta. split; [apply A3; auto|]. apply Hcp; auto.
    - intros Hall. assert (HB : exists v, eval_safe_simd hint P rc (columns (map snd rows) (num_public_inputs rc)) (columns (map fst rows) (num_inputs c0)) = Ok v).
      { apply B. intros j Hj. cbn beta. rewrite (proj2 (proj2 (Hci j Hj))), (proj2 (proj2 (Hcp j Hj))). apply Hall. lia. }
      destruct HB as [v ->]. cbn [rbind]. eauto.
  Qed.

  Theorem solve_witnesses_spec rc c0 n f : 0 < P -> lookup 0 (circuits rc) = Some c0 ->
    (forall i, i < n -> length (fst (f i)) = num_inputs c0 /\ length (snd (f i)) = num_public_inputs rc) ->
    (forall w, solve_witnesses rc n f = Ok w -> num_witnesses w = n /\ npub w = num_public_inputs rc /\ (n <> 0 -> nin w = length (outputs c0)) /\
      exists items, iter_scalar w = Some items /\ length items = n /\
        forall i, i < n -> exists o, eval_safe hint rc (snd (f i)) (fst (f i)) = Ok o /\ nth_error items i = Some (o, snd (f i))) /\
    ((forall i, i < n -> exists o, eval_safe hint rc (snd (f i)) (fst (f i)) = Ok o) -> exists w, solve_witnesses rc n f = Ok w).
  Proof.
    intros HP Hc Hf. assert (Hb := fun k Hk => solve_block_spec rc c0 n f k HP Hc Hk Hf).
    unfold solve_witnesses, input_size. destruct (Nat.eqb_spec P 0); [lia|]. rewrite Hc. cbn [option_map]. split.
    - intros w. destruct (rmap (solve_block rc (num_inputs c0) n f) (seq 0 (num_blocks n))) as [bl| | |] eqn:E; try discriminate. cbn [rbind]. intros H; injection H as <-.
      apply rmap_ok in E. set (m := length (outputs c0) + num_public_inputs rc).
      assert (Hbl : forall k, k < num_blocks n -> exists r, nth_error bl k = Some r /\ solve_block rc (num_inputs c0) n f k = Ok r).
      { intros k Hk. destruct (Forall2_nth_error _ _ _ E k k) as [r [A B]]; [rewrite nth_error_seq by auto; auto|]. eauto. }
      assert (Hlb : length bl = num_blocks n) by (rewrite <- (Forall2_len _ _ _ E), seq_length; auto).
      assert (Hbk : forall k r, nth_error bl k = Some r -> k < num_blocks n /\ solve_block rc (num_inputs c0) n f k = Ok r).
      { intros k r Hr. assert (k < num_blocks n) by (rewrite <- Hlb; apply nth_error_Some; congruence). split; auto. destruct (Hbl k) as [r' [A B]]; auto. congruence. }
      set (cc := map (fun b : list Simd * list Simd => fst b ++ snd b) bl).
      assert (Hcc : Forall (fun b => length b = m) cc).
      { apply Forall_forall. intros b Hin. apply in_map_iff in Hin. destruct Hin as [r [<- Hin]]. apply In_nth_error in Hin. destruct Hin as [k Hk]. destruct (Hbk _ _ Hk) as [A B].
        destruct (proj1 (Hb k A) r B) as [L1 [L2 _]]. rewrite app_length, L1, L2. auto. }
      assert (Hnin : n <> 0 -> length (fst (last bl ([], []))) = length (outputs c0)).
      { intros Hn. rewrite nth_last. assert (0 < num_blocks n) by (pose proof (num_blocks_bound n 0 HP ltac:(lia)); lia).
        destruct (Hbl (length bl - 1)) as [r [A B]]; [lia|]. rewrite (nth_error_nth _ _ _ A). assert (Hlt : length bl - 1 < num_blocks n) by lia. apply (proj1 (Hb _ Hlt) r B). }
      cbn [num_witnesses npub nin]. split; auto. split; auto. split; auto.
      set (w := {| num_witnesses := n; nin := length (fst (last bl ([], []))); npub := num_public_inputs rc; values := SimdV (concat cc) |}).
      destruct (Nat.eq_dec n 0) as [Hn0|Hn0].
      { exists []. unfold iter_scalar. cbn [w num_witnesses]. rewrite Hn0. split; auto. split; auto. intros; lia. }
      assert (Hm : nin w + npub w = m) by (cbn [w nin npub]; rewrite Hnin by auto; auto).
      eexists. split; [unfold iter_scalar; apply (sc_items_simd w (concat cc) eq_refl HP)|].
      + cbn [w num_witnesses]. intros i Hi. fold w. rewrite Hm, (concat_len cc m Hcc). unfold cc. rewrite map_length, Hlb. pose proof (num_blocks_bound n i HP ltac:(lia)). nia.
      + left. apply Nat.mod_0_l. lia.
      + rewrite map_length, seq_length. split; auto. intros i Hi.
        pose proof (num_blocks_bound n i HP Hi) as Hk. pose proof (Nat.mod_upper_bound i P ltac:(lia)) as Hmod. pose proof (Nat.div_mod i P ltac:(lia)) as Hdm.
        destruct (Hbl _ Hk) as [r [A B]]. destruct (proj1 (Hb _ Hk) r B) as [L1 [L2 L3]]. destruct (L3 (i mod P) Hmod) as [S1 S2]. replace (Nat.min (i / P * P + i mod P) (n - 1)) with i in S1, S2 by lia.
        eexists. split; [exact S1|]. erewrite map_nth_error; [|apply nth_error_seq; cbn [w num_witnesses]; auto]. f_equal. cbn [Nat.add]. rewrite Hm.
        rewrite (skipn_concat cc m Hcc) by (unfold cc; rewrite map_length; lia).
        destruct (skipn_nth cc (i / P)) as [t Ht]; [unfold cc; rewrite map_length; lia|]. rewrite Ht.
        assert (Hn : nth (i / P) cc [] = fst r ++ snd r) by (apply nth_error_nth; unfold cc; erewrite map_nth_error; [reflexivity|exact A]). rewrite Hn.
        rewrite item_of_app by (rewrite Hm, app_length, L1, L2; unfold m; lia). unfold item_of. cbn [w nin npub]. rewrite Hnin by auto.
        rewrite firstn_app, L1, Nat.sub_diag. cbn [firstn]. rewrite app_nil_r, firstn_all2 by lia. rewrite skipn_app, L1, Nat.sub_diag. cbn [skipn]. rewrite skipn_all2 by lia. cbn [app]. rewrite firstn_all2 by lia. rewrite S2. auto.
    - intros Hall. assert (Hr : forall l, (forall k, In k l -> k < num_blocks n) -> exists bl, rmap (solve_block rc (num_inputs c0) n f) l = Ok bl).
      { induction l as [|k l IH]; intros Hin; cbn [rmap]; [eauto|]. destruct (proj2 (Hb k (Hin k (or_introl eq_refl)))) as [r ->]; [intros i Hi; apply Hall; lia|]. cbn [rbind].
        destruct IH as [bl ->]; [intros; apply Hin; right; auto|]. cbn [rbind]. eauto. }
      destruct (Hr (seq 0 (num_blocks n))) as [bl ->]; [intros k Hk; apply in_seq in Hk; lia|]. cbn [rbind]. eauto.
  Qed.
End Witness.
