(* What tensors are (the specification of zkcuda/shape.rs) and the proofs about its model. *)
From Verif Require Import Prelude Topo InputMapping Shapes.
From Coq Require Import Permutation.
Open Scope nat_scope.

(* ------------------------------------------------------------ specification *)
(* position of a multi-index in the row-major vector of a tensor *)
Fixpoint flat (s i : list nat) : nat :=
  match s, i with d :: s, x :: i => x * fold_right Nat.mul 1 s + flat s i | _, _ => 0 end.
Definition inside (s i : list nat) : Prop := Forall2 lt i s.
(* permuting the axes: coordinate k of the result is coordinate axes[k] of the source *)
Definition pick (l axes : list nat) : list nat := map (fun a => nth a l 0) axes.
Definition transposed {T} (s axes : list nat) (v w : list T) : Prop :=
  length w = length v /\ forall i, inside s i -> nth_error w (flat (pick s axes) (pick i axes)) = nth_error v (flat s i).
(* the operations on tensors *)
Inductive op := Reshape (s : list nat) | Transpose (axes : list nat).
Inductive steps {T} : list nat * list T -> list op -> list nat * list T -> Prop :=
| StNil t : steps t [] t
| StReshape s v s' ops t : fold_right Nat.mul 1 s' = fold_right Nat.mul 1 s -> steps (s', v) ops t -> steps (s, v) (Reshape s' :: ops) t
| StTranspose s v axes w ops t : Permutation axes (seq 0 (length s)) -> transposed s axes v w -> steps (pick s axes, w) ops t -> steps (s, v) (Transpose axes :: ops) t.
(* padding every dimension to a power of two: coordinates beyond the end read the last one *)
Definition clamp (s j : list nat) : list nat := map (fun p => Nat.min (fst p) (snd p - 1)) (combine j s).
Definition padded {T} (s : list nat) (v w : list T) : Prop :=
  length w = fold_right Nat.mul 1 (map next_power_of_two s) /\
  forall j, inside (map next_power_of_two s) j -> nth_error w (flat (map next_power_of_two s) j) = nth_error v (flat s (clamp s j)).
(* reading position i through a bit order: bit k of i becomes bit order[k] *)
Fixpoint bitread (order : list nat) (i : nat) : nat :=
  match order with [] => 0 | a :: order => (if Nat.odd i then 2 ^ a else 0) + bitread order (i / 2) end.

(* ------------------------------------------------------------ multi-indices *)
Lemma flat_lt s i : inside s i -> flat s i < prod s.
Proof. induction 1 as [|x d i s Hx H IH]; cbn [flat prod fold_right]; [lia|]. fold (prod s). nia. Qed.
Lemma flat_onto s : forall n, n < prod s -> exists i, inside s i /\ flat s i = n.
Proof.
  induction s as [|d s IH]; intros n H; cbn [prod fold_right] in H.
  - exists []. split; [constructor|cbn; lia].
  - fold (prod s) in H. assert (prod s <> 0) by nia. destruct (IH (n mod prod s)) as [i [Hi Hf]]; [apply Nat.mod_upper_bound; auto|].
    exists (n / prod s :: i). split.
    + constructor; auto. apply Nat.div_lt_upper_bound; auto. lia.
    + cbn [flat]. fold (prod s). rewrite Hf. rewrite Nat.mul_comm. symmetry. apply Nat.div_mod; auto.
Qed.
Lemma inside_len s i : inside s i -> length i = length s.
Proof. apply Forall2_len. Qed.
Lemma prod_cons d s : prod (d :: s) = d * prod s.
Proof. reflexivity. Qed.
Lemma prod_app a b : prod (a ++ b) = prod a * prod b.
Proof. induction a; cbn [app]; [change (prod []) with 1; lia|]. rewrite !prod_cons, IHa. lia. Qed.
Lemma prod_rev a : prod (rev a) = prod a.
Proof. induction a; cbn [rev]; auto. rewrite prod_app, IHa, !prod_cons. change (prod []) with 1. lia. Qed.
Definition pos (s : list nat) : Prop := Forall (lt 0) s.
Lemma pos_prod s : pos s -> 0 < prod s.
Proof. induction 1; [cbn; lia|]. rewrite prod_cons. nia. Qed.

Lemma F2nth {A B} (R : A -> B -> Prop) l1 l2 : Forall2 R l1 l2 -> forall k, match nth_error l1 k, nth_error l2 k with Some x, Some y => R x y | None, None => True | _, _ => False end.
Proof. induction 1; intros [|k]; cbn; auto. apply IHForall2. Qed.
(* sums over coordinates *)
Definition nsum (l : list nat) : nat := fold_right Nat.add 0 l.
Lemma nsum_perm a b : Permutation a b -> nsum a = nsum b.
Proof. induction 1; cbn [nsum fold_right]; fold nsum; unfold nsum in *; lia. Qed.
Definition stride (s : list nat) (a : nat) : nat := prod (skipn (S a) s).
Lemma flat_sum s : forall i, length i = length s -> flat s i = nsum (map (fun a => nth a i 0 * stride s a) (seq 0 (length s))).
Proof.
  induction s as [|d s IH]; intros [|x i] H; try discriminate; cbn [flat length seq map nsum fold_right]; auto.
  fold (prod s). rewrite IH by (cbn in H; lia). unfold stride at 2. cbn [skipn nth]. f_equal. rewrite <- seq_shift, map_map. auto.
Qed.
Lemma inside_pick s i axes : inside s i -> Forall (fun a => a < length s) axes -> inside (pick s axes) (pick i axes).
Proof.
  intros H. induction 1 as [|a axes Ha _ IH]; cbn; constructor; auto.
  destruct (nth_error_Some_ex s a Ha) as [d Hd]. destruct (nth_error_Some_ex i a) as [x Hx]; [rewrite (inside_len _ _ H); auto|].
  rewrite (nth_error_nth _ _ _ Hd), (nth_error_nth _ _ _ Hx). pose proof (F2nth _ _ _ H a) as H0. rewrite Hx, Hd in H0. exact H0.
Qed.
(* every index of the transposed tensor comes from one of the source *)
Lemma pick_onto s axes : Permutation axes (seq 0 (length s)) -> forall j, inside (pick s axes) j -> exists i, inside s i /\ pick i axes = j.
Proof.
  intros HP j Hj. assert (Hlen : length j = length axes) by (apply inside_len in Hj; unfold pick in Hj; rewrite map_length in Hj; auto).
  assert (Hn : NoDup axes) by (eapply Permutation_NoDup; [symmetry; exact HP|apply seq_NoDup]).
  exists (map (fun a => match lookup a (combine axes j) with Some x => x | None => 0 end) (seq 0 (length s))).
  assert (Hk : keys (combine axes j) = axes).
  { clear -Hlen. revert j Hlen. induction axes; intros [|x j] H; try discriminate; cbn; auto. f_equal. apply IHaxes. cbn in H; lia. }
  assert (Hlk : forall k a x, nth_error axes k = Some a -> nth_error j k = Some x -> lookup a (combine axes j) = Some x).
  { intros k a x Ha Hx. apply In_lookup; [rewrite Hk; auto|]. apply nth_error_In with k. clear -Ha Hx. revert k j Ha Hx. induction axes; intros [|k] [|y j] Ha Hx; cbn in *; try discriminate; auto. congruence. }
  split.
  - assert (G : forall a, a < length s -> exists k x, nth_error axes k = Some a /\ nth_error j k = Some x).
    { intros a Ha. assert (In a axes) by (eapply Permutation_in; [symmetry; exact HP|apply in_seq; lia]). apply In_nth_error in H. destruct H as [k Hk2].
      destruct (nth_error_Some_ex j k) as [x Hx]; [rewrite Hlen; eapply nth_error_Some_lt; eauto|]. eauto. }
    unfold inside. rewrite <- (map_id s) at 1.
    assert (E : s = map (fun a => nth a s 0) (seq 0 (length s))).
    { apply list_eq_nth_error. intros k. destruct (Nat.lt_ge_cases k (length s)) as [Hk2|Hk2].
      - rewrite nth_error_map, nth_error_seq by auto. cbn. apply nth_error_nth'. auto.
      - rewrite !(proj2 (nth_error_None _ _)); auto. rewrite map_length, seq_length; auto. }
    rewrite map_id. rewrite E at 2.
    assert (Hall : Forall (fun a => a < length s) (seq 0 (length s))) by (apply Forall_forall; intros a Ha; apply in_seq in Ha; lia).
    revert Hall. generalize (seq 0 (length s)) as l. induction l as [|a l IH]; intros Hl; cbn; constructor; inversion Hl; subst; auto.
    destruct (G a) as [k [x [Ha Hx]]]; auto. rewrite (Hlk _ _ _ Ha Hx). pose proof (F2nth _ _ _ Hj k) as H0. rewrite Hx in H0. unfold pick in H0. rewrite nth_error_map, Ha in H0. auto.
  - apply list_eq_nth_error. intros k. unfold pick. rewrite nth_error_map. destruct (nth_error axes k) as [a|] eqn:Ha; cbn.
    + destruct (nth_error_Some_ex j k) as [x Hx]; [rewrite Hlen; eapply nth_error_Some_lt; eauto|]. rewrite Hx. f_equal.
      assert (a < length s). { apply nth_error_In in Ha. eapply Permutation_in in Ha; [|exact HP]. apply in_seq in Ha; lia. }
      apply nth_error_nth. rewrite nth_error_map, nth_error_seq by auto. cbn [Nat.add option_map]. rewrite (Hlk _ _ _ Ha Hx). auto.
    + symmetry. apply nth_error_None. apply nth_error_None in Ha. lia.
Qed.
Lemma pick_prod s axes : Permutation axes (seq 0 (length s)) -> prod (pick s axes) = prod s.
Proof.
  intros HP. assert (E : s = pick s (seq 0 (length s))).
  { apply list_eq_nth_error. intros k. unfold pick. destruct (Nat.lt_ge_cases k (length s)) as [Hk|Hk].
    - rewrite nth_error_map, nth_error_seq by auto. cbn. apply nth_error_nth'. auto.
    - rewrite !(proj2 (nth_error_None _ _)); auto. rewrite map_length, seq_length; auto. }
  rewrite E at 2. unfold pick. assert (HP2 : Permutation (map (fun a => nth a s 0) axes) (map (fun a => nth a s 0) (seq 0 (length s)))) by (apply Permutation_map; auto).
  revert HP2. generalize (map (fun a => nth a s 0) axes), (map (fun a => nth a s 0) (seq 0 (length s))). clear. induction 1; cbn [prod fold_right]; unfold prod in *; lia.
Qed.
Lemma pick_len s axes : length (pick s axes) = length axes.
Proof. apply map_length. Qed.
Lemma pick_pick s a b : Forall (fun x => x < length a) b -> pick (pick s a) b = pick s (pick a b).
Proof.
  intros H. unfold pick. rewrite map_map. apply map_ext_in. intros x Hx. rewrite Forall_forall in H. specialize (H x Hx).
  destruct (nth_error_Some_ex a x H) as [y Hy]. rewrite (nth_error_nth _ _ _ Hy). apply nth_error_nth. rewrite nth_error_map, Hy. auto.
Qed.
Lemma pos_pick s axes : pos s -> Forall (fun a => a < length s) axes -> pos (pick s axes).
Proof. intros H. induction 1; cbn; constructor; auto. unfold pos in H. rewrite Forall_forall in H. apply H. apply nth_In; auto. Qed.
Lemma perm_bound axes n : Permutation axes (seq 0 n) -> Forall (fun a => a < n) axes.
Proof. intros H. apply Forall_forall. intros a Ha. eapply Permutation_in in Ha; [|exact H]. apply in_seq in Ha; lia. Qed.

(* ------------------------------------------------------------ the index tables *)
Lemma grow_nth cur len step x y z : x < len -> nth_error cur y = Some z -> nth_error (grow cur len step) (x * length cur + y) = Some (z + x * step).
Proof.
  intros Hx Hy. assert (E : grow cur len step = flat_map (fun i => map (fun y => y + i * step) cur) (seq 0 len)).
  { unfold grow. destruct len; [lia|]. cbn [seq flat_map Nat.sub]. rewrite Nat.sub_0_r. f_equal. symmetry. erewrite map_ext; [apply map_id|]. intros; cbn; lia. }
  rewrite E. clear E. replace (z + x * step) with (z + (0 + x) * step) by lia. revert Hx. generalize 0 as a. revert x. induction len as [|len IH]; intros x a Hx; [lia|]. cbn [seq flat_map].
  pose proof (nth_error_Some_lt _ _ _ Hy). destruct x as [|x].
  - rewrite nth_error_app1 by (rewrite map_length; lia). cbn [Nat.mul Nat.add]. rewrite nth_error_map, Hy. cbn. f_equal. lia.
  - rewrite nth_error_app2 by (rewrite map_length; lia). rewrite map_length. replace (S x * length cur + y - length cur) with (x * length cur + y) by lia.
    rewrite IH by lia. f_equal. lia.
Qed.
Lemma grow_len cur len step : 0 < len -> length (grow cur len step) = len * length cur.
Proof.
  intros H. unfold grow. rewrite app_length. destruct len; [lia|]. cbn [Nat.sub]. rewrite Nat.sub_0_r. cbn [Nat.mul]. f_equal.
  generalize 1. induction len; intros a; cbn; auto. rewrite app_length, map_length. f_equal. apply IHlen. lia.
Qed.
(* prefix products of the reversed shape are the strides *)
Lemma prefix_from_nth s : forall p k x, nth_error (prefix_from p s) k = Some x -> x = p * prod (firstn (S k) s).
Proof.
  induction s as [|d s IH]; intros p [|k] x H; try discriminate; cbn [prefix_from nth_error] in H.
  - injection H as <-. cbn. lia.
  - apply IH in H. rewrite H. change (firstn (S (S k)) (d :: s)) with (d :: firstn (S k) s). rewrite prod_cons. lia.
Qed.
Lemma prefix_from_len p s : length (prefix_from p s) = length s.
Proof. revert p; induction s; intros; cbn; auto. Qed.
Lemma prefix_nth s k : k <= length s -> nth_error (prefix_products s) k = Some (prod (firstn k s)).
Proof.
  intros H. unfold prefix_products. destruct k; cbn [nth_error]; auto.
  destruct (nth_error_Some_ex (prefix_from 1 s) k) as [x Hx]; [rewrite prefix_from_len; lia|]. rewrite Hx. f_equal. apply prefix_from_nth in Hx. rewrite Hx. lia.
Qed.
Lemma stride_rev s a : a < length s -> nth_error (prefix_products (rev s)) (length (rev s) - a - 1) = Some (stride s a).
Proof.
  intros H. rewrite rev_length, prefix_nth by (rewrite rev_length; lia). f_equal. unfold stride. rewrite <- prod_rev. f_equal.
  replace (length s - a - 1) with (length s - S a) by lia. rewrite firstn_rev, rev_involutive. f_equal. lia.
Qed.
Lemma rev_nth_error {A} (s : list A) a : a < length s -> nth_error (rev s) (length (rev s) - a - 1) = nth_error s a.
Proof.
  intros H. rewrite rev_length. destruct s as [|d0 s0]; [cbn in H; lia|]. set (s := d0 :: s0) in *.
  rewrite (nth_error_nth' (rev s) d0) by (rewrite rev_length; lia). rewrite rev_nth by lia. rewrite (nth_error_nth' s d0) by auto. do 2 f_equal. lia.
Qed.
(* the table built over the axes from the right *)
Lemma entry_idx_spec s axes : pos s -> Forall (fun a => a < length s) axes ->
  exists idx, entry_idx s axes = Some idx /\ length idx = prod (pick s axes) /\
    forall j, inside (pick s axes) j -> nth_error idx (flat (pick s axes) j) = Some (nsum (map (fun p => fst p * stride s (snd p)) (combine j axes))).
Proof.
  intros Hp. unfold entry_idx. rewrite fold_left_rev_right || rewrite <- fold_left_rev_right. rewrite rev_involutive.
  induction 1 as [|a axes Ha _ IH]; cbn [fold_right].
  - exists [0]. split; auto. split; auto. intros j H. inversion H; subst. auto.
  - destruct IH as [cur [-> [Hl Hi]]]. cbn [obind]. rewrite rev_length. rewrite (proj2 (Nat.ltb_lt _ _) Ha). cbn [guard obind].
    pose proof (rev_nth_error s a Ha) as E. rewrite rev_length in E. rewrite E. clear E. destruct (nth_error_Some_ex s a Ha) as [d Hd]. rewrite Hd. cbn [obind].
    pose proof (stride_rev s a Ha) as E. rewrite rev_length in E. rewrite E. cbn [obind]. clear E.
    assert (Hd0 : 0 < d) by (unfold pos in Hp; rewrite Forall_forall in Hp; apply Hp; eapply nth_error_In; eauto).
    eexists. split; [reflexivity|]. split.
    + rewrite grow_len, Hl by auto. cbn. rewrite (nth_error_nth _ _ _ Hd). auto.
    + intros j Hj. cbn [pick map] in Hj. inversion Hj as [|x ? j' ? Hx Hj']; subst. change (flat (pick s (a :: axes)) (x :: j')) with (x * prod (pick s axes) + flat (pick s axes) j'). rewrite <- Hl. cbn [combine map nsum fold_right fst snd].
      rewrite (nth_error_nth _ _ _ Hd) in Hx. erewrite grow_nth; [|exact Hx|apply Hi; exact Hj']. f_equal. unfold nsum. lia.
Qed.
(* sums over the axes of a permutation *)
Lemma perm_sum s axes i : Permutation axes (seq 0 (length s)) -> length i = length s ->
  nsum (map (fun p => fst p * stride s (snd p)) (combine (pick i axes) axes)) = flat s i.
Proof.
  intros HP Hl. rewrite flat_sum by auto.
  assert (E : map (fun p => fst p * stride s (snd p)) (combine (pick i axes) axes) = map (fun a => nth a i 0 * stride s a) axes).
  { clear. induction axes; cbn; auto. f_equal; auto. }
  rewrite E. apply nsum_perm. apply Permutation_map. auto.
Qed.
Lemma omap_nth_error {A} (v : list A) idx w : omap (nth_error v) idx = Some w -> forall k, nth_error w k = let* x := nth_error idx k in nth_error v x.
Proof.
  intros H k. apply omap_some in H. pose proof (F2nth _ _ _ H k) as H0. destruct (nth_error idx k) as [x|] eqn:E1, (nth_error w k) as [y|] eqn:E2; cbn; auto; try contradiction; congruence.
Qed.
Lemma omap_total {A B} (f : A -> option B) l : Forall (fun x => exists y, f x = Some y) l -> exists r, omap f l = Some r.
Proof. induction 1 as [|x l [y Hy] _ [r Hr]]; cbn; eauto. rewrite Hy, Hr. cbn. eauto. Qed.
(* one transposition by its table *)
Lemma idx_transposed {T} s axes idx (v : list T) : pos s -> Permutation axes (seq 0 (length s)) -> length v = prod s -> entry_idx s axes = Some idx ->
  exists w, omap (nth_error v) idx = Some w /\ transposed s axes v w.
Proof.
  intros Hp HP Hl Hi. pose proof (perm_bound _ _ HP) as Hb. destruct (entry_idx_spec s axes Hp Hb) as [idx' [Hi' [Hil Hin]]]. rewrite Hi in Hi'. injection Hi' as <-.
  assert (Hlt : Forall (fun x => x < prod s) idx).
  { apply Forall_forall. intros x Hx. apply In_nth_error in Hx. destruct Hx as [k Hk]. pose proof (nth_error_Some_lt _ _ _ Hk) as Hkl. rewrite Hil in Hkl.
    destruct (flat_onto (pick s axes) k Hkl) as [j [Hj Hf]]. destruct (pick_onto s axes HP j Hj) as [i [Hin2 <-]].
    specialize (Hin _ Hj). rewrite Hf, Hk in Hin. injection Hin as ->. rewrite perm_sum; auto; [apply flat_lt; auto|apply inside_len; auto]. }
  destruct (omap_total (nth_error v) idx) as [w Hw].
  { eapply Forall_impl; [|exact Hlt]. cbn. intros x Hx. apply nth_error_Some_ex. lia. }
  exists w. split; auto. split.
  - rewrite (omap_length _ _ _ Hw), Hil, (pick_prod s axes HP). auto.
  - intros i Hii. rewrite (omap_nth_error _ _ _ Hw). rewrite (Hin (pick i axes)) by (apply inside_pick; auto). cbn [obind]. rewrite perm_sum; auto. apply inside_len; auto.
Qed.
Lemma entry_idx_len s axes idx : pos s -> Permutation axes (seq 0 (length s)) -> entry_idx s axes = Some idx -> length idx = prod s.
Proof.
  intros Hp HP Hi. destruct (entry_idx_spec s axes Hp (perm_bound _ _ HP)) as [idx' [Hi' [Hil _]]]. rewrite Hi in Hi'. injection Hi' as <-. rewrite Hil. apply pick_prod; auto.
Qed.
(* transposing twice *)
Lemma transposed_trans {T} s a b (u v w : list T) : Permutation a (seq 0 (length s)) -> Permutation b (seq 0 (length a)) ->
  transposed s a u v -> transposed (pick s a) b v w -> transposed s (pick a b) u w.
Proof.
  intros Ha Hb [L1 H1] [L2 H2]. split; [congruence|]. intros i Hi. rewrite <- H1 by auto.
  pose proof (perm_bound _ _ Hb) as Hbb. rewrite <- (pick_pick s a b), <- (pick_pick i a b) by auto. apply H2. apply inside_pick; auto. apply perm_bound; auto.
Qed.
Lemma pick_perm a b n : Permutation a (seq 0 n) -> Permutation b (seq 0 (length a)) -> Permutation (pick a b) (seq 0 n).
Proof.
  intros Ha Hb. transitivity a; auto. unfold pick.
  assert (E : a = map (fun k => nth k a 0) (seq 0 (length a))).
  { apply list_eq_nth_error. intros k. destruct (Nat.lt_ge_cases k (length a)) as [Hk|Hk].
    - rewrite nth_error_map, nth_error_seq by auto. cbn. apply nth_error_nth'. auto.
    - rewrite !(proj2 (nth_error_None _ _)); auto. rewrite map_length, seq_length; auto. }
  apply Permutation_trans with (map (fun k => nth k a 0) (seq 0 (length a))); [apply Permutation_map; auto|rewrite <- E; auto].
Qed.
Lemma transposed_unique {T} s axes (v w w' : list T) : Permutation axes (seq 0 (length s)) -> length v = prod s -> transposed s axes v w -> transposed s axes v w' -> w = w'.
Proof.
  intros HP Hl [L1 H1] [L2 H2]. apply list_eq_nth_error. intros k. destruct (Nat.lt_ge_cases k (prod s)) as [Hk|Hk].
  - rewrite <- (pick_prod s axes HP) in Hk. destruct (flat_onto _ _ Hk) as [j [Hj <-]]. destruct (pick_onto s axes HP j Hj) as [i [Hi <-]]. rewrite H1, H2 by auto. auto.
  - rewrite !(proj2 (nth_error_None _ _)); auto; lia.
Qed.

(* ------------------------------------------------------------ histories *)
Inductive acts {T} : list Entry -> list T -> list T -> Prop :=
| AcNil v : acts [] v v
| AcCons e a es v v' w : e_axes e = Some a -> pos (e_shape e) -> Permutation a (seq 0 (length (e_shape e))) -> prod (e_shape e) = length v ->
    transposed (e_shape e) a v v' -> acts es v' w -> acts (e :: es) v w.
Lemma acts_len {T} es (v w : list T) : acts es v w -> length w = length v.
Proof. induction 1 as [|? ? ? ? ? ? _ _ _ _ [H _] _ IH]; congruence. Qed.
Lemma acts_snoc {T} es e a (v u w : list T) : acts es v u -> e_axes e = Some a -> pos (e_shape e) -> Permutation a (seq 0 (length (e_shape e))) -> prod (e_shape e) = length v ->
  transposed (e_shape e) a u w -> acts (es ++ [e]) v w.
Proof.
  induction 1; intros He Hp HP Hl Ht; cbn; econstructor; eauto.
  - constructor.
  - apply IHacts; auto. rewrite Hl. destruct H3. congruence.
Qed.
Definition tracks {T} (idx : option (list nat)) (v0 v : list T) : Prop :=
  match idx with None => v = v0 | Some t => omap (nth_error v0) t = Some v end.
Lemma omap_omap {A} (v0 : list A) t cur (v : list A) c : omap (nth_error v0) t = Some v -> omap (nth_error t) cur = Some c -> omap (nth_error v0) c = omap (nth_error v) cur.
Proof.
  intros H1. revert c. induction cur as [|x cur IH]; intros c H; cbn in *; [injection H as <-; auto|].
  apply obind_some in H. destruct H as [y [Hy H]]. apply obind_some in H. destruct H as [c' [Hc H]]. injection H as <-. cbn.
  rewrite (IH _ Hc). rewrite (omap_nth_error _ _ _ H1), Hy. auto.
Qed.
Lemma all_idx_acts {T} es (v w : list T) : acts es v w -> forall v0 idx rest, tracks idx v0 v -> exists idx', all_idx (es ++ rest) idx = all_idx rest idx' /\ tracks idx' v0 w.
Proof.
  induction 1 as [v|e a es v v' w He Hp HP Hl Ht Ha IH]; intros v0 idx rest Htr; [exists idx; auto|]. cbn [app all_idx]. rewrite He.
  destruct (entry_idx_spec (e_shape e) a Hp (perm_bound _ _ HP)) as [cur [Hc _]]. rewrite Hc. cbn [obind].
  destruct (idx_transposed _ _ _ v Hp HP (eq_sym Hl) Hc) as [v2 [Hv2 Ht2]]. assert (v2 = v') by (eapply transposed_unique; eauto). subst v2.
  destruct idx as [t|]; cbn [tracks] in Htr.
  - assert (Hlt : length t = length cur). { rewrite (entry_idx_len _ _ _ Hp HP Hc), Hl. symmetry. apply (omap_length _ _ _ Htr). }
    rewrite Hlt, Nat.eqb_refl. cbn [guard obind].
    assert (Hbd : Forall (fun x => x < length v) cur).
    { apply omap_some in Hv2. clear -Hv2. induction Hv2; constructor; auto. eapply nth_error_Some_lt; eauto. }
    destruct (omap_total (nth_error t) cur) as [c Hcc]. { eapply Forall_impl; [|exact Hbd]. cbn. intros x Hx. apply nth_error_Some_ex. rewrite (omap_length _ _ _ Htr) in Hx. auto. }
    rewrite Hcc. cbn [obind]. apply IH. cbn. rewrite (omap_omap _ _ _ _ _ Htr Hcc). auto.
  - subst v0. apply IH. exact Hv2.
Qed.
Lemma prod_pos s : 0 < prod s -> pos s.
Proof. induction s as [|d s IH]; intros H; constructor; rewrite prod_cons in H; [nia|]. apply IH. nia. Qed.
Lemma split_last_app {A} (l : list A) x : split_last (l ++ [x]) = Some (l, x).
Proof. unfold split_last. rewrite rev_app_distr. cbn. rewrite rev_involutive. auto. Qed.
Definition inv {T} (h : History) (v : list T) (s : list nat) (w : list T) : Prop :=
  exists pre e u, h_entries h = pre ++ [e] /\ acts pre v u /\ prod (e_shape e) = length v /\ h_len h = length v /\ pos (e_shape e) /\
    match e_axes e with
    | None => s = e_shape e /\ w = u
    | Some a => Permutation a (seq 0 (length (e_shape e))) /\ s = pick (e_shape e) a /\ transposed (e_shape e) a u w
    end.
Lemma inv_new {T} s (v : list T) : length v = prod s -> 0 < prod s -> inv (h_new s) v s v.
Proof.
  intros H H0. exists [], {| e_shape := s; e_axes := None |}, v. cbn. split; auto. split; [constructor|]. split; auto. split; auto. split; auto. apply prod_pos; auto.
Qed.
Lemma inv_prod {T} h (v : list T) s w : inv h v s w -> prod s = length v /\ h_len h = length v /\ length w = length v.
Proof.
  intros [pre [e [u [H1 [H2 [H3 [H4 [H5 H6]]]]]]]]. pose proof (acts_len _ _ _ H2) as Hu. destruct (e_axes e) as [a|].
  - destruct H6 as [HP [-> [Ht _]]]. rewrite pick_prod by auto. split; auto. split; auto. congruence.
  - destruct H6 as [-> ->]. auto.
Qed.
Lemma inv_reshape {T} h (v : list T) s w s' : inv h v s w -> prod s' = prod s -> exists h', h_reshape h s' = Some h' /\ inv h' v s' w.
Proof.
  intros Hi Hp. destruct (inv_prod _ _ _ _ Hi) as [I1 [I2 I3]]. destruct Hi as [pre [e [u [H1 [H2 [H3 [H4 [H5 H6]]]]]]]]. unfold h_reshape.
  rewrite (proj2 (Nat.eqb_eq _ _)) by lia. cbn [guard obind]. rewrite H1, split_last_app. cbn [obind fst snd].
  assert (Hpos : pos s') by (apply prod_pos; rewrite Hp, I1, <- H3; apply pos_prod; auto).
  eexists. split; [reflexivity|]. destruct (e_axes e) as [a|] eqn:Ea.
  - destruct H6 as [HP [-> Ht]]. exists (pre ++ [e]), {| e_shape := s'; e_axes := None |}, w. cbn. split; auto. split; [eapply acts_snoc; eauto|]. split; [exact (eq_trans Hp I1)|]. split; auto.
  - destruct H6 as [-> ->]. exists pre, {| e_shape := s'; e_axes := None |}, u. cbn. split; auto. split; auto. split; [exact (eq_trans Hp I1)|]. split; auto.
Qed.
Lemma omap_pick a b : Forall (fun x => x < length a) b -> omap (nth_error a) b = Some (pick a b).
Proof. induction 1 as [|x b Hx _ IH]; cbn; auto. destruct (nth_error_Some_ex a x Hx) as [y Hy]. rewrite Hy, IH. cbn. rewrite (nth_error_nth _ _ _ Hy). auto. Qed.
Lemma inv_transpose {T} h (v : list T) s w axes w' : inv h v s w -> Permutation axes (seq 0 (length s)) -> transposed s axes w w' ->
  exists h', h_transpose h axes = Some h' /\ inv h' v (pick s axes) w'.
Proof.
  intros Hi HP Ht. destruct Hi as [pre [e [u [H1 [H2 [H3 [H4 [H5 H6]]]]]]]]. unfold h_transpose. rewrite H1, split_last_app. cbn [obind fst snd].
  pose proof (Permutation_length HP) as Hl. rewrite seq_length in Hl.
  destruct (e_axes e) as [a|] eqn:Ea.
  - destruct H6 as [Ha [-> Hta]]. pose proof (Permutation_length Ha) as Hla. rewrite seq_length in Hla. rewrite pick_len in *.
    rewrite (proj2 (Nat.eqb_eq _ _)) by lia. cbn [guard obind]. rewrite omap_pick by (apply perm_bound; auto). cbn [obind].
    eexists. split; [reflexivity|]. exists pre, {| e_shape := e_shape e; e_axes := Some (pick a axes) |}, u. cbn. split; auto. split; auto. split; auto. split; auto. split; auto.
    split; [apply pick_perm; auto|]. split; [apply pick_pick; apply perm_bound; auto|]. eapply transposed_trans; eauto.
  - destruct H6 as [-> ->]. rewrite (proj2 (Nat.eqb_eq _ _)) by lia. cbn [guard obind]. eexists. split; [reflexivity|].
    exists pre, {| e_shape := e_shape e; e_axes := Some axes |}, u. cbn. split; auto. split; auto. split; auto.
Qed.
(* building the history of a list of operations *)
Definition h_op (h : History) (o : op) : option History := match o with Reshape s => h_reshape h s | Transpose a => h_transpose h a end.
Definition history (s : list nat) (ops : list op) : option History := ofold h_op ops (h_new s).
Lemma inv_steps {T} (t : list nat * list T) ops t' : steps t ops t' -> forall h v, inv h v (fst t) (snd t) -> exists h', ofold h_op ops h = Some h' /\ inv h' v (fst t') (snd t').
Proof.
  induction 1 as [t|s w s' ops t Hp Hs IH|s w axes w' ops t HP Ht Hs IH]; intros h v Hi; cbn [ofold h_op fst snd] in *; [eauto| |].
  - destruct (inv_reshape _ _ _ _ s' Hi Hp) as [h' [E Hi']]. rewrite E. cbn [obind]. apply IH; auto.
  - destruct (inv_transpose _ _ _ _ _ _ Hi HP Ht) as [h' [E Hi']]. rewrite E. cbn [obind]. apply IH; auto.
Qed.
Lemma inv_result {T} h (v : list T) s w : inv h v s w -> h_shape h = Some s /\ permute_vec h v = Some w.
Proof.
  intros [pre [e [u [H1 [H2 [H3 [H4 [H5 H6]]]]]]]]. unfold h_shape, permute_vec. rewrite H1, split_last_app. cbn [obind snd]. unfold transposed_shape.
  destruct (e_axes e) as [a|] eqn:Ea.
  - destruct H6 as [HP [-> Ht]]. split; [apply omap_pick; apply perm_bound; auto|].
    assert (Hacts : acts (pre ++ [e]) v w) by (eapply acts_snoc; eauto).
    destruct (all_idx_acts _ _ _ Hacts v None [] eq_refl) as [idx [E Htr]]. rewrite app_nil_r in E. rewrite E. cbn [all_idx obind]. destruct idx as [idx|]; cbn in Htr; subst; auto.
  - destruct H6 as [-> ->]. split; auto. destruct (all_idx_acts _ _ _ H2 v None [e] eq_refl) as [idx [E Htr]]. rewrite E. cbn [all_idx]. rewrite Ea. cbn [obind]. destruct idx as [idx|]; cbn in Htr; subst; auto.
Qed.
Theorem history_spec {T} s (v : list T) ops s' w : length v = prod s -> 0 < prod s -> steps (s, v) ops (s', w) ->
  exists h, history s ops = Some h /\ h_shape h = Some s' /\ permute_vec h v = Some w.
Proof.
  intros Hl Hp Hs. destruct (inv_steps _ _ _ Hs (h_new s) v) as [h [E Hi]]; [apply inv_new; auto|]. exists h. split; auto. apply inv_result. auto.
Qed.
(* every legal list of operations can be carried out on the tensor, in one way only *)
Fixpoint legal (s : list nat) (ops : list op) : Prop :=
  match ops with
  | [] => True
  | Reshape s' :: ops => fold_right Nat.mul 1 s' = fold_right Nat.mul 1 s /\ legal s' ops
  | Transpose axes :: ops => Permutation axes (seq 0 (length s)) /\ legal (pick s axes) ops
  end.
Lemma steps_total {T} ops : forall s (v : list T), length v = prod s -> 0 < prod s -> legal s ops -> exists t, steps (s, v) ops t.
Proof.
  induction ops as [|[s'|axes] ops IH]; intros s v Hl Hp H; cbn [legal] in H.
  - eexists. constructor.
  - destruct H as [H1 H2]. change (prod s' = prod s) in H1. destruct (IH s' v) as [t Ht]; auto; try lia. exists t. constructor; auto.
  - destruct H as [H1 H2]. destruct (entry_idx_spec s axes (prod_pos _ Hp) (perm_bound _ _ H1)) as [idx [Hi _]].
    destruct (idx_transposed s axes idx v (prod_pos _ Hp) H1 Hl Hi) as [w [_ Hw]]. destruct (IH (pick s axes) w) as [t Ht]; auto.
    + destruct Hw as [Hw _]. rewrite Hw, pick_prod; auto.
    + rewrite pick_prod; auto.
    + exists t. econstructor; eauto.
Qed.
Lemma steps_unique {T} (t : list nat * list T) ops t1 : steps t ops t1 -> forall t2, length (snd t) = prod (fst t) -> steps t ops t2 -> t1 = t2.
Proof.
  induction 1 as [t|s v s' ops t Hp Hs IH|s v axes w ops t HP Ht Hs IH]; intros t2 Hl H2; inversion H2; subst; cbn [fst snd] in *; auto.
  - apply IH; cbn; auto. unfold prod in *. lia.
  - assert (w = w0) by (eapply transposed_unique; eauto). subst w0. apply IH; cbn; auto. destruct Ht as [Ht _]. rewrite Ht, pick_prod; auto.
Qed.
Lemma reshape_checked h s : prod s <> h_len h -> h_reshape h s = None.
Proof. intros H. unfold h_reshape. rewrite (proj2 (Nat.eqb_neq _ _) H). auto. Qed.

(* ------------------------------------------------------------ padding *)
Lemma npo2_ge x : x <= next_power_of_two x.
Proof. apply next_power_of_two_spec. Qed.
Lemma npo2_pos x : 0 < next_power_of_two x.
Proof. destruct (next_power_of_two_spec x) as [[k ->] _]. apply Nat.neq_0_lt_0. apply Nat.pow_nonzero. lia. Qed.
Notation np := next_power_of_two.
Lemma mapping_spec s : pos s ->
  let m := shape_padded_mapping s in
  next_size m = prod (map np s) /\ length (mapping m) = prod s /\
  forall i, inside s i -> nth_error (mapping m) (flat s i) = Some (flat (map np s) i).
Proof.
  intros Hp. unfold shape_padded_mapping. rewrite <- fold_left_rev_right, rev_involutive. cbn [next_size mapping].
  induction Hp as [|d s Hd Hp IH].
  - split; [auto|]. split; [auto|]. intros i Hi. inversion Hi; subst. auto.
  - cbn [fold_right]. destruct IH as [H1 [H2 H3]]. unfold spm_step at 1 3 5. cbn [fst snd map]. rewrite !prod_cons, H1. split; [lia|]. split; [rewrite grow_len, H2; auto|].
    intros i Hi. inversion Hi as [|x ? i' ? Hx Hi']; subst. change (flat (d :: s) (x :: i')) with (x * prod s + flat s i').
    change (flat (np d :: map np s) (x :: i')) with (x * prod (map np s) + flat (map np s) i'). rewrite <- H2. erewrite grow_nth; eauto. f_equal. lia.
Qed.
Lemma concat_nth {A} K (rows : list (list A)) : Forall (fun r => length r = K) rows -> forall i j r, nth_error rows i = Some r -> j < K ->
  nth_error (concat rows) (i * K + j) = nth_error r j.
Proof.
  induction 1 as [|r0 rows Hr _ IH]; intros [|i] j r Hi Hj; try discriminate; cbn [nth_error] in Hi.
  - injection Hi as ->. cbn [concat Nat.mul Nat.add]. apply nth_error_app1. lia.
  - cbn [concat]. rewrite nth_error_app2 by (cbn; lia). replace (S i * K + j - length r0) with (i * K + j) by (cbn; lia). apply IH; auto.
Qed.
Lemma concat_len {A} K (rows : list (list A)) : Forall (fun r => length r = K) rows -> length (concat rows) = length rows * K.
Proof. induction 1; cbn; auto. rewrite app_length. lia. Qed.
Lemma padded_repeat {T} n (data : list T) l : 0 < n -> length data = n -> nth_error data (n - 1) = Some l -> padded [n] data (data ++ repeat l (np n - n)).
Proof.
  intros H0 Hl Hn. pose proof (npo2_ge n). split; [rewrite app_length, repeat_length; cbn [map fold_right]; lia|]. intros j Hj. cbn [map] in *. inversion Hj as [|x ? j' ? Hx Hj']; subst. inversion Hj'; subst.
  cbn [flat clamp combine map fst snd fold_right]. rewrite !Nat.mul_1_r, !Nat.add_0_r.
  destruct (Nat.lt_ge_cases x (length data)).
  - rewrite nth_error_app1 by auto. rewrite Nat.min_l by lia. auto.
  - rewrite nth_error_app2 by auto. rewrite Nat.min_r by lia. rewrite Hn. apply nth_error_repeat. lia.
Qed.
Lemma pad1_spec {T} n (data : list T) : 0 < n -> length data = n -> exists w, pad1 n data = Some w /\ padded [n] data w.
Proof.
  intros H0 Hl. unfold pad1. rewrite Hl, Nat.eqb_refl. cbn [guard obind]. destruct (nth_error_Some_ex data (n - 1)) as [l Hn]; [lia|].
  pose proof (padded_repeat n data l H0 Hl Hn) as Hp. destruct (np n - n =? 0) eqn:E.
  - apply Nat.eqb_eq in E. rewrite E in Hp. cbn in Hp. rewrite app_nil_r in Hp. eauto.
  - rewrite Hn. cbn. eauto.
Qed.
Definition chunk {T} (k i : nat) (v : list T) : list T := firstn k (skipn (i * k) v).
Lemma nth_error_firstn {A} (l : list A) k j : j < k -> nth_error (firstn k l) j = nth_error l j.
Proof. revert l j; induction k; intros [|x l] [|j] H; cbn; auto; try lia. apply IHk; lia. Qed.
Lemma nth_error_skipn {A} (l : list A) k j : nth_error (skipn k l) j = nth_error l (k + j).
Proof. revert l; induction k; intros [|x l]; cbn; auto. destruct j; auto. Qed.
Lemma chunk_nth {T} k i j (v : list T) : j < k -> nth_error (chunk k i v) j = nth_error v (i * k + j).
Proof. intros H. unfold chunk. rewrite nth_error_firstn, nth_error_skipn by auto. auto. Qed.
Lemma chunk_len {T} k i n (v : list T) : length v = n * k -> i < n -> length (chunk k i v) = k.
Proof. intros H Hi. unfold chunk. rewrite firstn_length, skipn_length. assert (i * k + k <= n * k) by nia. lia. Qed.
Lemma rows_spec {T} n s (v : list T) rows : 0 < n -> pos s -> length v = n * prod s -> length rows = n ->
  (forall i r, nth_error rows i = Some r -> padded s (chunk (prod s) i v) r) -> exists w, pad_rows n rows = Some w /\ padded (n :: s) v w.
Proof.
  intros H0 Hs Hv Hr Hrow. set (K := prod (map np s)). pose proof (npo2_ge n) as Hge.
  destruct (nth_error_Some_ex rows (n - 1)) as [l Hl]; [lia|].
  assert (HK : Forall (fun r => length r = K) (rows ++ repeat l (np n - n))).
  { apply Forall_app. split.
    - apply Forall_forall. intros r Hin. apply In_nth_error in Hin. destruct Hin as [i Hi]. apply Hrow in Hi. apply Hi.
    - apply Forall_forall. intros r Hin. apply repeat_spec in Hin. subst. apply (Hrow _ _ Hl). }
  assert (Hp : padded (n :: s) v (concat (rows ++ repeat l (np n - n)))).
  { split.
    - rewrite (concat_len K) by auto. rewrite app_length, repeat_length. cbn [map fold_right]. fold (prod (map np s)). fold K. f_equal. lia.
    - intros j Hj. cbn [map] in *. inversion Hj as [|x ? j' ? Hx Hj']; subst. change (flat (np (length rows) :: map np s) (x :: j')) with (x * K + flat (map np s) j').
      change (clamp (length rows :: s) (x :: j')) with (Nat.min x (length rows - 1) :: clamp s j'). change (flat (length rows :: s) (Nat.min x (length rows - 1) :: clamp s j')) with (Nat.min x (length rows - 1) * prod s + flat s (clamp s j')).
      assert (Hc : inside s (clamp s j')).
      { clear -Hs Hj'. revert j' Hj'. induction Hs as [|d s Hd Hs IH]; intros j H; inversion H; subst; constructor; [cbn; lia|]. apply IH; auto. }
      pose proof (flat_lt _ _ Hc) as Hlt. pose proof (flat_lt _ _ Hj') as Hlt2. fold K in Hlt2.
      assert (Hnth : exists r, nth_error (rows ++ repeat l (np (length rows) - length rows)) x = Some r /\ padded s (chunk (prod s) (Nat.min x (length rows - 1)) v) r).
      { destruct (Nat.lt_ge_cases x (length rows)).
        - rewrite nth_error_app1 by auto. destruct (nth_error_Some_ex rows x) as [r Hr]; auto. exists r. rewrite Nat.min_l by lia. auto.
        - rewrite nth_error_app2 by auto. exists l. rewrite nth_error_repeat by lia. rewrite Nat.min_r by lia. auto. }
      destruct Hnth as [r [Hr [_ Hrp]]]. rewrite (concat_nth K _ HK _ _ _ Hr) by auto. rewrite Hrp by auto. apply chunk_nth. auto. }
  unfold pad_rows. destruct (np n - n =? 0) eqn:E.
  - apply Nat.eqb_eq in E. rewrite E in Hp. cbn [repeat] in Hp. rewrite app_nil_r in Hp. eauto.
  - rewrite Hr, Hl. cbn [obind]. eauto.
Qed.
Lemma skipn_skip {A} (l : list A) a b : skipn a (skipn b l) = skipn (b + a) l.
Proof. revert l; induction b; intros [|x l]; cbn; auto. destruct a; auto. Qed.
Lemma chunks_spec {T} k (v : list T) n : forall fuel, 0 < k -> length v = n * k -> n <= fuel -> chunks fuel k v = map (fun i => chunk k i v) (seq 0 n).
Proof.
  revert v. induction n as [|n IH]; intros v fuel Hk Hv Hf.
  - destruct fuel; auto. cbn [chunks]. rewrite (proj2 (Nat.leb_gt _ _)) by (cbn in Hv; lia). auto.
  - destruct fuel; [lia|]. cbn [chunks]. rewrite (proj2 (Nat.leb_le _ _)) by nia. cbn [seq map]. f_equal.
    rewrite IH by (auto; try lia; rewrite skipn_length; nia). rewrite <- seq_shift, map_map. apply map_ext. intros i. unfold chunk. f_equal.
    rewrite skipn_skip. f_equal.
Qed.
Lemma padding_cons3 {T} n m m2 s (data : list T) : padding (n :: m :: m2 :: s) data =
  let* _ := guard (negb (n =? 0) && (length data mod n =? 0)) in
  let* _ := guard (0 <? length data / n) in
  let* rows := omap (padding (m :: m2 :: s)) (chunks (length data) (length data / n) data) in pad_rows n rows.
Proof. reflexivity. Qed.
Theorem padding_spec {T} s : forall v : list T, pos s -> length v = prod s -> exists w, padding s v = Some w /\ padded s v w.
Proof.
  induction s as [|n s IH]; intros v Hp Hv.
  - cbn [padding]. rewrite (proj2 (Nat.eqb_eq _ _)) by (cbn in Hv; auto). cbn. exists v. split; [auto|]. split; [auto|]. intros j Hj. inversion Hj; subst. auto.
  - inversion Hp as [|? ? Hn Hs]; subst. pose proof (pos_prod s Hs) as Hps. rewrite prod_cons in Hv.
    assert (Hrows : forall rows, omap (fun i => padding s (chunk (prod s) i v)) (seq 0 n) = Some rows -> exists w, pad_rows n rows = Some w /\ padded (n :: s) v w).
    { intros rows Hr. apply rows_spec; auto; [rewrite (omap_length _ _ _ Hr), seq_length; auto|]. intros i r Hi.
      apply omap_some in Hr. pose proof (F2nth _ _ _ Hr i) as H0. rewrite Hi in H0. destruct (nth_error (seq 0 n) i) as [i'|] eqn:E; [|contradiction].
      pose proof (nth_error_Some_lt _ _ _ E) as Hlt. rewrite seq_length in Hlt. rewrite nth_error_seq in E by auto. injection E as <-. cbn [Nat.add] in H0.
      destruct (IH (chunk (prod s) i v)) as [w [E1 E2]]; auto; [eapply chunk_len; eauto|]. congruence. }
    assert (Hex : exists rows, omap (fun i => padding s (chunk (prod s) i v)) (seq 0 n) = Some rows).
    { apply omap_total. apply Forall_forall. intros i Hi. apply in_seq in Hi. destruct (IH (chunk (prod s) i v)) as [w [E1 E2]]; auto; [eapply chunk_len; eauto; lia|]. eauto. }
    destruct Hex as [rows Hex]. destruct (Hrows _ Hex) as [w [Hw Hpd]]. destruct s as [|m s].
    + cbn [padding]. apply pad1_spec; auto. cbn in Hv. lia.
    + destruct s as [|m2 s].
      * cbn [padding]. unfold pad2. change (prod [m]) with (m * 1) in *. rewrite Nat.mul_1_r in *. rewrite Hv, Nat.eqb_refl. cbn [guard obind].
        assert (E : omap (fun i => let* l := nth_error (firstn m (skipn (i * m) v)) (m - 1) in Some (firstn m (skipn (i * m) v) ++ repeat l (np m - m))) (seq 0 n) = Some rows).
        { rewrite <- Hex. apply omap_ext. intros i Hi. apply in_seq in Hi. cbn [padding]. fold (chunk m i v). unfold pad1. rewrite (chunk_len m i n v) by (auto; lia). rewrite Nat.eqb_refl. cbn [guard obind].
          inversion Hs; subst. destruct (nth_error_Some_ex (chunk m i v) (m - 1)) as [l Hl]; [rewrite (chunk_len m i n v) by (auto; lia); lia|]. rewrite Hl. cbn [obind].
          destruct (np m - m =? 0) eqn:E0; auto. apply Nat.eqb_eq in E0. rewrite E0. cbn. rewrite app_nil_r. auto. }
        cbn zeta. rewrite E. cbn [obind]. rewrite (proj2 (Nat.ltb_lt _ _) Hn), orb_true_r. cbn [guard obind]. eauto.
      * rewrite padding_cons3. rewrite (proj2 (Nat.eqb_neq n 0)) by lia. rewrite Hv. rewrite (Nat.mul_comm n), Nat.mod_mul by lia. cbn [Nat.eqb negb andb guard obind].
        rewrite Nat.div_mul by lia. rewrite (proj2 (Nat.ltb_lt _ _) Hps). cbn [guard obind].
        rewrite (chunks_spec (prod (m :: m2 :: s)) v n) by (auto; nia). rewrite omap_map. rewrite Hex. cbn [obind]. eauto.
Qed.
Lemma padded_unique {T} s (v w w' : list T) : padded s v w -> padded s v w' -> w = w'.
Proof.
  intros [L1 H1] [L2 H2]. apply list_eq_nth_error. intros k. destruct (Nat.lt_ge_cases k (prod (map np s))) as [Hk|Hk].
  - destruct (flat_onto _ _ Hk) as [j [Hj <-]]. rewrite H1, H2; auto.
  - rewrite !(proj2 (nth_error_None _ _)); auto; unfold prod in *; lia.
Qed.

(* ------------------------------------------------------------ bit orders *)
Lemma bitread_app o1 : forall o2 x y, y < 2 ^ length o1 -> bitread (o1 ++ o2) (x * 2 ^ length o1 + y) = bitread o1 y + bitread o2 x.
Proof.
  induction o1 as [|a o1 IH]; intros o2 x y H; cbn [app bitread length Nat.pow] in *.
  - assert (y = 0) by lia. subst y. rewrite Nat.mul_1_r, Nat.add_0_r. auto.
  - replace (x * (2 * 2 ^ length o1) + y) with (y + 2 * (x * 2 ^ length o1)) by lia. rewrite Nat.odd_add_mul_2.
    rewrite (Nat.mul_comm 2 (x * _)), Nat.div_add by lia. rewrite Nat.add_comm with (n := y / 2). rewrite IH.
    + lia.
    + apply Nat.div_lt_upper_bound; lia.
Qed.
Lemma bitread_seq n : forall k x, x < 2 ^ n -> bitread (seq k n) x = 2 ^ k * x.
Proof.
  induction n as [|n IH]; intros k x H; cbn [seq bitread].
  - cbn in H. lia.
  - rewrite IH; [|cbn [Nat.pow] in H; apply Nat.div_lt_upper_bound; lia]. cbn [Nat.pow]. pose proof (Nat.div_mod x 2). rewrite <- Nat.bit0_mod in H0. rewrite Nat.bit0_odd in H0.
    destruct (Nat.odd x); cbn [Nat.b2n] in H0; nia.
Qed.
Lemma np_bits x : next_power_of_two x = 2 ^ bits_of x.
Proof. unfold bits_of. destruct (next_power_of_two_spec x) as [[k Hk] _]. rewrite Hk. rewrite Nat.log2_pow2 by lia. auto. Qed.
Lemma sums_nth s : forall p k x, nth_error (p :: sums_from p s) k = Some x -> x = p + nsum (firstn k s).
Proof.
  induction s as [|d s IH]; intros p [|k] x H; cbn [sums_from] in H.
  - injection H as <-. cbn. lia.
  - destruct k; discriminate.
  - injection H as <-. cbn. lia.
  - cbn [nth_error] in H. apply IH in H. cbn [firstn nsum fold_right]. unfold nsum in *. lia.
Qed.
Lemma nsum_app a b : nsum (a ++ b) = nsum a + nsum b.
Proof. induction a; cbn [app nsum fold_right]; auto. unfold nsum in *. lia. Qed.
Lemma nsum_rev a : nsum (rev a) = nsum a.
Proof. induction a; cbn [rev]; auto. rewrite nsum_app, IHa. cbn [nsum fold_right]. unfold nsum. lia. Qed.
Lemma pow_nsum l : 2 ^ nsum (map bits_of l) = prod (map next_power_of_two l).
Proof. induction l; cbn [map nsum fold_right]; auto. rewrite prod_cons, Nat.pow_add_r, <- np_bits. fold (nsum (map bits_of l)). rewrite IHl. auto. Qed.
Lemma start_stride sp id k : id < length sp -> nth_error (0 :: sums_from 0 (rev (map bits_of sp))) (length (map bits_of sp) - id - 1) = Some k -> 2 ^ k = stride (map next_power_of_two sp) id.
Proof.
  intros Hi H. apply sums_nth in H. cbn [Nat.add] in H. subst k. rewrite map_length. replace (length sp - id - 1) with (length sp - S id) by lia.
  rewrite firstn_rev, nsum_rev, map_length. replace (length sp - (length sp - S id)) with (S id) by lia. unfold stride. rewrite skipn_map, skipn_map. apply pow_nsum.
Qed.
(* the order read off a list of named dimensions *)
Lemma order_spec sp cur order : Forall (fun x => snd x < length sp /\ fst x = nth (snd x) sp 0) cur ->
  omap (fun x => let* n := nth_error (map bits_of sp) (snd x) in
                 let* _ := guard (snd x <? length (map bits_of sp)) in
                 let* k := nth_error (0 :: sums_from 0 (rev (map bits_of sp))) (length (map bits_of sp) - snd x - 1) in Some (seq k n)) (rev cur) = Some order ->
  2 ^ length (concat order) = prod (map next_power_of_two (map fst cur)) /\
  forall j, inside (map next_power_of_two (map fst cur)) j ->
    bitread (concat order) (flat (map next_power_of_two (map fst cur)) j) = nsum (map (fun p => fst p * stride (map next_power_of_two sp) (snd p)) (combine j (map snd cur))).
Proof.
  intros H. revert order. induction H as [|x cur [Hx Hd] _ IH]; intros order Ho.
  - cbn in Ho. injection Ho as <-. split; auto. intros j Hj. inversion Hj; subst. auto.
  - cbn [rev] in Ho. rewrite omap_app in Ho. apply obind_some in Ho. destruct Ho as [o1 [H1 Ho]]. apply obind_some in Ho. destruct Ho as [o2 [H2 Ho]]. injection Ho as <-.
    destruct (IH _ H1) as [E1 E2]. clear IH. cbn [omap] in H2. apply obind_some in H2. destruct H2 as [s [Hs H2]]. cbn in H2. injection H2 as <-.
    apply obind_some in Hs. destruct Hs as [n [Hn Hs]]. apply obind_some in Hs. destruct Hs as [_ [_ Hs]]. apply obind_some in Hs. destruct Hs as [k [Hk Hs]]. injection Hs as <-.
    rewrite nth_error_map in Hn. destruct (nth_error sp (snd x)) as [d|] eqn:Ed; [|discriminate]. cbn in Hn. injection Hn as <-. rewrite (nth_error_nth _ _ _ Ed) in Hd.
    apply (start_stride sp (snd x) k Hx) in Hk. rewrite concat_app. cbn [concat]. rewrite app_nil_r. cbn [map]. rewrite prod_cons. split.
    + rewrite app_length, seq_length, Nat.pow_add_r, E1, Hd, np_bits. lia.
    + intros j Hj. inversion Hj as [|y ? j' ? Hy Hj']; subst j. rewrite Hd in *. change (flat (next_power_of_two d :: map next_power_of_two (map fst cur)) (y :: j')) with (y * prod (map next_power_of_two (map fst cur)) + flat (map next_power_of_two (map fst cur)) j').
      rewrite <- E1, bitread_app by (rewrite E1; apply flat_lt; auto). rewrite E2 by auto. rewrite bitread_seq by (rewrite <- np_bits; auto). rewrite Hk. cbn [combine map nsum fold_right fst snd]. unfold nsum. lia.
Qed.
(* grouping dimensions *)
Lemma flat_concat sps : forall is, Forall2 inside sps is -> flat (concat sps) (concat is) = flat (map prod sps) (map (fun p => flat (fst p) (snd p)) (combine sps is)) /\ inside (concat sps) (concat is) /\
  inside (map prod sps) (map (fun p => flat (fst p) (snd p)) (combine sps is)).
Proof.
  assert (A : forall a b i j, inside a i -> flat (a ++ b) (i ++ j) = flat a i * prod b + flat b j).
  { intros a b i j H. induction H as [|x d i a Hx H IH]; cbn [app flat]; [lia|]. fold (prod (a ++ b)) (prod a). rewrite IH, prod_app. lia. }
  intros is H. induction H as [|sp i sps is Hi H [IH1 [IH2 IH3]]]; cbn [concat map combine fst snd].
  - split; auto. split; constructor.
  - split; [|split].
    + rewrite A by auto. cbn [flat]. rewrite IH1. f_equal. f_equal. clear. induction sps; cbn [concat map fold_right]; auto. rewrite prod_app, IHsps. auto.
    + apply Forall2_app; auto.
    + constructor; auto. apply flat_lt. auto.
Qed.
Lemma segments_spec shape : forall self cur target seg segs, segments shape self cur target seg = Some segs -> cur = prod (map fst seg) ->
  exists s0 rest, segs = s0 :: rest /\ s0 ++ concat rest = seg ++ shape /\ prod (map fst s0) = target /\ map (fun s => prod (map fst s)) rest = self /\ (cur = target -> s0 = seg).
Proof.
  induction shape as [|x shape IH]; intros self cur target seg segs H Hc; cbn [segments] in H.
  - apply obind_some in H. destruct H as [[] [Hg H]]. injection H as <-. unfold guard in Hg. destruct ((cur =? target) && (length self =? 0)) eqn:E; [|discriminate].
    apply andb_prop in E. destruct E as [E1 E2]. apply Nat.eqb_eq in E1. apply Nat.eqb_eq in E2. destruct self; [|discriminate]. exists seg, []. cbn. rewrite app_nil_r. split; auto. split; auto. split; [change (fold_right Nat.mul 1 (map fst seg)) with (prod (map fst seg)); congruence|]. auto.
  - destruct (cur =? target) eqn:E.
    + apply Nat.eqb_eq in E. destruct self as [|t self]; [discriminate|]. apply obind_some in H. destruct H as [r [H1 H]]. injection H as <-.
      apply IH in H1; [|rewrite prod_cons || cbn; cbn; lia]. destruct H1 as [s0 [rest [-> [E1 [E2 [E3 _]]]]]]. exists seg, (s0 :: rest). split; auto. cbn [concat]. rewrite E1. split; auto. split; [congruence|]. split; [cbn; congruence|auto].
    + apply IH in H; [|rewrite map_app, prod_app, Hc; cbn; lia]. destruct H as [s0 [rest [-> [E1 [E2 [E3 _]]]]]]. exists s0, rest. split; auto. rewrite E1, <- app_assoc. split; auto. split; auto. split; auto.
      intros ->. rewrite Nat.eqb_refl in E. discriminate.
Qed.
Definition named_ok (sp : list nat) (cur : list (nat * nat)) : Prop := Permutation (map snd cur) (seq 0 (length sp)) /\ map fst cur = pick sp (map snd cur).
Lemma map_concat {A B} (f : A -> B) l : map f (concat l) = concat (map (map f) l).
Proof. apply concat_map. Qed.
Lemma concat_perm {A} (segs : list (list A)) axes r : Permutation axes (seq 0 (length segs)) -> omap (nth_error segs) axes = Some r -> Permutation (concat r) (concat segs) /\ r = map (fun a => nth a segs []) axes.
Proof.
  intros HP H. assert (E : r = map (fun a => nth a segs []) axes).
  { apply omap_some in H. clear -H. induction H; cbn; auto. f_equal; auto. symmetry. apply nth_error_nth. auto. }
  split; auto. subst r. assert (E : segs = map (fun a => nth a segs []) (seq 0 (length segs))).
  { apply list_eq_nth_error. intros k. destruct (Nat.lt_ge_cases k (length segs)) as [Hk|Hk].
    - rewrite nth_error_map, nth_error_seq by auto. cbn. apply nth_error_nth'. auto.
    - rewrite !(proj2 (nth_error_None _ _)); auto. rewrite map_length, seq_length; auto. }
  apply Permutation_trans with (concat (map (fun a => nth a segs []) (seq 0 (length segs)))); [|rewrite <- E; auto].
  rewrite <- !flat_map_concat_map. apply Permutation_flat_map. auto.
Qed.
Lemma transpose_shape_step {T} sp cur e a cur' (v0 u u' : list T) : named_ok sp cur -> transposed sp (map snd cur) v0 u -> e_axes e = Some a ->
  Permutation a (seq 0 (length (e_shape e))) -> transposed (e_shape e) a u u' -> transpose_shape e cur = Some cur' -> named_ok sp cur' /\ transposed sp (map snd cur') v0 u'.
Proof.
  intros [N1 N2] [L1 H1] Ea HP [L2 H2] H. unfold transpose_shape in H. rewrite Ea in H.
  apply obind_some in H. destruct H as [segs0 [Hs H]]. apply obind_some in H. destruct H as [r [Hr H]]. injection H as <-.
  apply segments_spec in Hs; [|auto]. destruct Hs as [s0 [segs [-> [E1 [E2 [E3 E4]]]]]]. specialize (E4 eq_refl). subst s0. cbn [app tl] in *.
  assert (Hlen : length segs = length (e_shape e)) by (rewrite <- E3, map_length; auto).
  destruct (concat_perm segs a r) as [P1 P2]; [rewrite Hlen; auto|auto|]. rewrite E1 in P1.
  assert (Hfst : forall x, In x cur -> fst x = nth (snd x) sp 0).
  { clear -N2. unfold pick in N2. rewrite map_map in N2. induction cur; intros x []; cbn in N2; injection N2 as A B; subst; auto. }
  assert (NN : named_ok sp (concat r)).
  { split.
    - apply Permutation_trans with (map snd cur); auto. apply Permutation_map; auto.
    - unfold pick. rewrite map_map. apply map_ext_in. intros x Hx. apply Hfst. eapply Permutation_in; eauto. }
  split; auto. split; [congruence|]. intros i Hi.
  rewrite <- H1 by auto.
  set (dims := fun s : list (nat * nat) => map fst s). set (ix := fun s : list (nat * nat) => pick i (map snd s)).
  assert (Hseg : forall s, In s segs -> inside (dims s) (ix s)).
  { intros s Hin. unfold dims, ix. assert (Hd : map fst s = pick sp (map snd s)).
    { unfold pick. rewrite map_map. apply map_ext_in. intros x Hx. apply Hfst. rewrite <- E1. apply in_concat. eauto. }
    rewrite Hd. apply inside_pick; auto. apply Forall_forall. intros b Hb. apply in_map_iff in Hb. destruct Hb as [x [<- Hx]].
    assert (Hb : In (snd x) (map snd cur)) by (apply in_map; rewrite <- E1; apply in_concat; eauto). eapply Permutation_in in Hb; [|exact N1]. apply in_seq in Hb. lia. }
  assert (G : forall l, incl l segs -> flat (pick sp (map snd (concat l))) (pick i (map snd (concat l))) = flat (map (fun s => prod (dims s)) l) (map (fun s => flat (dims s) (ix s)) l) /\
                        inside (map (fun s => prod (dims s)) l) (map (fun s => flat (dims s) (ix s)) l)).
  { intros l Hl. assert (F : Forall2 inside (map dims l) (map ix l)).
    { clear -Hl Hseg. induction l as [|s l IH]; cbn; constructor; [apply Hseg; apply Hl; left; auto|]. apply IH. intros x Hx. apply Hl. right; auto. }
    destruct (flat_concat _ _ F) as [F1 [_ F3]].
    assert (X1 : concat (map dims l) = pick sp (map snd (concat l))).
    { unfold dims. rewrite <- map_concat. unfold pick. rewrite map_map. apply map_ext_in. intros x Hx. apply Hfst. rewrite <- E1. apply in_concat in Hx. destruct Hx as [s [Hs1 Hs2]]. apply in_concat. eauto. }
    assert (X2 : concat (map ix l) = pick i (map snd (concat l))).
    { unfold ix, pick. rewrite map_map, map_concat. f_equal. apply map_ext. intros s. rewrite map_map. auto. }
    assert (X3 : map (fun p => flat (fst p) (snd p)) (combine (map dims l) (map ix l)) = map (fun s => flat (dims s) (ix s)) l) by (clear; induction l; cbn; congruence).
    rewrite X1, X2, X3, map_map in F1. rewrite X3, map_map in F3. auto. }
  destruct (G segs) as [G1 G2]; [apply incl_refl|]. rewrite E1 in G1. rewrite G1.
  destruct (G r) as [G3 _].
  { intros s Hs. subst r. apply in_map_iff in Hs. destruct Hs as [b [<- Hb]]. apply nth_In. rewrite Hlen. eapply Permutation_in in Hb; [|exact HP]. apply in_seq in Hb. lia. }
  rewrite G3. change (map (fun s => prod (dims s)) segs = e_shape e) in E3. rewrite E3 in *. rewrite <- H2 by exact G2. f_equal.
  assert (Hb : Forall (fun x => x < length segs) a) by (rewrite Hlen; apply perm_bound; auto).
  f_equal.
  - rewrite P2, <- E3. unfold pick. rewrite map_map. apply map_ext_in. intros x Hx. rewrite Forall_forall in Hb. destruct (nth_error_Some_ex segs x (Hb x Hx)) as [s Hs]. rewrite (nth_error_nth _ _ _ Hs). symmetry. apply nth_error_nth. rewrite nth_error_map, Hs. auto.
  - rewrite P2. unfold pick. rewrite map_map. apply map_ext_in. intros x Hx. rewrite Forall_forall in Hb. destruct (nth_error_Some_ex segs x (Hb x Hx)) as [s Hs]. rewrite (nth_error_nth _ _ _ Hs). symmetry. apply nth_error_nth. rewrite nth_error_map, Hs. auto.
Qed.
Lemma acts_named {T} es (v w : list T) : acts es v w -> forall sp cur cur' v0, named_ok sp cur -> transposed sp (map snd cur) v0 v -> ofold (fun cur e => transpose_shape e cur) es cur = Some cur' ->
  named_ok sp cur' /\ transposed sp (map snd cur') v0 w.
Proof.
  induction 1 as [v|e a es v v' w He Hp HP Hl Ht Ha IH]; intros sp cur cur' v0 Hn Htr H; cbn [ofold] in H.
  - injection H as <-. auto.
  - apply obind_some in H. destruct H as [c [Hc H]]. destruct (transpose_shape_step _ _ _ _ _ _ _ _ Hn Htr He HP Ht Hc) as [A B]. eapply IH; eauto.
Qed.
Lemma ofold_app {A B} (f : A -> B -> option A) l1 : forall l2 a, ofold f (l1 ++ l2) a = let* a := ofold f l1 a in ofold f l2 a.
Proof. induction l1; intros; cbn; auto. destruct (f a0 a); cbn; auto. Qed.
Lemma named_start sp : named_ok sp (named sp).
Proof.
  assert (E : forall (s : list nat) k, map snd (combine s (seq k (length s))) = seq k (length s) /\ map fst (combine s (seq k (length s))) = s).
  { induction s; intros k; cbn; auto. destruct (IHs (S k)) as [A B]. rewrite A, B. auto. }
  destruct (E sp 0) as [A B]. unfold named_ok, named. rewrite A, B. split; auto.
  apply list_eq_nth_error. intros k. unfold pick. destruct (Nat.lt_ge_cases k (length sp)) as [Hk|Hk].
  - rewrite nth_error_map, nth_error_seq by auto. cbn. apply nth_error_nth'. auto.
  - rewrite !(proj2 (nth_error_None _ _)); auto. rewrite map_length, seq_length; auto.
Qed.
Lemma inv_named {T} h (v : list T) s w sp cur : inv h v s w -> ofold (fun cur e => transpose_shape e cur) (h_entries h) (named sp) = Some cur -> named_ok sp cur /\ transposed sp (map snd cur) v w.
Proof.
  intros [pre [e [u [H1 [H2 [H3 [H4 [H5 H6]]]]]]]] H. pose proof (named_start sp) as Hn.
  assert (Ht : transposed sp (map snd (named sp)) v v).
  { split; auto. intros i Hi. destruct Hn as [N1 N2]. assert (E : map snd (named sp) = seq 0 (length sp)).
    { unfold named. clear. generalize 0. induction sp; intros k; cbn; auto. rewrite IHsp. auto. }
    rewrite E. assert (X : forall l, length l = length sp -> pick l (seq 0 (length sp)) = l).
    { intros l Hl. rewrite <- Hl. apply list_eq_nth_error. intros k. unfold pick. destruct (Nat.lt_ge_cases k (length l)) as [Hk|Hk].
      - rewrite nth_error_map, nth_error_seq by auto. cbn. symmetry. apply nth_error_nth'. auto.
      - rewrite !(proj2 (nth_error_None _ _)); auto. rewrite map_length, seq_length; auto. }
    rewrite !X; auto. apply inside_len; auto. }
  rewrite H1, ofold_app in H. apply obind_some in H. destruct H as [c [Hc H]]. destruct (acts_named _ _ _ H2 _ _ _ _ Hn Ht Hc) as [A B]. cbn [ofold] in H.
  apply obind_some in H. destruct H as [c' [Hc' H]]. injection H as <-. destruct (e_axes e) as [a|] eqn:Ea.
  - destruct H6 as [HP [-> Hta]]. eapply transpose_shape_step; eauto.
  - destruct H6 as [-> ->]. unfold transpose_shape in Hc'. rewrite Ea in Hc'. injection Hc' as <-. auto.
Qed.
Theorem bit_order_spec {T} s0 ops h (v : list T) s w sp sp' order : steps (s0, v) ops (s, w) -> length v = prod s0 -> 0 < prod s0 -> history s0 ops = Some h ->
  prod sp = prod s0 -> bit_order h sp = Some (sp', order) ->
  exists P Q, padding sp v = Some P /\ padding sp' w = Some Q /\ length Q = length P /\ length P = 2 ^ length order /\ forall n, n < length P -> nth_error Q n = nth_error P (bitread order n).
Proof.
  intros Hst Hl H0 Hh Hsp Hb. destruct (inv_steps _ _ _ Hst (h_new s0) v) as [h' [E Hi]]; [apply inv_new; auto|]. cbn [fst snd] in Hi. unfold history in Hh. rewrite Hh in E. injection E as <-.
  unfold bit_order in Hb. apply obind_some in Hb. destruct Hb as [cur [Hc Hb]]. cbn zeta in Hb. apply obind_some in Hb. destruct Hb as [o [Ho Hb]]. injection Hb as <- <-.
  destruct (inv_named _ _ _ _ _ _ Hi Hc) as [[N1 N2] [T1 T2]].
  assert (Hps : pos sp) by (apply prod_pos; lia). set (ids := map snd cur) in *. pose proof (perm_bound _ _ N1) as Hbd.
  destruct (padding_spec sp v Hps) as [P [HP [P1 P2]]]; [lia|]. exists P.
  assert (Hps' : pos (map fst cur)) by (rewrite N2; apply pos_pick; auto).
  destruct (padding_spec (map fst cur) w Hps') as [Q [HQ [Q1 Q2]]]; [rewrite N2, pick_prod by auto; lia|]. exists Q. split; auto. split; auto.
  assert (Hnp : map next_power_of_two (map fst cur) = pick (map next_power_of_two sp) ids).
  { rewrite N2. unfold pick. rewrite map_map. apply map_ext_in. intros x Hx. rewrite Forall_forall in Hbd. destruct (nth_error_Some_ex sp x (Hbd x Hx)) as [d Hd]. rewrite (nth_error_nth _ _ _ Hd). symmetry. apply nth_error_nth. rewrite nth_error_map, Hd. auto. }
  assert (Hcur : Forall (fun x => snd x < length sp /\ fst x = nth (snd x) sp 0) cur).
  { apply Forall_forall. intros x Hx. split.
    - rewrite Forall_forall in Hbd. apply Hbd. apply in_map. auto.
    - clear -N2 Hx. unfold ids, pick in N2. rewrite map_map in N2. induction cur as [|y cur IH]; destruct Hx; cbn in N2; injection N2 as A B; subst; auto. }
  destruct (order_spec sp cur o Hcur Ho) as [O1 O2].
  assert (Hperm : Permutation ids (seq 0 (length (map next_power_of_two sp)))) by (rewrite map_length; auto).
  change (fold_right Nat.mul 1 (map next_power_of_two sp)) with (prod (map next_power_of_two sp)) in P1.
  change (fold_right Nat.mul 1 (map next_power_of_two (map fst cur))) with (prod (map next_power_of_two (map fst cur))) in Q1.
  assert (Hpp : prod (map next_power_of_two (map fst cur)) = prod (map next_power_of_two sp)) by (rewrite Hnp; apply pick_prod; auto).
  split; [congruence|]. split; [congruence|]. intros n Hn. rewrite P1, <- Hpp in Hn. destruct (flat_onto _ _ Hn) as [j [Hj <-]]. rewrite Q2 by auto. rewrite O2 by auto. fold ids.
  rewrite Hnp in Hj. destruct (pick_onto _ _ Hperm j Hj) as [i [Hi2 <-]]. rewrite perm_sum; auto; [|apply inside_len; auto]. rewrite P2 by auto.
  assert (Hcl : clamp (map fst cur) (pick i ids) = pick (clamp sp i) ids).
  { rewrite N2. pose proof (inside_len _ _ Hi2) as Hil. rewrite map_length in Hil. clear -Hbd Hil. induction Hbd as [|x ids Hx _ IH]; cbn; auto. f_equal; auto.
    destruct (nth_error_Some_ex sp x Hx) as [d Hd]. destruct (nth_error_Some_ex i x) as [y Hy]; [lia|]. rewrite (nth_error_nth _ _ _ Hd), (nth_error_nth _ _ _ Hy). symmetry. apply nth_error_nth.
    unfold clamp. rewrite nth_error_map. assert (Hcomb : nth_error (combine i sp) x = Some (y, d)).
    { clear -Hd Hy. revert i x Hd Hy. induction sp; intros [|b i] [|x] Hd Hy; cbn in *; try discriminate; auto. congruence. }
    rewrite Hcomb. auto. }
  rewrite Hcl, N2. apply T2. clear -Hi2 Hps. revert i Hi2. induction Hps as [|d sp Hd Hp IH]; intros i H; inversion H; subst; constructor; [cbn; lia|]. apply IH; auto.
Qed.
