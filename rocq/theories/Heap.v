(* Model of expander_compiler/src/utils/heap.rs: binary min-heap in a Vec<usize> with a comparator. *)
From Verif Require Import Prelude.

Section Heap.
  Variable cmp : nat -> nat -> comparison.
  (* cmp(a,b) == Ordering::Less *)
  Definition lt (a b : nat) : bool := match cmp a b with Lt => true | _ => false end.
  (* s[i]; indices are always in range in the code below (proved), so the default is never read *)
  Notation at_ s i := (nth i s 0).
  (* slice::swap *)
  Definition swap (s : list nat) (i j : nat) : list nat := upd (upd s i (at_ s j)) j (at_ s i).

  (* heap.rs:8-16, the while loop of push; fuel = i bounds the iterations since i strictly decreases *)
  Fixpoint sift_up (fuel : nat) (s : list nat) (i : nat) : list nat :=
    match fuel with
    | 0 => s
    | S fuel =>
        if 0 <? i then
          let p := (i - 1) / 2 in
          if lt (at_ s i) (at_ s p) then sift_up fuel (swap s i p) p else s
        else s
    end.
  (* heap.rs:5-17 *)
  Definition push (s : list nat) (x : nat) : list nat :=
    let s := s ++ [x] in sift_up (length s) s (length s - 1).

  (* heap.rs:30-41, the while loop of pop *)
  Fixpoint sift_down (fuel : nat) (s : list nat) (i : nat) : list nat :=
    match fuel with
    | 0 => s
    | S fuel =>
        if 2 * i + 1 <? length s then
          let j := 2 * i + 1 in
          let j := if (j + 1 <? length s) && lt (at_ s (j + 1)) (at_ s j) then j + 1 else j in
          if lt (at_ s j) (at_ s i) then sift_down fuel (swap s i j) j else s
        else s
    end.
  (* heap.rs:19-43 *)
  Definition pop (s : list nat) : option nat * list nat :=
    match s with
    | [] => (None, [])
    | [x] => (Some x, [])
    | x :: _ => let s1 := removelast s in
                let s2 := upd s1 0 (last s 0) in
                (Some x, sift_down (length s2) s2 0)
    end.

  (* ---------------- proofs ---------------- *)
  Definition le (a b : nat) : Prop := lt b a = false.
  Hypothesis le_total : forall a b, le a b \/ le b a.
  Hypothesis le_trans : forall a b c, le a b -> le b c -> le a c.

  Lemma le_refl a : le a a.
  Proof. destruct (le_total a a); auto. Qed.
  Lemma lt_le a b : lt a b = true -> le a b.
  Proof. intros H. destruct (le_total a b); auto. unfold le in *. congruence. Qed.

  Definition heap (s : list nat) : Prop :=
    forall k, 0 < k < length s -> le (at_ s ((k - 1) / 2)) (at_ s k).

  Lemma swap_length s i j : length (swap s i j) = length s.
  Proof. unfold swap. rewrite !upd_length; auto. Qed.
  Lemma swap_at s i j k : i < length s -> j < length s ->
    at_ (swap s i j) k = if k =? j then at_ s i else if k =? i then at_ s j else at_ s k.
  Proof.
    intros Hi Hj. unfold swap. rewrite !nth_upd, !upd_length.
    rewrite (Nat.eqb_sym j k), (Nat.eqb_sym i k).
    destruct (Nat.ltb_spec j (length s)), (Nat.ltb_spec i (length s)); try lia.
    destruct (k =? j), (k =? i); auto.
  Qed.
  Lemma upd_count (s : list nat) i v z : i < length s ->
    count_occ Nat.eq_dec (upd s i v) z + (if Nat.eq_dec (at_ s i) z then 1 else 0) =
    count_occ Nat.eq_dec s z + (if Nat.eq_dec v z then 1 else 0).
  Proof.
    revert i; induction s as [|x s IH]; intros [|i] H; cbn [length] in *; try lia; cbn [upd count_occ nth].
    - destruct (Nat.eq_dec v z), (Nat.eq_dec x z); lia.
    - specialize (IH i ltac:(lia)). destruct (Nat.eq_dec x z); lia.
  Qed.
  Lemma swap_perm s i j : i < length s -> j < length s -> Permutation (swap s i j) s.
  Proof.
    intros Hi Hj. apply (Permutation_count_occ Nat.eq_dec). intros z. unfold swap.
    pose proof (upd_count (upd s i (at_ s j)) j (at_ s i) z ltac:(rewrite upd_length; auto)) as H1.
    pose proof (upd_count s i (at_ s j) z Hi) as H2.
    rewrite nth_upd in H1. destruct (Nat.ltb_spec i (length s)); [|lia]. rewrite andb_true_r in H1.
    destruct (Nat.eqb_spec i j).
    - subst. lia.
    - lia.
  Qed.

  Lemma parent_lt i : 0 < i -> (i - 1) / 2 < i.
  Proof. intros H. apply Nat.div_lt_upper_bound; lia. Qed.
  Lemma parent_eq k : 0 < k -> k = 2 * ((k - 1) / 2) + 1 \/ k = 2 * ((k - 1) / 2) + 2.
  Proof. intros H. pose proof (Nat.div_mod (k-1) 2 ltac:(lia)). pose proof (Nat.mod_upper_bound (k-1) 2 ltac:(lia)). lia. Qed.
  Lemma parent_inv k i : k = 2 * i + 1 \/ k = 2 * i + 2 -> (k - 1) / 2 = i.
  Proof.
    intros [->| ->].
    - replace (2 * i + 1 - 1) with (i * 2) by lia. apply Nat.div_mul; lia.
    - replace (2 * i + 2 - 1) with (1 + i * 2) by lia. rewrite Nat.div_add by lia. reflexivity.
  Qed.

  Definition up_inv (s : list nat) (i : nat) : Prop :=
    (forall k, 0 < k < length s -> k <> i -> le (at_ s ((k - 1) / 2)) (at_ s k)) /\
    (forall k, 0 < k < length s -> (k - 1) / 2 = i -> 0 < i -> le (at_ s ((i - 1) / 2)) (at_ s k)).

  Lemma sift_up_spec fuel : forall s i, i < length s -> i <= fuel -> up_inv s i ->
    heap (sift_up fuel s i) /\ Permutation (sift_up fuel s i) s.
  Proof.
    induction fuel as [|fuel IH]; intros s i Hi Hf [H1 H2]; cbn [sift_up].
    - split; auto. intros k Hk. apply H1; auto. lia.
    - destruct (Nat.ltb_spec 0 i) as [Hpos|Hz].
      2: { split; auto. intros k Hk. apply H1; auto. lia. }
      pose proof (parent_lt i Hpos) as Hp. set (p := (i - 1) / 2) in *.
      destruct (lt (at_ s i) (at_ s p)) eqn:El.
      + destruct (IH (swap s i p) p) as [G1 G2].
        * rewrite swap_length; lia.
        * lia.
        * split; rewrite swap_length.
          -- intros k Hk Hkp. rewrite !swap_at by lia.
             destruct (Nat.eqb_spec k p); [contradiction|].
             destruct (Nat.eqb_spec k i) as [->|Hki].
             ++ fold p. rewrite Nat.eqb_refl. apply lt_le; auto.
             ++ destruct (Nat.eqb_spec ((k-1)/2) p) as [Ep|Ep].
                ** (* sibling of i *) apply le_trans with (at_ s p). apply lt_le; auto.
                   rewrite <- Ep. apply H1; auto.
                ** destruct (Nat.eqb_spec ((k-1)/2) i) as [Ei|Ei].
                   --- apply H2; auto.
                   --- apply H1; auto.
          -- intros k Hk Hkp Hp0. pose proof (parent_lt p Hp0) as Hpp.
             rewrite !swap_at by lia.
             assert (HH : le (at_ s ((p-1)/2)) (at_ s p)) by (apply H1; lia).
             destruct (Nat.eqb_spec ((p-1)/2) p); [lia|]. destruct (Nat.eqb_spec ((p-1)/2) i); [lia|].
             destruct (Nat.eqb_spec k p); [pose proof (parent_lt k ltac:(lia)); lia|]. destruct (Nat.eqb_spec k i); auto.
             apply le_trans with (at_ s p); auto. rewrite <- Hkp. apply H1; auto.
        * split; auto. rewrite G2. apply swap_perm; lia.
      + split; auto. intros k Hk. destruct (Nat.eq_dec k i) as [->|Hne]; auto.
  Qed.

  Lemma push_spec s x : heap s -> heap (push s x) /\ Permutation (push s x) (x :: s).
  Proof.
    intros Hh. unfold push.
    assert (Hl : length (s ++ [x]) = S (length s)) by (rewrite app_length; cbn; lia).
    destruct (sift_up_spec (length (s ++ [x])) (s ++ [x]) (length (s ++ [x]) - 1)) as [H1 H2]; try lia.
    - split.
      + intros k Hk Hne. assert (k < length s) by lia.
        pose proof (parent_lt k ltac:(lia)).
        rewrite !app_nth1 by lia. apply Hh; lia.
      + intros k Hk Hp Hpos. pose proof (parent_lt k ltac:(lia)). lia.
    - split; auto. rewrite H2. rewrite Permutation_app_comm. reflexivity.
  Qed.

  Definition down_inv (s : list nat) (i : nat) : Prop :=
    (forall k, 0 < k < length s -> (k - 1) / 2 <> i -> le (at_ s ((k - 1) / 2)) (at_ s k)) /\
    (forall k, 0 < k < length s -> (k - 1) / 2 = i -> 0 < i -> le (at_ s ((i - 1) / 2)) (at_ s k)).

  Lemma sift_down_spec fuel : forall s i, i < length s -> length s <= fuel + i -> down_inv s i ->
    heap (sift_down fuel s i) /\ Permutation (sift_down fuel s i) s.
  Proof.
    induction fuel as [|fuel IH]; intros s i Hi Hf [H1 H2]; cbn [sift_down]; [lia|].
    destruct (Nat.ltb_spec (2 * i + 1) (length s)) as [Hc|Hc].
    2: { split; auto. intros k Hk. apply H1; auto. pose proof (parent_eq k ltac:(lia)). lia. }
    set (j := if (2 * i + 1 + 1 <? length s) && lt (at_ s (2 * i + 1 + 1)) (at_ s (2 * i + 1))
              then 2 * i + 1 + 1 else 2 * i + 1).
    assert (Hj : j < length s /\ (j - 1) / 2 = i /\ i < j /\
                 forall k, 0 < k < length s -> (k - 1) / 2 = i -> le (at_ s j) (at_ s k)).
    { assert (Hcase : j = 2 * i + 1 /\ (2 * i + 2 < length s -> le (at_ s (2*i+1)) (at_ s (2*i+2))) \/
                      j = 2 * i + 2 /\ 2 * i + 2 < length s /\ le (at_ s (2*i+2)) (at_ s (2*i+1))).
      { unfold j. replace (2 * i + 1 + 1) with (2 * i + 2) by lia.
        destruct (Nat.ltb_spec (2*i+2) (length s)); cbn [andb]; [|left; split; auto; lia].
        destruct (lt (at_ s (2*i+2)) (at_ s (2*i+1))) eqn:E; [right|left]; auto using lt_le. }
      repeat split; try lia.
      - destruct Hcase as [[-> _]|[-> _]]; apply parent_inv; auto.
      - intros k Hk Hp. pose proof (parent_eq k ltac:(lia)) as Hk2. rewrite Hp in Hk2.
        destruct Hcase as [[-> Hle]|[-> [_ Hle]]]; destruct Hk2 as [->| ->]; auto using le_refl.
        apply Hle; lia. }
    clearbody j. destruct Hj as [Hj1 [Hj2 [Hj3 Hj4]]].
    destruct (lt (at_ s j) (at_ s i)) eqn:El.
    - destruct (IH (swap s i j) j) as [G1 G2].
      + rewrite swap_length; auto.
      + rewrite swap_length; lia.
      + split; rewrite swap_length.
        * intros k Hk Hkj. rewrite !swap_at by lia.
          destruct (Nat.eqb_spec ((k-1)/2) j); [contradiction|].
          destruct (Nat.eqb_spec ((k-1)/2) i) as [Ei|Ei].
          -- destruct (Nat.eqb_spec k j) as [->|Hne]. apply lt_le; auto.
             destruct (Nat.eqb_spec k i). pose proof (parent_lt k ltac:(lia)); lia. auto.
          -- destruct (Nat.eqb_spec k j) as [->|Hne]; [congruence|].
             destruct (Nat.eqb_spec k i) as [->|Hne2].
             ++ apply H2; auto; lia.
             ++ apply H1; auto.
        * intros k Hk Hkj Hj0. pose proof (parent_lt k ltac:(lia)).
          rewrite !swap_at by lia. rewrite Hj2. rewrite Nat.eqb_refl.
          destruct (Nat.eqb_spec i j); [lia|].
          destruct (Nat.eqb_spec k j); [lia|]. destruct (Nat.eqb_spec k i); [lia|].
          rewrite <- Hkj. apply H1; auto. lia.
      + split; auto. rewrite G2. apply swap_perm; auto.
    - split; auto. intros k Hk. destruct (Nat.eq_dec ((k-1)/2) i) as [E|E]; auto.
      rewrite E. apply le_trans with (at_ s j); auto.
  Qed.

  Lemma heap_min s x : heap (x :: s) -> forall y, In y s -> le x y.
  Proof.
    intros Hh y Hy.
    assert (Hg : forall k, k < length (x :: s) -> le x (at_ (x :: s) k)).
    { intros k. induction k as [k IH] using lt_wf_ind. intros Hk.
      destruct (Nat.eq_dec k 0) as [->|Hne]. apply le_refl.
      pose proof (parent_lt k ltac:(lia)). apply le_trans with (at_ (x :: s) ((k-1)/2)).
      apply IH; lia. apply Hh; lia. }
    apply (In_nth _ _ 0) in Hy. destruct Hy as [k [Hk Hy]].
    specialize (Hg (S k) ltac:(cbn; lia)). cbn [nth] in Hg. congruence.
  Qed.

  Lemma pop_spec s : heap s ->
    match pop s with
    | (None, s') => s = [] /\ s' = []
    | (Some x, s') => heap s' /\ Permutation s (x :: s') /\ (forall y, In y s' -> le x y)
    end.
  Proof.
    intros Hh. destruct s as [|x s]; [cbn; auto|]. destruct s as [|y s].
    { cbn. repeat split; auto. intros k Hk. cbn in Hk; lia. intros y []. }
    set (l := y :: s) in *.
    assert (Hl : l <> []) by discriminate.
    assert (El : x :: l = (x :: removelast l) ++ [last l 0]).
    { rewrite (app_removelast_last 0 Hl) at 1. reflexivity. }
    assert (E1 : removelast (x :: l) = x :: removelast l) by (destruct l; [congruence|reflexivity]).
    assert (E2 : last (x :: l) 0 = last l 0) by (destruct l; [congruence|reflexivity]).
    assert (Epop : pop (x :: l) = (Some x, sift_down (length (last l 0 :: removelast l)) (last l 0 :: removelast l) 0)).
    { unfold pop. unfold l at 1. cbv beta iota. fold l. rewrite E1, E2. reflexivity. }
    rewrite Epop.
    destruct (sift_down_spec (length (last l 0 :: removelast l)) (last l 0 :: removelast l) 0) as [H1 H2].
    - cbn; lia.
    - lia.
    - split; [|intros; lia]. intros k Hk Hp.
      assert (Hlen : length (x :: l) = S (S (length (removelast l)))) by (rewrite El, app_length; cbn; lia).
      assert (Hat : forall m, 0 < m -> m < length (last l 0 :: removelast l) ->
                at_ (last l 0 :: removelast l) m = at_ (x :: l) m).
      { intros m Hm Hm2. rewrite El. rewrite app_nth1 by (cbn in *; lia). destruct m; [lia|reflexivity]. }
      pose proof (parent_lt k ltac:(lia)). cbn [length] in *.
      rewrite !Hat by (cbn [length]; lia). apply Hh. cbn [length] in *; lia.
    - repeat split; auto.
      + rewrite H2. rewrite El at 1. rewrite Permutation_app_comm. cbn. apply perm_swap.
      + intros z Hz. apply (heap_min l x); auto. apply (Permutation_in _ H2) in Hz.
        rewrite (app_removelast_last 0 Hl). apply in_or_app. destruct Hz as [<-|Hz]; [right; left|left]; auto.
  Qed.

  (* histories *)
  Inductive hop := HPush (x : nat) | HPop.
  (* runs a history from a heap vector, returning the popped values *)
  Fixpoint hrun (s : list nat) (ops : list hop) : list nat * list (option nat) :=
    match ops with
    | [] => (s, [])
    | HPush x :: ops => hrun (push s x) ops
    | HPop :: ops => let (r, s') := pop s in let (sf, rs) := hrun s' ops in (sf, r :: rs)
    end.
  (* specification: a bag; pop removes some least element *)
  Inductive bag_run : list nat -> list hop -> list (option nat) -> list nat -> Prop :=
  | BNil b : bag_run b [] [] b
  | BPush b x ops rs b' : bag_run (x :: b) ops rs b' -> bag_run b (HPush x :: ops) rs b'
  | BPopE ops rs b' : bag_run [] ops rs b' -> bag_run [] (HPop :: ops) (None :: rs) b'
  | BPop b x b1 ops rs b' : Permutation b (x :: b1) -> (forall y, In y b1 -> le x y) ->
      bag_run b1 ops rs b' -> bag_run b (HPop :: ops) (Some x :: rs) b'.

  Lemma bag_perm ops : forall b1 b2 rs b', Permutation b1 b2 -> bag_run b1 ops rs b' ->
    exists b'', bag_run b2 ops rs b'' /\ Permutation b' b''.
  Proof.
    induction ops as [|[x|] ops IH]; intros b1 b2 rs b' Hp H; inversion H as [|? ? ? ? ? Hb| |]; subst.
    - exists b2; split; auto; constructor.
    - destruct (IH _ (x :: b2) _ _ (perm_skip _ Hp) Hb) as [b'' [G1 G2]]. exists b''; split; auto. constructor; auto.
    - apply Permutation_nil in Hp; subst. exists b'; split; auto.
    - exists b'; split; auto. econstructor; eauto. rewrite <- Hp; auto.
  Qed.
  Lemma hrun_spec ops : forall s, heap s ->
    exists b, bag_run s ops (snd (hrun s ops)) b /\ Permutation (fst (hrun s ops)) b /\ heap (fst (hrun s ops)).
  Proof.
    induction ops as [|[x|] ops IH]; intros s Hs; cbn [hrun].
    - exists s; split; [constructor|]; auto.
    - destruct (push_spec s x Hs) as [H1 H2]. destruct (IH _ H1) as [b [G1 [G2 G3]]].
      destruct (bag_perm _ _ _ _ _ H2 G1) as [b2 [K1 K2]]. exists b2; repeat split; auto.
      constructor; auto. rewrite G2; auto.
    - pose proof (pop_spec s Hs) as Hp. destruct (pop s) as [[x|] s'].
      + destruct Hp as [H1 [H2 H3]]. destruct (IH _ H1) as [b [G1 [G2 G3]]].
        destruct (hrun s' ops) as [sf rs]. cbn [fst snd] in *. exists b; repeat split; auto.
        econstructor; eauto.
      + destruct Hp as [-> ->]. destruct (IH [] Hs) as [b [G1 [G2 G3]]].
        destruct (hrun [] ops) as [sf rs]. cbn [fst snd] in *. exists b; repeat split; auto. constructor; auto.
  Qed.
End Heap.
