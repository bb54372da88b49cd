(* Models of utils/bucket_sort.rs, utils/pool.rs, utils/static_hash_map.rs *)
From Verif Require Import Prelude.

(* ================= bucket_sort.rs ================= *)
Section BucketSort.
  Variable T : Type.
  Variable dflt : T.                                       (* T::default() *)
  Variable f : T -> nat.

  (* cnt[i] += 1, panics out of range *)
  Definition vinc (l : list nat) (i : nat) : option (list nat) := let* c := nth_error l i in vset l i (S c).
  (* bucket_sort.rs:9-11 *)
  Fixpoint bs_count (arr : list T) (cnt : list nat) : option (list nat) :=
    match arr with [] => Some cnt | x :: arr => let* cnt := vinc cnt (f x) in bs_count arr cnt end.
  (* bucket_sort.rs:12-14, for i in 1..m: running sums, [prev] is cnt[i-1] *)
  Fixpoint bs_prefix (prev : nat) (cnt : list nat) : list nat :=
    match cnt with [] => [] | c :: cnt => (c + prev) :: bs_prefix (c + prev) cnt end.
  (* bucket_sort.rs:16-20; the argument is arr reversed; cnt[p] -= 1 panics on underflow *)
  Fixpoint bs_place (rarr : list T) (cnt : list nat) (res : list T) : option (list T * list nat) :=
    match rarr with
    | [] => Some (res, cnt)
    | x :: rarr =>
        let* c := nth_error cnt (f x) in
        match c with
        | 0 => None
        | S c => let* res := vset res c x in bs_place rarr (upd cnt (f x) c) res
        end
    end.
  (* bucket_sort.rs:1-22 *)
  Definition bucket_sort (arr : list T) (m : nat) : option (list T * list nat) :=
    let* cnt := bs_count arr (repeat 0 m) in
    bs_place (rev arr) (bs_prefix 0 cnt) (repeat dflt (length arr)).

  (* specification: bucket after bucket, each bucket in the original order *)
  Definition stable_sorted (arr : list T) (m : nat) : list T :=
    flat_map (fun k => filter (fun x => f x =? k) arr) (seq 0 m).

  Definition eqc (l : list T) (k : nat) : nat := length (filter (fun x => f x =? k) l).
  Fixpoint ltc (l : list T) (k : nat) : nat := match k with 0 => 0 | S k => ltc l k + eqc l k end.

  Lemma bs_count_spec arr : forall cnt, Forall (fun x => f x < length cnt) arr ->
    exists cnt', bs_count arr cnt = Some cnt' /\ length cnt' = length cnt /\
      forall k, nth k cnt' 0 = nth k cnt 0 + (if k <? length cnt then eqc arr k else 0).
  Proof.
    induction arr as [|x arr IH]; intros cnt Hf; cbn [bs_count].
    - exists cnt; repeat split; auto. intros k. unfold eqc; cbn [filter length]. destruct (k <? length cnt); lia.
    - inversion Hf as [|? ? Hx Hf2]; subst. unfold vinc.
      destruct (nth_error_Some_ex cnt (f x) Hx) as [c Hc]. rewrite Hc. cbn [obind]. unfold vset.
      destruct (Nat.ltb_spec (f x) (length cnt)); [|lia]. cbn [obind].
      destruct (IH (upd cnt (f x) (S c))) as [cnt' [H1 [H2 H3]]]. { rewrite upd_length; auto. }
      rewrite upd_length in *. exists cnt'; repeat split; auto. intros k. rewrite H3, nth_upd.
      destruct (Nat.ltb_spec (f x) (length cnt)); [|lia]. rewrite andb_true_r.
      unfold eqc. cbn [filter]. destruct (Nat.eqb_spec (f x) k) as [<-|Hne].
      + apply nth_error_nth with (d:=0) in Hc. destruct (Nat.ltb_spec (f x) (length cnt)); cbn [length]; lia.
      + auto.
  Qed.
  Lemma bs_prefix_spec cnt : forall prev k, k < length cnt ->
    nth k (bs_prefix prev cnt) 0 = prev + fold_right plus 0 (firstn (S k) cnt).
  Proof.
    induction cnt as [|c cnt IH]; intros prev [|k] Hk; cbn [length] in *; try lia; cbn [bs_prefix nth].
    - cbn. lia.
    - rewrite IH by lia. cbn [firstn fold_right]. destruct cnt; cbn [firstn fold_right] in *; lia.
  Qed.
  Lemma bs_prefix_length cnt : forall prev, length (bs_prefix prev cnt) = length cnt.
  Proof. induction cnt; intros; cbn; auto. Qed.
  Lemma sum_eqc arr cnt k : k <= length cnt -> (forall i, i < length cnt -> nth i cnt 0 = eqc arr i) ->
    fold_right plus 0 (firstn k cnt) = ltc arr k.
  Proof.
    intros Hk Hc. induction k as [|k IH]; auto.
    destruct (nth_error_Some_ex cnt k) as [c Hck]; [lia|].
    assert (E : firstn (S k) cnt = firstn k cnt ++ [c]).
    { clear -Hck. revert k Hck; induction cnt as [|x t IH]; intros [|i] H; cbn in *; try discriminate.
      inversion H; auto. f_equal. apply IH; auto. }
    rewrite E. cbn [ltc].
    assert (Hs : forall l, fold_right plus 0 (l ++ [c]) = fold_right plus 0 l + c).
    { intros l; induction l as [|y l IHl]; cbn; lia. }
    rewrite Hs, IH by lia. f_equal. apply nth_error_nth with (d:=0) in Hck. rewrite <- Hck. apply Hc; lia.
  Qed.
  Lemma ltc_mono arr a b : a <= b -> ltc arr a <= ltc arr b.
  Proof. induction 1; auto. cbn. lia. Qed.
  Lemma sorted_len arr m : length (stable_sorted arr m) = ltc arr m.
  Proof.
    unfold stable_sorted. induction m as [|m IH]; auto.
    rewrite seq_S, flat_map_app, app_length, IH. cbn. rewrite app_nil_r. auto.
  Qed.
  Lemma sorted_split arr m k : k < m -> stable_sorted arr m =
    stable_sorted arr k ++ filter (fun x => f x =? k) arr ++ flat_map (fun k => filter (fun x => f x =? k) arr) (seq (S k) (m - S k)).
  Proof.
    intros H. unfold stable_sorted. replace m with (k + S (m - S k)) at 1 by lia.
    rewrite seq_app, flat_map_app. f_equal.
  Qed.
  Lemma ltc_total arr m : Forall (fun x => f x < m) arr -> ltc arr m = length arr.
  Proof.
    intros H. induction arr as [|x arr IH].
    - clear. induction m; cbn; auto. rewrite IHm. reflexivity.
    - inversion H as [|? ? Hx H2]; subst. cbn [length]. rewrite <- IH by auto.
      assert (Hg : forall k, ltc (x :: arr) k = ltc arr k + if f x <? k then 1 else 0).
      { induction k as [|k IHk]; auto. cbn [ltc]. rewrite IHk. unfold eqc. cbn [filter].
        destruct (Nat.eqb_spec (f x) k), (Nat.ltb_spec (f x) k), (Nat.ltb_spec (f x) (S k)); cbn [length]; lia. }
      rewrite Hg. destruct (Nat.ltb_spec (f x) m); lia.
  Qed.

  Lemma bs_place_spec arr m : Forall (fun x => f x < m) arr ->
    forall pre sfx cnt res, arr = pre ++ sfx -> length cnt = m -> length res = length arr ->
    (forall k, k < m -> nth k cnt 0 = ltc arr k + eqc pre k) ->
    (forall k j, k < m -> ltc arr k + eqc pre k <= j < ltc arr k + eqc arr k ->
       nth_error res j = nth_error (stable_sorted arr m) j) ->
    exists res' cnt', bs_place (rev pre) cnt res = Some (res', cnt') /\ res' = stable_sorted arr m /\
      length cnt' = m /\ forall k, k < m -> nth k cnt' 0 = ltc arr k.
  Proof.
    intros Hf pre. induction pre as [|x pre IH] using rev_ind; intros sfx cnt res Harr Hc Hr Hcnt Hres.
    - cbn. exists res, cnt. repeat split; auto.
      + apply list_eq_nth_error. intros j.
        destruct (lt_dec j (length arr)) as [Hj|Hj].
        * assert (Hex : exists k, k < m /\ ltc arr k <= j < ltc arr k + eqc arr k).
          { rewrite <- (ltc_total arr m Hf) in Hj. clear -Hj. induction m as [|n IHn]; [cbn in Hj; lia|].
            destruct (lt_dec j (ltc arr n)) as [Hl|Hl].
            - destruct (IHn Hl) as [k [H1 H2]]. exists k; split; auto.
            - exists n. cbn [ltc] in Hj. split; lia. }
          destruct Hex as [k [Hk1 Hk2]]. apply (Hres k); auto. cbn. lia.
        * rewrite !(proj2 (nth_error_None _ _)); auto; [rewrite sorted_len, ltc_total by auto; lia|lia].
      + intros k Hk. rewrite Hcnt by auto. cbn. lia.
    - rewrite rev_app_distr. cbn [rev app bs_place].
      assert (Hx : f x < m). { rewrite Forall_forall in Hf. apply Hf. rewrite Harr. apply in_or_app; left. apply in_or_app; right; left; auto. }
      assert (Hn : nth_error cnt (f x) = Some (S (ltc arr (f x) + eqc pre (f x)))).
      { rewrite (nth_error_nth' cnt 0) by lia. rewrite Hcnt by auto. f_equal.
        unfold eqc. rewrite filter_app, app_length. cbn [filter]. rewrite Nat.eqb_refl. cbn. lia. }
      rewrite Hn. cbn [obind]. set (p := ltc arr (f x) + eqc pre (f x)) in *.
      assert (Hat : nth_error (stable_sorted arr m) p = Some x).
      { rewrite (sorted_split arr m (f x) Hx). rewrite nth_error_app2 by (rewrite sorted_len; unfold p; lia).
        rewrite sorted_len. unfold p. replace (ltc arr (f x) + eqc pre (f x) - ltc arr (f x)) with (eqc pre (f x)) by lia.
        rewrite nth_error_app1.
        - rewrite Harr at 1. rewrite <- app_assoc. rewrite filter_app. rewrite nth_error_app2 by (unfold eqc; lia).
          unfold eqc. rewrite Nat.sub_diag. cbn [app filter]. rewrite Nat.eqb_refl. auto.
        - rewrite Harr. rewrite <- app_assoc, filter_app, app_length. cbn [app filter]. rewrite Nat.eqb_refl. cbn [length]. unfold eqc. lia. }
      assert (Hp : p < length res).
      { rewrite Hr. apply nth_error_Some_lt in Hat. rewrite sorted_len, ltc_total in Hat; auto. }
      unfold vset. destruct (Nat.ltb_spec p (length res)); [|lia]. cbn [obind].
      apply IH with (sfx := x :: sfx).
      + rewrite Harr, <- app_assoc; auto.
      + rewrite upd_length; auto.
      + rewrite upd_length; auto.
      + intros k Hk. rewrite nth_upd. destruct (Nat.ltb_spec (f x) (length cnt)); [|lia]. rewrite andb_true_r.
        destruct (Nat.eqb_spec (f x) k) as [<-|Hne]; auto. rewrite Hcnt by auto. f_equal.
        unfold eqc. rewrite filter_app, app_length. cbn [filter]. destruct (Nat.eqb_spec (f x) k); [congruence|]. cbn. lia.
      + intros k j Hk Hj. rewrite nth_error_upd. destruct (Nat.ltb_spec p (length res)); [|lia]. rewrite andb_true_r.
        destruct (Nat.eqb_spec p j) as [<-|Hne]; auto.
        apply (Hres k); auto. unfold eqc in Hj |- *. rewrite filter_app, app_length. cbn [filter].
        destruct (Nat.eqb_spec (f x) k) as [<-|Hne2]; cbn [length]; try lia.
        unfold p, eqc in Hne. lia.
  Qed.
  Lemma bucket_sort_spec arr m : Forall (fun x => f x < m) arr ->
    exists cnt, bucket_sort arr m = Some (stable_sorted arr m, cnt) /\ length cnt = m /\
      forall k, k < m -> nth k cnt 0 = length (filter (fun x => f x <? k) arr).
  Proof.
    intros Hf. unfold bucket_sort.
    destruct (bs_count_spec arr (repeat 0 m)) as [cnt [H1 [H2 H3]]]. { rewrite repeat_length; auto. }
    rewrite repeat_length in *. rewrite H1. cbn [obind].
    destruct (bs_place_spec arr m Hf arr [] (bs_prefix 0 cnt) (repeat dflt (length arr))) as [res [cnt' [G1 [G2 [G3 G4]]]]].
    - rewrite app_nil_r; auto.
    - rewrite bs_prefix_length; auto.
    - apply repeat_length.
    - intros k Hk. rewrite bs_prefix_spec by lia. rewrite (sum_eqc arr cnt (S k)); try lia. reflexivity.
      intros i Hi. rewrite H3, nth_repeat. destruct (Nat.ltb_spec i m); lia.
    - intros; lia.
    - exists cnt'. rewrite G1, G2. repeat split; auto.
      intros k Hk. rewrite G4 by auto. clear.
      induction k as [|k IH]; cbn [ltc].
      + induction arr; cbn; auto.
      + rewrite IH. clear IH. unfold eqc. induction arr as [|x arr IHa]; auto. cbn [filter].
        destruct (Nat.ltb_spec (f x) k), (Nat.eqb_spec (f x) k), (Nat.ltb_spec (f x) (S k)); cbn [length]; try lia.
  Qed.
  Lemma stable_sorted_perm arr m : Forall (fun x => f x < m) arr -> Permutation (stable_sorted arr m) arr.
  Proof.
    unfold stable_sorted. induction arr as [|x arr IH]; intros H.
    - clear. induction (seq 0 m); cbn; auto.
    - inversion H as [|? ? Hx H2]; subst.
      apply Permutation_trans with (x :: flat_map (fun k => filter (fun x => f x =? k) arr) (seq 0 m)).
      2: { constructor. apply IH; auto. }
      replace (seq 0 m) with (seq 0 (f x) ++ f x :: seq (S (f x)) (m - S (f x))).
      2: { replace m with (f x + S (m - S (f x))) at 2 by lia. rewrite seq_app. reflexivity. }
      rewrite !flat_map_app. cbn [flat_map filter]. rewrite Nat.eqb_refl.
      assert (Hsame : forall s, ~ In (f x) s -> flat_map (fun k => if f x =? k then x :: filter (fun y => f y =? k) arr else filter (fun y => f y =? k) arr) s
                 = flat_map (fun k => filter (fun y => f y =? k) arr) s).
      { induction s as [|k s IHs]; intros Hn; auto. cbn [flat_map]. rewrite IHs by (intros Hin; apply Hn; right; auto).
        destruct (Nat.eqb_spec (f x) k); auto. exfalso; apply Hn; left; auto. }
      rewrite !Hsame by (rewrite in_seq; lia). symmetry. apply Permutation_middle.
  Qed.
End BucketSort.

(* ================= pool.rs ================= *)
Section Pool.
  Variable V : Type.
  Variable eqb : V -> V -> bool.
  Hypothesis eqb_spec : forall a b, eqb a b = true <-> a = b.

  (* pool.rs:3-7: [vec] with the reverse map kept as an association list, newest first *)
  Record Pool := { pvec : list V; pmap : list (V * nat) }.
  Definition pool_new : Pool := {| pvec := []; pmap := [] |}.
  Fixpoint pfind (v : V) (m : list (V * nat)) : option nat :=
    match m with [] => None | (w, i) :: m => if eqb w v then Some i else pfind v m end.
  (* pool.rs:20-28 *)
  Definition pool_add (p : Pool) (v : V) : nat * Pool :=
    match pfind v (pmap p) with
    | Some idx => (idx, p)
    | None => (length (pvec p), {| pvec := pvec p ++ [v]; pmap := (v, length (pvec p)) :: pmap p |})
    end.
  (* pool.rs:30-40 *)
  Definition pool_try_get_idx (p : Pool) (v : V) : option nat := pfind v (pmap p).
  Definition pool_get (p : Pool) (i : nat) : option V := nth_error (pvec p) i.

  Fixpoint pool_run (p : Pool) (vs : list V) : Pool * list nat :=
    match vs with
    | [] => (p, [])
    | v :: vs => let (i, p) := pool_add p v in let (p, is) := pool_run p vs in (p, i :: is)
    end.

  Definition pinv (p : Pool) : Prop :=
    NoDup (pvec p) /\ forall v i, pfind v (pmap p) = Some i <-> nth_error (pvec p) i = Some v.

  Lemma pinv_new : pinv pool_new.
  Proof. split; [constructor|]. intros v [|i]; cbn; split; discriminate. Qed.
  Lemma pool_add_spec p v : pinv p -> let (i, p') := pool_add p v in
    pinv p' /\ pool_get p' i = Some v /\ (forall j w, pool_get p j = Some w -> pool_get p' j = Some w) /\
    (forall w, In w (pvec p') <-> w = v \/ In w (pvec p)).
  Proof.
    intros [Hn Hm]. unfold pool_add. destruct (pfind v (pmap p)) as [i|] eqn:E.
    - apply Hm in E as E2. repeat split; auto; try apply Hm. intros [->|H]; auto. eapply nth_error_In; eauto.
    - assert (Hnot : ~ In v (pvec p)).
      { intros Hin. apply In_nth_error in Hin. destruct Hin as [i Hi]. apply Hm in Hi. congruence. }
      repeat split; cbn [pvec pmap].
      + apply NoDup_app_iff. repeat split; auto. repeat constructor; auto. intros x Hx [<-|[]]. auto.
      + cbn. destruct (eqb v v0) eqn:Ev.
        * intros H; inversion H; subst. apply eqb_spec in Ev; subst.
          rewrite nth_error_app2 by auto. rewrite Nat.sub_diag. auto.
        * intros H. apply Hm in H. apply nth_error_app_l; auto.
      + intros H. cbn. destruct (eqb v v0) eqn:Ev.
        * apply eqb_spec in Ev; subst. f_equal.
          destruct (lt_dec i (length (pvec p))) as [Hl|Hl].
          -- rewrite nth_error_app1 in H by auto. exfalso; apply Hnot. eapply nth_error_In; eauto.
          -- apply nth_error_Some_lt in H. rewrite app_length in H. cbn in H. lia.
        * apply Hm. destruct (lt_dec i (length (pvec p))) as [Hl|Hl].
          -- rewrite nth_error_app1 in H by auto; auto.
          -- rewrite nth_error_app2 in H by lia. destruct (i - length (pvec p)) as [|k]; cbn in H; [|destruct k; discriminate].
             inversion H; subst. assert (eqb v0 v0 = true) by (apply eqb_spec; auto). congruence.
      + unfold pool_get; cbn [pvec]. rewrite nth_error_app2 by auto. rewrite Nat.sub_diag; auto.
      + intros j w H. unfold pool_get in *; cbn [pvec]. apply nth_error_app_l; auto.
      + intros H. apply in_app_or in H. destruct H as [H|[H|[]]]; auto.
      + intros [->|H]; apply in_or_app; [right; left|left]; auto.
  Qed.
  Lemma pool_run_spec vs : forall p, pinv p -> let (p', is) := pool_run p vs in
    pinv p' /\ Forall2 (fun v i => pool_get p' i = Some v) vs is /\
    (forall j w, pool_get p j = Some w -> pool_get p' j = Some w) /\
    (forall w, In w (pvec p') <-> In w vs \/ In w (pvec p)).
  Proof.
    induction vs as [|v vs IH]; intros p Hp; cbn [pool_run].
    - repeat split; auto; try apply Hp. intros [[]|H]; auto.
    - pose proof (pool_add_spec p v Hp) as Ha. destruct (pool_add p v) as [i p1]. destruct Ha as [A1 [A2 [A3 A4]]].
      specialize (IH p1 A1). destruct (pool_run p1 vs) as [p2 is]. destruct IH as [B1 [B2 [B3 B4]]].
      split; [auto|]. split; [constructor; auto|]. split; [auto|].
      intros w. rewrite B4, A4. cbn [In]. intuition.
  Qed.
End Pool.

(* ================= static_hash_map.rs ================= *)
Section StaticHash.
  Local Open Scope N_scope.
  (* static_hash_map.rs:10 *)
  Definition MOD : N := 1000000007.
  (* static_hash_map.rs:29-30 and 53-54: products stay below 2^64 as all factors are below MOD < 2^30 *)
  Definition sh_pos (a b mask x : N) : N :=
    let x := x mod MOD in N.land (((x * a + b) mod MOD * x) mod MOD) mask.
  (* static_hash_map.rs:28-36; None models ok = false *)
  Fixpoint sh_fill (a b mask : N) (s : list N) (i : nat) (v : list nat) : option (list nat) :=
    match s with
    | [] => Some v
    | x :: s =>
        let pos := N.to_nat (sh_pos a b mask x) in
        match nth_error v pos with
        | Some 0%nat => sh_fill a b mask s (S i) (upd v pos (S i))
        | _ => None
        end
    end.
  Record StaticHashMap := { sh_m : N; sh_a : N; sh_b : N; sh_v : list nat }.
  (* one attempt, static_hash_map.rs:24-44 *)
  Definition sh_try (a b m : N) (s : list N) : option StaticHashMap :=
    match sh_fill a b (m - 1) s 0 (repeat 0%nat (N.to_nat m)) with
    | Some v => Some {| sh_m := m - 1; sh_a := a; sh_b := b; sh_v := map pred v |}
    | None => None
    end.
  (* static_hash_map.rs:22-49: the random pairs (a,b) are given as a list of attempts; [k] counts attempts
     at the current size.  None: not returned after these attempts. *)
  Fixpoint sh_loop (attempts : list (N * N)) (k : nat) (m : N) (s : list N) : option StaticHashMap :=
    match attempts with
    | [] => None
    | (a, b) :: attempts =>
        match sh_try a b m s with
        | Some h => Some h
        | None => match k with
                  | 9%nat => sh_loop attempts 0 (if m <? MOD / 250 then m * 2 else m) s
                  | _ => sh_loop attempts (S k) m s
                  end
        end
    end.
  (* static_hash_map.rs:13-21: the initial size; fuel 64 doublings cover every usize *)
  Fixpoint sh_size (fuel : nat) (m n : N) : N :=
    match fuel with O => m | S fuel => if m <? n then sh_size fuel (m * 2) n else m end.
  Definition sh_new (attempts : list (N * N)) (s : list N) : option StaticHashMap :=
    if MOD / 1000 <? N.of_nat (length s) then None              (* panic "too large" *)
    else sh_loop attempts 0 (sh_size 64 1 (N.of_nat (length s) * 2)) s.
  (* static_hash_map.rs:52-56 *)
  Definition sh_get (h : StaticHashMap) (x : N) : option nat :=
    nth_error (sh_v h) (N.to_nat (sh_pos (sh_a h) (sh_b h) (sh_m h) x)).

  Lemma sh_fill_spec a b mask s : forall i v v', sh_fill a b mask s i v = Some v' ->
    (forall p e, nth_error v p = Some (S e) -> nth_error v' p = Some (S e)) /\
    (forall j x, nth_error s j = Some x -> nth_error v' (N.to_nat (sh_pos a b mask x)) = Some (S (i + j))).
  Proof.
    induction s as [|y s IH]; intros i v v' H; cbn [sh_fill] in H.
    - inversion H; subst. split; auto. intros [|j] x Hx; discriminate.
    - destruct (nth_error v (N.to_nat (sh_pos a b mask y))) as [[|]|] eqn:E; try discriminate.
      apply IH in H. destruct H as [H1 H2].
      pose proof (nth_error_Some_lt _ _ _ E) as Hl.
      split.
      + intros p e Hp. apply H1. rewrite nth_error_upd_ne; auto. intros Heq. congruence.
      + intros [|j] x Hx; cbn [nth_error] in Hx.
        * inversion Hx; subst. apply H1. rewrite nth_error_upd_eq by auto. f_equal. f_equal. lia.
        * rewrite (H2 _ _ Hx). f_equal. lia.
  Qed.
  Lemma sh_try_get a b m s h : sh_try a b m s = Some h ->
    forall i x, nth_error s i = Some x -> sh_get h x = Some i.
  Proof.
    unfold sh_try. destruct (sh_fill a b (m - 1) s 0 _) as [v|] eqn:E; [|discriminate].
    intros H i x Hi; inversion H; subst. unfold sh_get. cbn [sh_v sh_a sh_b sh_m].
    destruct (sh_fill_spec _ _ _ _ _ _ _ E) as [_ H2]. specialize (H2 _ _ Hi).
    rewrite (map_nth_error pred _ _ H2). auto.
  Qed.
  Lemma sh_new_get attempts s h : sh_new attempts s = Some h ->
    forall i x, nth_error s i = Some x -> sh_get h x = Some i.
  Proof.
    unfold sh_new. destruct (_ <? _); [discriminate|].
    generalize (sh_size 64 1 (N.of_nat (length s) * 2)). generalize 0%nat at 1.
    induction attempts as [|[a b] at_ IH]; intros k m H; cbn [sh_loop] in H; [discriminate|].
    destruct (sh_try a b m s) eqn:E.
    - inversion H; subst. eapply sh_try_get; eauto.
    - do 10 (destruct k as [|k]; [eapply IH; exact H|]). eapply IH; exact H.
  Qed.
  (* two keys equal modulo MOD can never be placed: the real constructor loops forever on them *)
  Lemma sh_collision attempts s i j x y : i <> j -> nth_error s i = Some x -> nth_error s j = Some y ->
    x mod MOD = y mod MOD -> sh_new attempts s = None.
  Proof.
    intros Hij Hx Hy Hmod. destruct (sh_new attempts s) as [h|] eqn:E; auto.
    pose proof (sh_new_get _ _ _ E _ _ Hx) as H1. pose proof (sh_new_get _ _ _ E _ _ Hy) as H2.
    unfold sh_get, sh_pos in *. cbv zeta in *. rewrite Hmod in H1. congruence.
  Qed.
End StaticHash.
