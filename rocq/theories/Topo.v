(* Model of expander_compiler/src/utils/misc.rs: powers of two and topological order. *)
From Verif Require Import Prelude.
From Coq Require Import Relations.

(* ---------------- misc.rs:3-20 ---------------- *)
(* the while loops searching for padk; fuel x is enough because 2^x > x *)
Fixpoint pow_loop (fuel padk x : nat) (cont : nat -> nat -> bool) : nat :=
  match fuel with
  | 0 => padk
  | S fuel => if cont (2 ^ padk) x then pow_loop fuel (S padk) x cont else padk
  end.
Definition prev_power_of_two (x : nat) : nat :=
  if x =? 0 then 0 else 2 ^ (pow_loop (S x) 0 x Nat.leb - 1).
Definition next_power_of_two (x : nat) : nat := 2 ^ pow_loop (S x) 0 x Nat.ltb.

Lemma pow_gt n : n < 2 ^ n.
Proof. induction n; cbn; lia. Qed.
Lemma pow_loop_spec cont x : (forall a, cont a x = true -> a <= x) ->
  forall fuel k, x < k + fuel ->
  let r := pow_loop fuel k x cont in k <= r /\ cont (2 ^ r) x = false /\ (forall j, k <= j < r -> cont (2 ^ j) x = true).
Proof.
  intros Hc. induction fuel as [|fuel IH]; intros k Hk; cbn [pow_loop].
  - repeat split; auto; try lia. destruct (cont (2^k) x) eqn:E; auto. apply Hc in E. pose proof (pow_gt k). lia.
  - destruct (cont (2 ^ k) x) eqn:E.
    + destruct (IH (S k) ltac:(lia)) as [H1 [H2 H3]]. repeat split; auto; try lia.
      intros j Hj. destruct (Nat.eq_dec j k); subst; auto. apply H3; lia.
    + repeat split; auto; intros; lia.
Qed.
Lemma next_power_of_two_spec x :
  (exists k, next_power_of_two x = 2 ^ k) /\ x <= next_power_of_two x /\
  (forall k, x <= 2 ^ k -> next_power_of_two x <= 2 ^ k).
Proof.
  unfold next_power_of_two. destruct (pow_loop_spec Nat.ltb x) with (fuel := S x) (k := 0) as [_ [H2 H3]].
  - intros a H. apply Nat.ltb_lt in H; lia.
  - lia.
  - set (r := pow_loop _ _ _ _) in *. apply Nat.ltb_ge in H2. repeat split; eauto.
    intros k Hk. apply Nat.pow_le_mono_r; auto.
    destruct (le_lt_dec r k) as [|Hlt]; auto. specialize (H3 k ltac:(lia)). apply Nat.ltb_lt in H3. lia.
Qed.
Lemma prev_power_of_two_spec x : x <> 0 ->
  (exists k, prev_power_of_two x = 2 ^ k) /\ prev_power_of_two x <= x < 2 * prev_power_of_two x.
Proof.
  intros Hx. unfold prev_power_of_two. destruct (Nat.eqb_spec x 0); [contradiction|].
  destruct (pow_loop_spec Nat.leb x) with (fuel := S x) (k := 0) as [_ [H2 H3]].
  - intros a H. apply Nat.leb_le in H; lia.
  - lia.
  - set (r := pow_loop _ _ _ _) in *. apply Nat.leb_gt in H2.
    assert (Hr : r <> 0). { intros E. rewrite E in H2. cbn in H2. lia. }
    specialize (H3 (r - 1) ltac:(lia)). apply Nat.leb_le in H3.
    repeat split; eauto. replace r with (S (r - 1)) in H2 by lia. cbn [Nat.pow] in H2. lia.
Qed.

(* ---------------- misc.rs:22-62 ---------------- *)
Definition memb (x : nat) (l : list nat) : bool := existsb (Nat.eqb x) l.
Lemma memb_spec x l : memb x l = true <-> In x l.
Proof.
  unfold memb. rewrite existsb_exists. split.
  - intros [y [H1 H2]]. apply Nat.eqb_eq in H2; subst; auto.
  - intros H; exists x; split; auto. apply Nat.eqb_refl.
Qed.

(* HashMap<usize, usize> used as a counter table *)
Definition fupd {A} (f : nat -> A) (k : nat) (v : A) : nat -> A := fun j => if j =? k then v else f j.
(* misc.rs:40: in_deg.entry(to).and_modify(|e| *e += 1) *)
Definition deg_inc (d : nat -> option nat) (to : nat) : nat -> option nat :=
  match d to with Some e => fupd d to (Some (S e)) | None => d end.
(* misc.rs:52-59 inner loop: decrement (checked subtraction), then in_deg[&to] == 0 (panics if missing) *)
Fixpoint topo_inner (tos : list nat) (d : nat -> option nat) (q : list nat)
  : option ((nat -> option nat) * list nat) :=
  match tos with
  | [] => Some (d, q)
  | to :: tos =>
      match d to with
      | None => None
      | Some 0 => None                               (* subtraction underflow *)
      | Some (S e) => topo_inner tos (fupd d to (Some e)) (if e =? 0 then q ++ [to] else q)
      end
  end.
(* misc.rs:48-60 *)
Fixpoint topo_loop (fuel i : nat) (edges : list (nat * list nat)) (d : nat -> option nat) (q : list nat)
  : option (list nat) :=
  match fuel with
  | 0 => None
  | S fuel =>
      match nth_error q i with
      | None => Some q
      | Some from =>
          match lookup from edges with
          | None => topo_loop fuel (S i) edges d q
          | Some tos => let* (d', q') := topo_inner tos d q in topo_loop fuel (S i) edges d' q'
          end
      end
  end.
(* misc.rs:32-62; HashSets are duplicate-free lists in some iteration order *)
Definition topo_order (vs : list nat) (edges : list (nat * list nat)) : option (list nat) :=
  let d0 := fun v => if memb v vs then Some 0 else None in
  let d1 := fold_left deg_inc (flat_map snd edges) d0 in
  let q := filter (fun v => match d1 v with Some 0 => true | _ => false end) vs in
  topo_loop (S (length vs)) 0 edges d1 q.
(* misc.rs:22-29 *)
Definition topo_order_and_is_dag (vs : list nat) (edges : list (nat * list nat)) : option (list nat * bool) :=
  let* q := topo_order vs edges in Some (q, length q =? length vs).

(* ---------------- specification ---------------- *)
Definition edge (edges : list (nat * list nat)) (u v : nat) : Prop :=
  exists tos, lookup u edges = Some tos /\ In v tos.
Definition acyclic (edges : list (nat * list nat)) : Prop :=
  forall v, ~ clos_trans nat (edge edges) v v.
Definition graph_ok (vs : list nat) (edges : list (nat * list nat)) : Prop :=
  NoDup vs /\ NoDup (keys edges) /\
  (forall u tos, In (u, tos) edges -> In u vs /\ NoDup tos /\ incl tos vs).

(* ---------------- proofs ---------------- *)
Section Proofs.
  Variables (vs : list nat) (edges : list (nat * list nat)).
  Hypothesis Hok : graph_ok vs edges.

  Definition has (v : nat) (p : nat * list nat) : bool := memb v (snd p).
  (* number of predecessors of v whose key satisfies f *)
  Definition npred (f : nat -> bool) (v : nat) : nat :=
    length (filter (fun p => f (fst p) && has v p) edges).

  Lemma deg_inc_fold l : forall d v, (forall x, In x l -> d x <> None) ->
    fold_left deg_inc l d v =
    match d v with Some e => Some (e + count_occ Nat.eq_dec l v) | None => None end.
  Proof.
    induction l as [|x l IH]; intros d v Hd; cbn [fold_left count_occ].
    - destruct (d v); auto.
    - assert (Hx : d x <> None) by (apply Hd; left; auto).
      rewrite IH.
      + unfold deg_inc. destruct (d x) as [e|] eqn:Ex; [|congruence]. unfold fupd.
        destruct (Nat.eqb_spec v x) as [->|Hne].
        * rewrite Ex. destruct (Nat.eq_dec x x); [|congruence]. f_equal; lia.
        * destruct (Nat.eq_dec x v); [congruence|]. auto.
      + intros y Hy. unfold deg_inc. destruct (d x); [|congruence]. unfold fupd.
        destruct (y =? x); [discriminate|]. apply Hd; right; auto.
  Qed.
  Lemma count_nodup (l : list nat) v : NoDup l -> count_occ Nat.eq_dec l v = if memb v l then 1 else 0.
  Proof.
    intros Hn. destruct (memb v l) eqn:E.
    - apply memb_spec in E. apply NoDup_count_occ' ; auto.
    - apply count_occ_not_In. intros H. apply memb_spec in H. congruence.
  Qed.
  Lemma count_flat_map v : (forall u tos, In (u, tos) edges -> NoDup tos) ->
    count_occ Nat.eq_dec (flat_map snd edges) v = npred (fun _ => true) v.
  Proof.
    unfold npred. clear Hok. induction edges as [|[u tos] es IH]; intros Hn; auto.
    cbn [flat_map snd filter fst andb]. rewrite count_occ_app, IH by (intros; eapply Hn; right; eauto).
    rewrite count_nodup by (eapply Hn; left; eauto). unfold has. cbn [snd].
    destruct (memb v tos); cbn [length]; auto.
  Qed.

  (* processing one vertex removes it from the predecessor counts *)
  Lemma npred_remove_aux es from (f : nat -> bool) v : NoDup (keys es) -> f from = true ->
    length (filter (fun p => f (fst p) && has v p) es) =
    length (filter (fun p => (f (fst p) && negb (fst p =? from)) && has v p) es)
    + match lookup from es with Some tos => if memb v tos then 1 else 0 | None => 0 end.
  Proof.
    induction es as [|[u tos] es IH]; intros Hn Hf; auto.
    cbn [keys map fst] in Hn. inversion Hn as [|? ? Hnot Hn2]; subst.
    cbn [filter lookup fst]. destruct (Nat.eqb_spec u from) as [->|Hne].
    - rewrite Hf. cbn [andb negb].
      assert (Hsame : filter (fun p => f (fst p) && has v p) es =
                      filter (fun p => (f (fst p) && negb (fst p =? from)) && has v p) es).
      { apply filter_ext_in. intros [a b] Hin. cbn [fst]. destruct (Nat.eqb_spec a from) as [->|]; cbn.
        - exfalso. apply Hnot. apply (in_map fst) in Hin; auto.
        - rewrite andb_true_r; auto. }
      unfold has at 1; cbn [snd]. destruct (memb v tos); cbn [length]; rewrite Hsame; lia.
    - cbn [negb]. rewrite andb_true_r. specialize (IH Hn2 Hf).
      destruct (f u && has v (u, tos)); cbn [length]; lia.
  Qed.
  Lemma npred_remove from f v : f from = true ->
    npred f v = npred (fun u => f u && negb (u =? from)) v +
      match lookup from edges with Some tos => if memb v tos then 1 else 0 | None => 0 end.
  Proof. intros Hf. unfold npred. apply npred_remove_aux; auto. apply Hok. Qed.

  Definition unproc (q : list nat) (i : nat) : nat -> bool := fun u => negb (memb u (firstn i q)).

  (* state between iterations *)
  Definition tinv (i : nat) (d : nat -> option nat) (q : list nat) : Prop :=
    i <= length q /\ NoDup q /\ incl q vs /\
    (forall v, d v = if memb v vs then Some (npred (unproc q i) v) else None) /\
    (forall v, In v vs -> (In v q <-> npred (unproc q i) v = 0)) /\
    (forall j v, nth_error q j = Some v -> forall u, edge edges u v -> In u (firstn j q)).

  Lemma npred_ext f g v : (forall u, f u = g u) -> npred f v = npred g v.
  Proof. intros H. unfold npred. f_equal. apply filter_ext. intros p. rewrite H; auto. Qed.
  Lemma npred_0 f v : npred f v = 0 -> forall u, edge edges u v -> f u = false.
  Proof.
    unfold npred. intros H u [tos [H1 H2]]. destruct (f u) eqn:E; auto.
    assert (Hin : In (u, tos) (filter (fun p => f (fst p) && has v p) edges)).
    { apply filter_In. split. apply lookup_In; auto. cbn. rewrite E. unfold has; cbn. apply memb_spec; auto. }
    destruct (filter _ _); cbn in *; [contradiction|discriminate].
  Qed.
  Lemma npred_pos f v : npred f v <> 0 -> exists u, edge edges u v /\ f u = true.
  Proof.
    unfold npred. intros H. destruct (filter (fun p => f (fst p) && has v p) edges) as [|[u tos] l] eqn:E; [cbn in H; congruence|].
    assert (Hin : In (u, tos) (filter (fun p => f (fst p) && has v p) edges)) by (rewrite E; left; auto).
    apply filter_In in Hin. destruct Hin as [H1 H2]. cbn in H2. apply andb_true_iff in H2. destruct H2 as [H2 H3].
    exists u; split; auto. exists tos; split. apply In_lookup; auto. apply Hok. apply memb_spec; auto.
  Qed.

  (* inner loop: generic description *)
  Lemma topo_inner_spec tos : forall d q, NoDup tos ->
    (forall t, In t tos -> exists e, d t = Some (S e)) ->
    exists d', topo_inner tos d q = Some (d', q ++ filter (fun t => match d t with Some 1 => true | _ => false end) tos)
      /\ forall v, d' v = if memb v tos then option_map pred (d v) else d v.
  Proof.
    induction tos as [|t tos IH]; intros d q Hn Hd; cbn [topo_inner].
    - exists d. cbn. rewrite app_nil_r. auto.
    - inversion Hn as [|? ? Hnot Hn2]; subst.
      destruct (Hd t) as [e He]; [left; auto|]. rewrite He.
      destruct (IH (fupd d t (Some e)) (if e =? 0 then q ++ [t] else q) Hn2) as [d' [H1 H2]].
      { intros x Hx. unfold fupd. destruct (Nat.eqb_spec x t); [subst; contradiction|]. apply Hd; right; auto. }
      exists d'. split.
      + rewrite H1. f_equal. f_equal. cbn [filter]. rewrite He.
        assert (Hf : filter (fun x => match fupd d t (Some e) x with Some 1 => true | _ => false end) tos =
                     filter (fun x => match d x with Some 1 => true | _ => false end) tos).
        { apply filter_ext_in. intros x Hx. unfold fupd. destruct (Nat.eqb_spec x t); subst; auto. contradiction. }
        rewrite Hf. destruct e; cbn [Nat.eqb]; auto. rewrite <- app_assoc; auto.
      + intros v. rewrite H2. unfold fupd. cbn [memb existsb]. fold (memb v tos).
        destruct (Nat.eqb_spec v t) as [->|Hne]; cbn [orb].
        * destruct (memb t tos) eqn:E; [apply memb_spec in E; contradiction|]. rewrite He; auto.
        * auto.
  Qed.

  Lemma firstn_S_nth (q : list nat) i x : nth_error q i = Some x -> firstn (S i) q = firstn i q ++ [x].
  Proof.
    revert i; induction q as [|y q IH]; intros [|i] H; cbn in *; try discriminate.
    - inversion H; auto.
    - f_equal. apply IH; auto.
  Qed.
  Lemma unproc_S q i x u : nth_error q i = Some x -> unproc q (S i) u = unproc q i u && negb (u =? x).
  Proof.
    intros H. unfold unproc. rewrite (firstn_S_nth _ _ _ H).
    unfold memb. rewrite existsb_app. cbn. rewrite orb_false_r, negb_orb. auto.
  Qed.
  Lemma firstn_app_le {A} (q r : list A) i : i <= length q -> firstn i (q ++ r) = firstn i q.
  Proof. intros H. rewrite firstn_app. replace (i - length q) with 0 by lia. cbn. apply app_nil_r. Qed.

  Lemma tinv_step i d q from : tinv i d q -> nth_error q i = Some from ->
    match lookup from edges with
    | None => tinv (S i) d q
    | Some tos => exists d' q', topo_inner tos d q = Some (d', q') /\ tinv (S i) d' q'
    end.
  Proof.
    intros (Hi & Hnd & Hincl & Hd & Hq & Hord) Hfrom.
    pose proof (nth_error_Some_lt _ _ _ Hfrom) as Hlt.
    assert (Hun : unproc q i from = true).
    { unfold unproc. destruct (memb from (firstn i q)) eqn:E; auto. apply memb_spec in E.
      apply In_nth_error in E. destruct E as [j Hj].
      assert (Hji : j < i) by (apply nth_error_Some_lt in Hj; rewrite firstn_length in Hj; lia).
      assert (Hj2 : nth_error q j = Some from).
      { rewrite <- (firstn_skipn i q). rewrite nth_error_app1; auto. rewrite firstn_length; lia. }
      assert (j = i); [|lia]. eapply NoDup_nth_error; eauto. apply nth_error_Some; congruence. congruence. }
    assert (Hrem : forall v, npred (unproc q i) v = npred (unproc q (S i)) v +
       match lookup from edges with Some tos => if memb v tos then 1 else 0 | None => 0 end).
    { intros v. rewrite (npred_remove from _ v Hun). f_equal. apply npred_ext. intros u.
      rewrite (unproc_S _ _ _ _ Hfrom); auto. }
    destruct (lookup from edges) as [tos|] eqn:El.
    2: { repeat split; auto.
         - intros v. rewrite Hd, Hrem. destruct (memb v vs); auto; f_equal; lia.
         - intros Hv. specialize (Hrem v). apply Hq in Hv; auto. lia.
         - intros Hv. apply Hq; auto. specialize (Hrem v). lia. }
    destruct Hok as (Hvs & Hks & Hes). destruct (Hes from tos) as (Hfv & Htn & Hti). { apply lookup_In; auto. }
    destruct (topo_inner_spec tos d q Htn) as [d' [G1 G2]].
    { intros t Ht. rewrite Hd. assert (memb t vs = true) by (apply memb_spec; auto). rewrite H.
      specialize (Hrem t). assert (memb t tos = true) by (apply memb_spec; auto). rewrite H0 in Hrem.
      exists (npred (unproc q (S i)) t). f_equal; lia. }
    eexists; eexists; split; [exact G1|].
    set (new := filter (fun t => match d t with Some 1 => true | _ => false end) tos) in *.
    assert (Hnew : forall t, In t new <-> In t tos /\ npred (unproc q (S i)) t = 0).
    { intros t. unfold new. rewrite filter_In, Hd. split.
      - intros [Ht H]. split; auto. assert (Ht2 : memb t vs = true) by (apply memb_spec; auto). rewrite Ht2 in H.
        rewrite (Hrem t) in H. assert (Ht3 : memb t tos = true) by (apply memb_spec; auto). rewrite Ht3 in H.
        destruct (npred (unproc q (S i)) t) as [|[|]]; cbn in H; try discriminate; auto.
      - intros [Ht H]. split; auto. assert (Ht2 : memb t vs = true) by (apply memb_spec; auto). rewrite Ht2, (Hrem t), H.
        assert (Ht3 : memb t tos = true) by (apply memb_spec; auto). rewrite Ht3. auto. }
    assert (Hdisj : forall t, In t q -> ~ In t new).
    { intros t Ht Hn. apply Hnew in Hn. destruct Hn as [Hn1 Hn2].
      apply Hq in Ht; auto. rewrite (Hrem t) in Ht. assert (Ht3 : memb t tos = true) by (apply memb_spec; auto).
      rewrite Ht3 in Ht. lia. }
    assert (Hunq : forall u, unproc (q ++ new) (S i) u = unproc q (S i) u).
    { intros u. unfold unproc. rewrite firstn_app_le by lia. auto. }
    assert (Hnp : forall v, npred (unproc (q ++ new) (S i)) v = npred (unproc q (S i)) v).
    { intros v. apply npred_ext; auto. }
    repeat split.
    - rewrite app_length; lia.
    - apply NoDup_app_iff. repeat split; auto. apply NoDup_filter; auto.
    - intros t Ht. apply in_app_or in Ht. destruct Ht as [Ht|Ht]; auto. apply Hnew in Ht. apply Hti, Ht.
    - intros v. rewrite G2, Hd, Hnp, (Hrem v). destruct (memb v tos), (memb v vs); cbn; auto; f_equal; lia.
    - intros Hv. rewrite Hnp. apply in_app_or in Hv. destruct Hv as [Hv|Hv].
      + apply Hq in Hv; auto. specialize (Hrem v). lia.
      + apply Hnew in Hv. apply Hv.
    - rewrite Hnp. intros Hv. apply in_or_app. destruct (in_dec Nat.eq_dec v tos) as [Ht|Ht].
      + right. apply Hnew; auto.
      + left. apply Hq; auto. rewrite Hrem. destruct (memb v tos) eqn:E; [apply memb_spec in E; contradiction|]. lia.
    - intros j v Hj u Hu. destruct (lt_dec j (length q)) as [Hjl|Hjl].
      + rewrite nth_error_app1 in Hj by auto. rewrite firstn_app_le by lia. eapply Hord; eauto.
      + assert (Hv : In v new).
        { rewrite nth_error_app2 in Hj by lia. eapply nth_error_In; eauto. }
        apply Hnew in Hv. destruct Hv as [_ Hv]. pose proof (npred_0 _ _ Hv u Hu) as Hf.
        unfold unproc in Hf. apply negb_false_iff, memb_spec in Hf.
        assert (Hj2 : In u (firstn (S i) (q ++ new))) by (rewrite firstn_app_le by lia; auto).
        assert (Hmono : forall (l : list nat) a b x, a <= b -> In x (firstn a l) -> In x (firstn b l)).
        { intros l a b x Hab Hx. replace (firstn a l) with (firstn a (firstn b l)) in Hx by (rewrite firstn_firstn; f_equal; lia).
          rewrite <- (firstn_skipn a (firstn b l)). apply in_or_app; auto. }
        eapply Hmono; [|exact Hj2]. lia.
  Qed.

  Lemma topo_loop_spec fuel : forall i d q, tinv i d q -> length vs < fuel + i ->
    exists q' d', topo_loop fuel i edges d q = Some q' /\ tinv (length q') d' q'.
  Proof.
    induction fuel as [|fuel IH]; intros i d q Ht Hf.
    - exfalso. destruct Ht as (Hi & Hnd & Hincl & _). pose proof (NoDup_incl_length Hnd Hincl). lia.
    - cbn [topo_loop]. destruct (nth_error q i) as [from|] eqn:E.
      + pose proof (tinv_step _ _ _ _ Ht E) as Hs. destruct (lookup from edges) as [tos|].
        * destruct Hs as [d' [q' [H1 H2]]]. rewrite H1. cbn [obind]. apply IH; auto. lia.
        * apply IH; auto. lia.
      + exists q, d. split; auto. apply nth_error_None in E. destruct Ht as (Hi & Ht).
        assert (i = length q) by lia. subst. split; auto.
  Qed.
  Lemma tinv_init : tinv 0 (fold_left deg_inc (flat_map snd edges) (fun v => if memb v vs then Some 0 else None))
     (filter (fun v => match fold_left deg_inc (flat_map snd edges) (fun v => if memb v vs then Some 0 else None) v with
                       Some 0 => true | _ => false end) vs).
  Proof.
    destruct Hok as (Hvs & Hks & Hes).
    assert (Hd : forall v, fold_left deg_inc (flat_map snd edges) (fun v => if memb v vs then Some 0 else None) v =
                 if memb v vs then Some (npred (fun _ => true) v) else None).
    { intros v. rewrite deg_inc_fold.
      - destruct (memb v vs); auto. f_equal. cbn. apply count_flat_map. intros u tos H. apply Hes in H. tauto.
      - intros x Hx. apply in_flat_map in Hx. destruct Hx as [[u tos] [H1 H2]]. destruct (Hes u tos H1) as (_ & _ & Hti).
        assert (Hm : memb x vs = true) by (apply memb_spec; auto). rewrite Hm. discriminate. }
    set (d1 := fold_left _ _ _) in *. clearbody d1.
    assert (Hu : forall q u, unproc q 0 u = true) by (intros; reflexivity).
    assert (Hn : forall q v, npred (unproc q 0) v = npred (fun _ => true) v) by (intros; apply npred_ext; auto).
    repeat split.
    - lia.
    - apply NoDup_filter; auto.
    - intros x Hx. apply filter_In in Hx. tauto.
    - intros v. rewrite Hd, Hn. auto.
    - intros Hv. apply filter_In in Hv. destruct Hv as [_ Hv]. rewrite Hd in Hv.
      destruct (memb v vs); [|discriminate]. rewrite Hn. destruct (npred _ v); auto; discriminate.
    - rewrite Hn. intros Hv. apply filter_In; split; auto. rewrite Hd.
      assert (Hm : memb v vs = true) by (apply memb_spec; auto). rewrite Hm, Hv. auto.
    - intros j v Hj u Hu2. apply nth_error_In, filter_In in Hj. destruct Hj as [_ Hj]. rewrite Hd in Hj.
      destruct (memb v vs); [|discriminate]. destruct (npred (fun _ => true) v) eqn:E; [|discriminate].
      pose proof (npred_0 _ _ E u Hu2). discriminate.
  Qed.

  Lemma topo_order_spec : exists q, topo_order vs edges = Some q /\ NoDup q /\ incl q vs /\
    (forall j v, nth_error q j = Some v -> forall u, edge edges u v -> In u (firstn j q)) /\
    (forall v, In v vs -> ~ In v q -> exists u, edge edges u v /\ ~ In u q).
  Proof.
    destruct (topo_loop_spec (S (length vs)) 0 _ _ tinv_init ltac:(lia)) as [q [d [H1 H2]]].
    exists q. split; auto. destruct H2 as (_ & Hnd & Hincl & _ & Hq & Hord). repeat split; auto.
    intros v Hv Hnq. destruct (npred_pos (unproc q (length q)) v) as [u [H3 H4]].
    - intros E. apply Hnq, Hq; auto.
    - exists u; split; auto. unfold unproc in H4. rewrite firstn_all in H4.
      intros Hin. apply memb_spec in Hin. rewrite Hin in H4. discriminate.
  Qed.

  (* a chain of edges, each element an edge-successor of the next in the list *)
  Inductive chain : list nat -> Prop :=
  | Ch1 v : chain [v]
  | ChS u v l : edge edges u v -> chain (v :: l) -> chain (u :: v :: l).
  Lemma chain_reach l1 : forall u v l, chain (u :: l1 ++ v :: l) -> clos_trans nat (edge edges) u v.
  Proof.
    induction l1 as [|x l1 IH]; intros u v l H; cbn [app] in H; inversion H; subst.
    - apply t_step; auto.
    - apply t_trans with x. apply t_step; auto. eapply IH; eauto.
  Qed.
  Lemma chain_tail l1 l2 : l2 <> [] -> chain (l1 ++ l2) -> chain l2.
  Proof. induction l1 as [|x l1 IH]; intros Hn H; auto. apply IH; auto. cbn in H. inversion H; subst; auto. destruct l1; [cbn in *; subst; congruence|discriminate]. Qed.

  Lemma dup_split (l : list nat) : ~ NoDup l -> exists x l1 l2 l3, l = l1 ++ x :: l2 ++ x :: l3.
  Proof.
    induction l as [|y l IH]; intros H. exfalso; apply H; constructor.
    destruct (in_dec Nat.eq_dec y l) as [Hin|Hnin].
    - apply in_split in Hin. destruct Hin as [l2 [l3 ->]]. exists y, [], l2, l3; auto.
    - destruct IH as [x [l1 [l2 [l3 ->]]]]. intros Hn; apply H; constructor; auto.
      exists x, (y :: l1), l2, l3; auto.
  Qed.
  Lemma backward_cycle (S : nat -> Prop) v0 : S v0 -> (forall v, S v -> In v vs) ->
    (forall v, S v -> exists u, edge edges u v /\ S u) -> exists v, clos_trans nat (edge edges) v v.
  Proof.
    intros H0 Hin Hback.
    assert (Hlong : forall n, exists v l, chain (v :: l) /\ length l = n /\ Forall S (v :: l)).
    { induction n as [|n [v [l [H1 [H2 H3]]]]].
      - exists v0, []. repeat split; auto. constructor.
      - destruct (Hback v (Forall_inv H3)) as [u [Hu Su]].
        exists u, (v :: l). repeat split; [constructor; auto|cbn; auto|constructor; auto]. }
    destruct (Hlong (length vs)) as [v [l [H1 [H2 H3]]]].
    assert (Hnn : ~ NoDup (v :: l)).
    { intros Hn. assert (Hi : incl (v :: l) vs) by (intros x Hx; apply Hin; rewrite Forall_forall in H3; auto).
      pose proof (NoDup_incl_length Hn Hi). cbn in H. lia. }
    apply dup_split in Hnn. destruct Hnn as [x [l1 [l2 [l3 E]]]]. rewrite E in H1.
    apply chain_tail in H1; [|discriminate]. exists x. eapply chain_reach; eauto.
  Qed.

  Lemma order_acyclic q : NoDup q -> (forall u v, edge edges u v -> In v q) ->
    (forall j v, nth_error q j = Some v -> forall u, edge edges u v -> In u (firstn j q)) -> acyclic edges.
  Proof.
    intros Hnd Hall Hord.
    assert (Hlt : forall u v, clos_trans nat (edge edges) u v ->
              forall j, nth_error q j = Some v -> exists i, i < j /\ nth_error q i = Some u).
    { intros u v H; induction H; intros j Hj.
      - specialize (Hord _ _ Hj _ H). apply In_nth_error in Hord. destruct Hord as [i Hi].
        exists i. pose proof (nth_error_Some_lt _ _ _ Hi) as Hl. rewrite firstn_length in Hl. split; [lia|].
        rewrite <- (firstn_skipn j q), nth_error_app1; auto. rewrite firstn_length; lia.
      - destruct (IHclos_trans2 _ Hj) as [i [Hi1 Hi2]]. destruct (IHclos_trans1 _ Hi2) as [k [Hk1 Hk2]].
        exists k; split; auto; lia. }
    intros v Hv. assert (Hin : In v q).
    { clear -Hv Hall. remember v as w in Hv at 1. clear Heqw. induction Hv; eauto. }
    apply In_nth_error in Hin. destruct Hin as [j Hj].
    destruct (Hlt _ _ Hv _ Hj) as [i [Hi1 Hi2]].
    assert (i = j); [|lia]. eapply NoDup_nth_error; eauto. apply nth_error_Some; congruence. congruence.
  Qed.

  Lemma topo_dag_spec : exists q b, topo_order_and_is_dag vs edges = Some (q, b) /\
    (b = true <-> acyclic edges) /\
    (b = true -> Permutation q vs /\
       forall j v, nth_error q j = Some v -> forall u, edge edges u v -> In u (firstn j q)).
  Proof.
    destruct topo_order_spec as [q [H1 [Hnd [Hincl [Hord Hmiss]]]]].
    exists q, (length q =? length vs). unfold topo_order_and_is_dag. rewrite H1. split; auto.
    assert (Hperm : length q = length vs -> Permutation q vs).
    { intros E. apply NoDup_Permutation_bis; auto. lia. }
    repeat split.
    - intros E. apply Nat.eqb_eq in E. apply (order_acyclic q); auto.
      intros u v [tos [H2 H3]]. apply (Permutation_in (l:=vs)). symmetry; auto.
      apply lookup_In in H2. apply Hok in H2. apply H2; auto.
    - intros Ha. apply Nat.eqb_eq.
      assert (Hsub : incl vs q).
      { intros v Hv. destruct (in_dec Nat.eq_dec v q) as [|Hnq]; auto. exfalso.
        destruct (backward_cycle (fun x => In x vs /\ ~ In x q) v) as [w Hw]; auto.
        - intros x [Hx _]; auto.
        - intros x [Hx1 Hx2]. destruct (Hmiss x Hx1 Hx2) as [u [Hu1 Hu2]]. exists u; split; auto. split; auto.
          destruct Hu1 as [tos [Hu3 _]]. apply lookup_In in Hu3. apply Hok in Hu3. tauto.
        - exact (Ha w Hw). }
      pose proof (NoDup_incl_length Hnd Hincl). destruct Hok as [Hvs _]. pose proof (NoDup_incl_length Hvs Hsub). lia.
    - apply Hperm. apply Nat.eqb_eq; auto.
    - auto.
  Qed.
End Proofs.
