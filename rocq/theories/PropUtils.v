(* Property theorems for the utilities: C03, C27, C28, C29, C30, C31, C32.  Each theorem is followed by a concrete
   instance meeting its hypotheses. *)
From Verif Require Import Prelude InputMapping Heap UnionFind Topo Containers.
From Coq Require Import Relations.

(* ---------------- C03 ---------------- *)
Theorem C03_topo_dag : forall vs edges, graph_ok vs edges ->
  exists q b, topo_order_and_is_dag vs edges = Some (q, b) /\
    (b = true <-> acyclic edges) /\
    (b = true -> Permutation q vs /\
       forall j v, nth_error q j = Some v -> forall u, edge edges u v -> In u (firstn j q)).
Proof. exact topo_dag_spec. Qed.
Print Assumptions C03_topo_dag.
Example C03_instance : graph_ok [0; 1; 2] [(0, [1; 2]); (2, [1]); (1, [])].
Proof.
  assert (N0 : forall l, (fix nd (l : list nat) := match l with [] => true | x :: t => negb (memb x t) && nd t end) l = true -> NoDup l).
  { induction l as [|x t IH]; [constructor|]. intros H. apply andb_true_iff in H. destruct H as [H1 H2]. constructor; auto.
    intros Hin. apply memb_spec in Hin. rewrite Hin in H1. discriminate. }
  split; [apply N0; reflexivity|]. split; [apply N0; reflexivity|].
  intros u tos [H|[H|[H|[]]]]; inversion H; subst; (split; [cbn; tauto|]; split; [apply N0; reflexivity|intros x; cbn; tauto]).
Qed.
Example C03_run : topo_order_and_is_dag [0; 1; 2] [(0, [1; 2]); (2, [1]); (1, [])] = Some ([0; 2; 1], true)
  /\ topo_order_and_is_dag [0; 1; 2] [(0, [1]); (2, [1]); (1, [2])] = Some ([0], false).
Proof. split; reflexivity. Qed.

Theorem C03_power_of_two : forall x,
  (exists k, next_power_of_two x = 2 ^ k) /\ x <= next_power_of_two x /\
  (forall k, x <= 2 ^ k -> next_power_of_two x <= 2 ^ k).
Proof. exact next_power_of_two_spec. Qed.

(* ---------------- C27 ---------------- *)
(* E stands for the sentinel usize::MAX >> 9; every size in a real run is below it *)
Theorem C27_compose : forall E (T : Type) (d : T) a b ins,
  in_range E a -> in_range E b -> injective E b -> cur_size b = next_size a -> length ins = cur_size a ->
  exists c mid r, compose E a b = Some c /\ compose_in_place E a b = Some c /\ map_inputs E d a ins = Some mid /\
    map_inputs E d b mid = Some r /\ map_inputs E d c ins = Some r.
Proof.
  intros E T d a b ins A1 A2 A3 A4 A5. destruct (compose_spec E d a b ins) as [c [mid [r [H1 [H2 [H3 H4]]]]]]; auto.
  exists c, mid, r. rewrite compose_in_place_eq. auto.
Qed.
Theorem C27_identity : forall E (T : Type) (d : T) ins, length ins <= E ->
  map_inputs E d (im_identity (length ins)) ins = Some ins.
Proof. exact (fun E T => @map_inputs_identity E T). Qed.
(* an input sent to position j arrives there unchanged *)
Theorem C27_delivers : forall E (T : Type) (d : T) m ins r i j, in_range E m -> injective E m ->
  map_inputs E d m ins = Some r -> nth_error (mapping m) i = Some j -> j <> E ->
  nth_error r j = nth_error ins i /\ j < length r.
Proof. exact (fun E T => @map_inputs_delivers E T). Qed.
(* unmapped inputs never reach the circuit: the result does not depend on them *)
Theorem C27_unmapped_irrelevant : forall E (T : Type) (d : T) m ins1 ins2, in_range E m ->
  length ins1 = cur_size m -> length ins2 = cur_size m ->
  (forall i j, nth_error (mapping m) i = Some j -> j <> E -> nth_error ins1 i = nth_error ins2 i) ->
  map_inputs E d m ins1 = map_inputs E d m ins2.
Proof.
  intros E T d m ins1 ins2 Hr H1 H2 Hag.
  destruct (map_inputs_spec E d m ins1 Hr H1) as [r1 [A1 [A2 A3]]].
  destruct (map_inputs_spec E d m ins2 Hr H2) as [r2 [B1 [B2 B3]]].
  rewrite A1, B1. f_equal. apply (nth_ext _ _ d d). congruence.
  intros j Hj. rewrite A3, B3 by congruence. clear -Hag H1 H2. unfold cur_size in *. revert ins1 ins2 d H1 H2 Hag.
  induction (mapping m) as [|t ms IH]; intros [|x1 l1] [|x2 l2] d H1 H2 Hag; cbn in *; try discriminate; auto.
  replace (if (t =? j) && negb (t =? E) then x2 else d) with (if (t =? j) && negb (t =? E) then x1 else d).
  - apply IH; try lia. intros i j' Hi Hj. apply (Hag (S i) j'); auto.
  - destruct (Nat.eqb_spec t E); [rewrite andb_false_r; auto|]. specialize (Hag 0 t eq_refl n). cbn in Hag. inversion Hag; auto.
Qed.
Theorem C27_validate : forall E m, next_size m <= E ->
  (im_validate E m = true <-> in_range E m /\ injective E m /\ (forall j, j < next_size m -> In j (mapping m))).
Proof. exact im_validate_spec. Qed.
Print Assumptions C27_compose.
Print Assumptions C27_validate.
Example C27_instance :
  let a := {| next_size := 2; mapping := [1; 99; 0] |} in let b := {| next_size := 2; mapping := [1; 99] |} in
  im_validate 99 a = true /\ in_range 99 b /\ injective 99 b /\
  compose 99 a b = Some {| next_size := 2; mapping := [99; 99; 1] |} /\
  map_inputs 99 0 a [7; 8; 9] = Some [9; 7] /\ map_inputs 99 0 b [9; 7] = Some [0; 9].
Proof.
  cbn zeta. split; [reflexivity|]. split; [|split; [|repeat split]].
  - split; [cbn; lia|]. cbn. constructor; [right; lia|]. constructor; [left; auto|constructor].
  - intros i j t Hi Hj Ht. destruct i as [|[|i]], j as [|[|j]]; cbn in *; try (destruct i); try (destruct j); cbn in *; congruence.
Qed.

(* ---------------- C28 ---------------- *)
Definition total_preorder (cmp : nat -> nat -> comparison) : Prop :=
  (forall a b, le cmp a b \/ le cmp b a) /\ (forall a b c, le cmp a b -> le cmp b c -> le cmp a c).
(* every history of pushes and pops behaves like a bag from which pop takes a least element *)
Theorem C28_heap : forall cmp, total_preorder cmp -> forall ops,
  exists b, bag_run cmp [] ops (snd (hrun cmp [] ops)) b /\ Permutation (fst (hrun cmp [] ops)) b.
Proof.
  intros cmp [Ht Htr] ops. destruct (hrun_spec cmp Ht Htr ops []) as [b [H1 [H2 _]]].
  - intros k Hk. cbn in Hk. lia.
  - exists b; auto.
Qed.
Print Assumptions C28_heap.
Example C28_instance : total_preorder Nat.compare /\
  snd (hrun Nat.compare [] [HPush 5; HPush 2; HPush 9; HPop; HPush 1; HPop; HPop; HPop; HPop]) =
  [Some 2; Some 1; Some 5; Some 9; None].
Proof.
  split; [|reflexivity]. unfold total_preorder, le, lt.
  assert (H : forall a b, match (b ?= a) with Lt => true | _ => false end = false <-> a <= b).
  { intros a b. destruct (Nat.compare_spec b a); split; intros; try lia; try discriminate; auto. }
  split; intros. rewrite !H. lia. rewrite H in *. lia.
Qed.

(* ---------------- C29 ---------------- *)
Theorem C29_bucket_sort : forall (T : Type) (dflt : T) (key : T -> nat) arr m, Forall (fun x => key x < m) arr ->
  exists res cnt, bucket_sort T dflt key arr m = Some (res, cnt) /\ Permutation res arr /\
    res = flat_map (fun k => filter (fun x => key x =? k) arr) (seq 0 m) /\
    length cnt = m /\ forall k, k < m -> nth k cnt 0 = length (filter (fun x => key x <? k) arr).
Proof.
  intros T dflt key arr m H. destruct (bucket_sort_spec T dflt key arr m H) as [cnt [H1 [H2 H3]]].
  exists (stable_sorted T key arr m), cnt. repeat split; auto. apply stable_sorted_perm; auto.
Qed.
Print Assumptions C29_bucket_sort.
Example C29_instance : bucket_sort (nat * nat) (0, 0) fst [(2, 0); (0, 1); (2, 2); (1, 3); (0, 4)] 3 =
  Some ([(0, 1); (0, 4); (1, 3); (2, 0); (2, 2)], [0; 2; 3]).
Proof. reflexivity. Qed.

(* ---------------- C30 ---------------- *)
Theorem C30_union_find : forall n ops, Forall (op_in_range n) ops ->
  exists par, uf_run (uf_new n) ops = Some par /\
    forall x y, x < n -> y < n -> exists rx px ry py,
      uf_find par x = Some (rx, px) /\ uf_find par y = Some (ry, py) /\ (rx = ry <-> conn ops x y).
Proof. exact uf_correct. Qed.
Print Assumptions C30_union_find.
Example C30_instance : Forall (op_in_range 4) [OUnion 0 1; OFind 3; OUnion 3 2; OUnion 1 2] /\
  uf_run (uf_new 4) [OUnion 0 1; OFind 3; OUnion 3 2; OUnion 1 2] = Some [1; 2; 2; 2].
Proof. split; [repeat constructor|reflexivity]. Qed.

(* ---------------- C31 ---------------- *)
(* interning any list of values: equal indices exactly for equal values, get gives the value back, indices dense *)
Theorem C31_pool : forall (V : Type) (eqb : V -> V -> bool), (forall a b, eqb a b = true <-> a = b) ->
  forall vs, let (p, is) := pool_run V eqb (pool_new V) vs in
    length is = length vs /\
    (forall k v i, nth_error vs k = Some v -> nth_error is k = Some i -> pool_get V p i = Some v) /\
    (forall k l v w i j, nth_error vs k = Some v -> nth_error vs l = Some w ->
       nth_error is k = Some i -> nth_error is l = Some j -> (i = j <-> v = w)) /\
    (forall i, i < length (pvec V p) <-> In i is) /\
    (forall more, let (p', _) := pool_run V eqb p more in forall i v, pool_get V p i = Some v -> pool_get V p' i = Some v).
Proof.
  intros V eqb He vs. pose proof (pool_run_spec V eqb He vs _ (pinv_new V eqb)) as H.
  destruct (pool_run V eqb (pool_new V) vs) as [p is]. destruct H as [[Hnd Hp] [H2 [H3 H4]]].
  assert (Hg : forall k v i, nth_error vs k = Some v -> nth_error is k = Some i -> pool_get V p i = Some v).
  { intros k v i Hk Hi. destruct (Forall2_nth_error _ _ _ H2 _ _ Hk) as [i' [A B]]. congruence. }
  split; [symmetry; apply (Forall2_len _ _ _ H2)|]. split; [auto|]. split; [|split].
  - intros k l v w i j Hk Hl Hi Hj. apply Hg with (i := i) in Hk; auto. apply Hg with (i := j) in Hl; auto.
    split; intros E; subst. congruence.
    unfold pool_get in *. rewrite NoDup_nth_error in Hnd. apply Hnd. eapply nth_error_Some_lt; eauto. congruence.
  - intros i. split; intros Hi.
    + destruct (nth_error_Some_ex _ _ Hi) as [v Hv].
      assert (Hin : In v vs). { apply nth_error_In in Hv as Hv2. apply H4 in Hv2. destruct Hv2 as [?|[]]; auto. }
      apply In_nth_error in Hin. destruct Hin as [k Hk].
      destruct (Forall2_nth_error _ _ _ H2 _ _ Hk) as [i' [A B]].
      assert (i = i'). { rewrite NoDup_nth_error in Hnd. apply Hnd; auto. unfold pool_get in B; congruence. }
      subst. eapply nth_error_In; eauto.
    + apply In_nth_error in Hi. destruct Hi as [k Hk].
      destruct (nth_error_Some_ex vs k) as [v Hv]. { rewrite (Forall2_len _ _ _ H2). eapply nth_error_Some_lt; eauto. }
      specialize (Hg _ _ _ Hv Hk). unfold pool_get in Hg. eapply nth_error_Some_lt; eauto.
  - intros more. pose proof (pool_run_spec V eqb He more p (conj Hnd Hp)) as H.
    destruct (pool_run V eqb p more). tauto.
Qed.
Print Assumptions C31_pool.
Example C31_instance : pool_run nat Nat.eqb (pool_new nat) [5; 7; 5; 9; 7] =
  ({| pvec := [5; 7; 9]; pmap := [(9, 2); (7, 1); (5, 0)] |}, [0; 1; 0; 2; 1]).
Proof. reflexivity. Qed.

(* ---------------- C32 ---------------- *)
(* whatever random pairs the constructor draws, if it returns then get finds every key's position *)
Theorem C32_get : forall attempts s h, sh_new attempts s = Some h ->
  forall i x, nth_error s i = Some x -> sh_get h x = Some i.
Proof. exact sh_new_get. Qed.
(* but distinct keys that agree modulo 10^9+7 make every attempt fail: the constructor then never returns *)
Theorem C32_never_returns_refuted : forall attempts s i j x y,
  i <> j -> nth_error s i = Some x -> nth_error s j = Some y ->
  (x mod 1000000007 = y mod 1000000007)%N -> sh_new attempts s = None.
Proof. exact sh_collision. Qed.
Print Assumptions C32_get.
Example C32_instance : exists h, sh_new [(3, 5); (7, 11); (12345, 678); (999, 77)]%N [10; 20; 31]%N = Some h.
Proof. eexists. vm_compute. reflexivity. Qed.
