(* Merging layouts: it never fails on layouts whose sizes are powers of two, and the result holds just what went in. *)
From Verif Require Import Prelude Field Zp Sorting Expr Topo Ir IrInst InputMapping Layered SolveDuplicates LayeredFacts LayeredOpt LayeredOptFacts LayeredExpand Layering LaySem LaySched LayInst LayLayout LayTotA.
Open Scope nat_scope.

(* what a placement holds *)
Definition pc (p : list (option nat)) : list nat := flat_map (fun o => match o with Some x => [x] | None => [] end) p.
Lemma pc_app a b : pc (a ++ b) = pc a ++ pc b.
Proof. apply flat_map_app. Qed.
Lemma pc_none n : pc (repeat None n) = [].
Proof. induction n; auto. Qed.
Lemma pc_some l : pc (map Some l) = l.
Proof. induction l as [|x l IH]; cbn; auto. f_equal. exact IH. Qed.
Lemma pc_in x p : In x (pc p) <-> In (Some x) p.
Proof.
  unfold pc. rewrite in_flat_map. split; [intros [[y|] [H1 H2]]; [destruct H2 as [->|[]]; auto|destruct H2]|]. intros H. exists (Some x). split; auto. left; auto.
Qed.
Lemma fill_pc : forall res add, Permutation (pc (fill res add)) (pc res ++ add).
Proof.
  induction res as [|[y|] res IH]; intros add; cbn [fill]; [cbn [pc flat_map app]; rewrite pc_some; auto| |].
  - cbn [pc flat_map app]. constructor. apply IH.
  - destruct add as [|x add]; [rewrite app_nil_r; auto|]. cbn [pc flat_map app]. fold (pc (fill res add)). fold (pc res). rewrite IH. apply Permutation_middle.
Qed.
Lemma merge_pc : forall a b, length a = length b -> forallb (fun p : option nat * option nat => match p with (Some _, Some _) => false | _ => true end) (combine a b) = true ->
  Permutation (pc (map (fun p : option nat * option nat => match snd p with Some x => Some x | None => fst p end) (combine a b))) (pc a ++ pc b).
Proof.
  induction a as [|x a IH]; intros [|y b] Hl Hf; try discriminate; auto. cbn [combine forallb map fst snd] in *. apply andb_true_iff in Hf. destruct Hf as [H1 H2]. specialize (IH b ltac:(cbn in Hl; lia) H2).
  destruct x as [x|], y as [y|]; try discriminate; cbn [pc flat_map app]; fold (pc a); fold (pc b); change (flat_map (fun o : option nat => match o with Some x => [x] | None => [] end)) with pc.
  - constructor. exact IH.
  - rewrite IH. apply Permutation_middle.
  - exact IH.
Qed.
Lemma skipn_add {A} : forall i k (l : list A), skipn k (skipn i l) = skipn (i + k) l.
Proof. induction i as [|i IH]; intros k [|x l]; cbn; auto. apply skipn_nil. Qed.
Lemma place1_total res pg : length pg <> 0 -> length res mod length pg = 0 -> exists r, place1 res pg = Some r /\ Permutation (pc r) (pc res ++ pc pg) /\ (length r = length res \/ length r = length res + length pg).
Proof.
  intros Hn Hm. unfold place1. rewrite Hm. cbn [Nat.eqb guard obind]. destruct (find_first _ _) as [j|] eqn:Ef.
  - eexists. split; [reflexivity|]. apply find_first_some in Ef. destruct Ef as [[x [H1 H2]] _]. pose proof (nth_error_Some_lt _ _ _ H1) as Hj. rewrite map_length, seq_length in Hj. rewrite nth_error_map, nth_error_seq in H1 by auto. cbn [option_map] in H1. apply Some_inj in H1. cbn in H1. subst x.
    set (i := j * length pg) in *. assert (Hi : i + length pg <= length res). { pose proof (Nat.div_mod (length res) (length pg) Hn). unfold i. nia. }
    unfold overlay. unfold fits in H2. set (seg := firstn (length pg) (skipn i res)) in *. assert (Hs : length seg = length pg) by (unfold seg; rewrite firstn_length, skipn_length; lia).
    assert (Hr : res = firstn i res ++ seg ++ skipn (i + length pg) res).
    { rewrite <- (firstn_skipn i res) at 1. f_equal. rewrite <- (firstn_skipn (length pg) (skipn i res)) at 1. unfold seg. f_equal. apply skipn_add. }
    split.
    + rewrite Hr at 3. rewrite !pc_app. rewrite (merge_pc seg pg Hs H2). rewrite <- !app_assoc. apply Permutation_app_head. apply Permutation_app_head. apply Permutation_app_comm.
    + left. rewrite !app_length, map_length, combine_length, Hs, firstn_length, skipn_length. lia.
  - eexists. split; [reflexivity|]. rewrite pc_app, app_length. split; auto.
Qed.
Lemma pow2_divides a b : pow2b a = true -> pow2b b = true -> a <= b -> b mod a = 0.
Proof.
  rewrite !pow2b_iff. intros [i ->] [j ->] H. apply Nat.pow_le_mono_r_iff in H; [|lia]. replace j with (j - i + i) by lia. rewrite Nat.pow_add_r. apply Nat.mod_mul. apply Nat.pow_nonzero. lia.
Qed.
Lemma pow2_nz a : pow2b a = true -> a <> 0.
Proof. intros H ->. discriminate. Qed.
Theorem merge_total s add : (forall p, In p s -> pow2b (length p) = true) -> exists r, merge_layouts s add = Some r /\ pow2b (length r) = true /\ Permutation (pc r) (concat (map pc s) ++ add).
Proof.
  intros Hp. unfold merge_layouts. rewrite (proj2 (forallb_forall _ _)) by auto. cbn [guard obind]. set (lb := fun a b : nat * list (option nat) => _ || _).
  set (order := isort lb _).
  assert (Hperm : Permutation order (combine (seq 0 (length s)) s)) by apply isort_perm.
  assert (Hs : StronglySorted (fun a b : nat * list (option nat) => length (snd b) <= length (snd a)) order).
  { assert (H : StronglySorted (fun a b => lb a b = true) order).
    { apply isort_sorted; unfold lb; intros.
      - rewrite !orb_true_iff, !andb_true_iff, !Nat.ltb_lt, !Nat.eqb_eq, !Nat.leb_le. lia.
      - rewrite !orb_true_iff, !andb_true_iff, !Nat.ltb_lt, !Nat.eqb_eq, !Nat.leb_le in *. lia. }
    clear -H. induction H as [|x l H IH Hf]; constructor; auto. eapply Forall_impl; [|exact Hf]. intros y. unfold lb. cbn beta. rewrite !orb_true_iff, !andb_true_iff, !Nat.ltb_lt, !Nat.eqb_eq, !Nat.leb_le. lia. }
  assert (Hp' : forall p, In p order -> pow2b (length (snd p)) = true).
  { intros [i p] Hin. apply Hp. eapply Permutation_in in Hin; [|exact Hperm]. apply in_combine_r in Hin. auto. }
  assert (Hc : Permutation (concat (map (fun p => pc (snd p)) order)) (concat (map pc s))).
  { assert (E : concat (map pc s) = concat (map (fun p : nat * list (option nat) => pc (snd p)) (combine (seq 0 (length s)) s))).
    { f_equal. rewrite <- (map_map snd pc). f_equal. generalize 0. clear. induction s as [|p s IH]; intros b; auto. cbn [length seq combine map snd]. f_equal. apply IH. }
    rewrite E, <- !flat_map_concat_map. apply Permutation_flat_map. auto. }
  assert (G : forall o res, StronglySorted (fun a b : nat * list (option nat) => length (snd b) <= length (snd a)) o -> (forall p, In p o -> pow2b (length (snd p)) = true) -> (forall p, In p o -> length res mod length (snd p) = 0) ->
    exists r, ofold (fun r p => place1 r (snd p)) o res = Some r /\ Permutation (pc r) (pc res ++ concat (map (fun p => pc (snd p)) o))).
  { clear. induction o as [|p o IH]; intros res Hs Hp Hm; cbn [ofold map concat]; [exists res; rewrite app_nil_r; auto|].
    inversion Hs as [|? ? Hs1 Hs2]; subst. destruct (place1_total res (snd p)) as [r [R1 [R2 R3]]]; [apply pow2_nz, Hp; left; auto|apply Hm; left; auto|]. rewrite R1. cbn [obind].
    destruct (IH r Hs1) as [r' [Q1 Q2]]; [intros q Hq; apply Hp; right; auto| |].
    - intros q Hq. rewrite Forall_forall in Hs2. pose proof (Hm q (or_intror Hq)) as A. pose proof (pow2_divides (length (snd q)) (length (snd p)) (Hp q (or_intror Hq)) (Hp p (or_introl eq_refl)) (Hs2 q Hq)) as B. pose proof (pow2_nz _ (Hp q (or_intror Hq))) as N.
      destruct R3 as [->| ->]; auto. rewrite Nat.add_mod, A, B by auto. apply Nat.mod_0_l; auto.
    - exists r'. split; auto. rewrite Q2, R2, <- app_assoc. auto. }
  destruct (G order [] Hs Hp') as [r [R1 R2]]; [intros p Hq; apply Nat.mod_0_l, pow2_nz, Hp'; auto|]. rewrite R1. cbn [obind]. eexists. split; [reflexivity|]. destruct (next_power_of_two_spec (length (fill r add))) as [[k Hk] [Hle _]]. split.
  - rewrite app_length, repeat_length. replace (length (fill r add) + _) with (next_power_of_two (length (fill r add))) by lia. apply pow2b_iff. eauto.
  - rewrite pc_app, pc_none, app_nil_r, fill_pc, R2. cbn [pc flat_map app]. rewrite Hc. auto.
Qed.
