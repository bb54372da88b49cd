(* General list and option helpers used by the models.  Nothing here models /repo by itself. *)
From Coq Require Export List Arith ZArith Lia Bool Permutation.
Export ListNotations.

(* ---------- option monad ---------- *)
Definition obind {A B} (o : option A) (f : A -> option B) : option B :=
  match o with Some a => f a | None => None end.
Notation "'let*' x := o 'in' k" := (obind o (fun x => k))
  (at level 200, x pattern, o at level 100, k at level 200, right associativity).

Lemma obind_some {A B} (o : option A) (f : A -> option B) b :
  obind o f = Some b <-> exists a, o = Some a /\ f a = Some b.
Proof. destruct o; simpl; split; intros H; eauto. destruct H as [x [Hx Hf]]. inversion Hx; subst; auto. discriminate. destruct H as [x [Hx _]]; discriminate. Qed.

(* all-or-nothing map: any failing element makes the whole call fail *)
Fixpoint omap {A B} (f : A -> option B) (l : list A) : option (list B) :=
  match l with
  | [] => Some []
  | x :: t => match f x with None => None | Some y =>
              match omap f t with None => None | Some r => Some (y :: r) end end
  end.

Lemma omap_some {A B} (f : A -> option B) l r :
  omap f l = Some r <-> Forall2 (fun x y => f x = Some y) l r.
Proof.
  revert r; induction l as [|x t IH]; intros r; simpl.
  - split; intros H. inversion H; constructor. inversion H; reflexivity.
  - destruct (f x) as [y|] eqn:E; [destruct (omap f t) as [r'|] eqn:E2|].
    + split; intros H.
      * inversion H; subst. constructor; auto. apply IH; reflexivity.
      * inversion H as [|? ? ? ? Hxy Hr]; subst. apply IH in Hr. inversion Hr. congruence.
    + split; intros H; [discriminate|]. inversion H as [|? ? ? ? Hxy Hr]; subst. apply IH in Hr. discriminate.
    + split; intros H; [discriminate|]. inversion H; subst. congruence.
Qed.

Lemma Forall2_len {A B} (R : A -> B -> Prop) l1 l2 : Forall2 R l1 l2 -> length l1 = length l2.
Proof. induction 1; simpl; auto. Qed.

Lemma omap_length {A B} (f : A -> option B) l r : omap f l = Some r -> length r = length l.
Proof. intros H; apply omap_some in H. symmetry. eapply Forall2_len; eauto. Qed.

Lemma omap_ext {A B} (f g : A -> option B) l : (forall x, In x l -> f x = g x) -> omap f l = omap g l.
Proof.
  induction l as [|x t IH]; intros H; simpl; auto.
  rewrite H by (left; auto). rewrite IH; auto. intros y Hy; apply H; right; auto.
Qed.

Lemma omap_app {A B} (f : A -> option B) l1 l2 :
  omap f (l1 ++ l2) = let* a := omap f l1 in let* b := omap f l2 in Some (a ++ b).
Proof.
  induction l1 as [|x t IH]; simpl.
  - destruct (omap f l2); auto.
  - destruct (f x); auto. rewrite IH. destruct (omap f t); simpl; auto. destruct (omap f l2); simpl; auto.
Qed.

Lemma omap_map {A B C} (f : B -> option C) (g : A -> B) l : omap f (map g l) = omap (fun x => f (g x)) l.
Proof. induction l as [|x t IH]; simpl; auto. rewrite IH; auto. Qed.

(* ---------- vectors ---------- *)
(* v[i] = x; [None] models the out-of-bounds panic *)
Fixpoint upd {A} (l : list A) (i : nat) (v : A) : list A :=
  match l, i with
  | [], _ => []
  | _ :: t, 0 => v :: t
  | x :: t, S i => x :: upd t i v
  end.
Definition vset {A} (l : list A) (i : nat) (v : A) : option (list A) :=
  if i <? length l then Some (upd l i v) else None.

Lemma upd_length {A} (l : list A) i v : length (upd l i v) = length l.
Proof. revert i; induction l as [|x t IH]; intros [|i]; simpl; auto. Qed.
Lemma nth_error_upd_eq {A} (l : list A) i v : i < length l -> nth_error (upd l i v) i = Some v.
Proof. revert i; induction l as [|x t IH]; intros [|i] H; simpl in *; try lia; auto. apply IH; lia. Qed.
Lemma nth_error_upd_ne {A} (l : list A) i j v : i <> j -> nth_error (upd l i v) j = nth_error l j.
Proof. revert i j; induction l as [|x t IH]; intros [|i] [|j] H; simpl; auto; try congruence. Qed.
Lemma nth_error_upd {A} (l : list A) i j v :
  nth_error (upd l i v) j = if (i =? j) && (i <? length l) then Some v else nth_error l j.
Proof.
  destruct (Nat.eqb_spec i j); simpl.
  - subst. destruct (Nat.ltb_spec j (length l)).
    + apply nth_error_upd_eq; auto.
    + assert (length (upd l j v) <= j) by (rewrite upd_length; lia).
      rewrite (proj2 (nth_error_None _ _)) by auto. symmetry; apply nth_error_None; auto.
  - apply nth_error_upd_ne; auto.
Qed.
Lemma nth_upd {A} (l : list A) i j v d :
  nth j (upd l i v) d = if (i =? j) && (i <? length l) then v else nth j l d.
Proof.
  pose proof (nth_error_upd l i j v) as H.
  destruct ((i =? j) && (i <? length l)).
  - apply nth_error_nth with (d:=d) in H; auto.
  - destruct (nth_error l j) eqn:E.
    + apply nth_error_nth with (d:=d) in H, E. congruence.
    + apply nth_error_None in H, E. rewrite !nth_overflow; auto.
Qed.
Lemma upd_out {A} (l : list A) i v : length l <= i -> upd l i v = l.
Proof. revert i; induction l as [|x t IH]; intros [|i] H; simpl in *; auto; try lia. f_equal; apply IH; lia. Qed.
Lemma upd_split {A} (l : list A) i v x : nth_error l i = Some x ->
  l = firstn i l ++ x :: skipn (S i) l /\ upd l i v = firstn i l ++ v :: skipn (S i) l.
Proof.
  revert i; induction l as [|y t IH]; intros [|i] H; simpl in *; try discriminate.
  - inversion H; auto.
  - apply IH in H. destruct H as [H1 H2]. split; f_equal; auto.
Qed.

Lemma list_eq_nth_error {A} (l1 l2 : list A) : (forall i, nth_error l1 i = nth_error l2 i) -> l1 = l2.
Proof.
  revert l2; induction l1 as [|x t IH]; intros [|y t2] H; auto.
  - specialize (H 0); discriminate.
  - specialize (H 0); discriminate.
  - f_equal. specialize (H 0); simpl in H; congruence. apply IH. intros i; apply (H (S i)).
Qed.

(* ---------- association lists with nat keys: the model of HashMap<usize,_> ---------- *)
Fixpoint lookup {A} (k : nat) (m : list (nat * A)) : option A :=
  match m with
  | [] => None
  | (k', v) :: t => if k' =? k then Some v else lookup k t
  end.
Definition keys {A} (m : list (nat * A)) : list nat := map fst m.

Lemma lookup_In {A} k (m : list (nat * A)) v : lookup k m = Some v -> In (k, v) m.
Proof.
  induction m as [|[k' v'] t IH]; simpl; intros H; [discriminate|].
  destruct (Nat.eqb_spec k' k). inversion H; subst; auto. right; auto.
Qed.
Lemma In_lookup {A} k (m : list (nat * A)) v : NoDup (keys m) -> In (k, v) m -> lookup k m = Some v.
Proof.
  induction m as [|[k' v'] t IH]; simpl; intros Hn H; [contradiction|].
  inversion Hn; subst. destruct H as [H|H].
  - inversion H; subst. rewrite Nat.eqb_refl; auto.
  - destruct (Nat.eqb_spec k' k); auto. subst. exfalso. apply H2. apply (in_map fst) in H; auto.
Qed.
Lemma lookup_keys {A} k (m : list (nat * A)) : In k (keys m) <-> exists v, lookup k m = Some v.
Proof.
  induction m as [|[k' v'] t IH]; simpl.
  - split; [contradiction| intros [v Hv]; discriminate].
  - destruct (Nat.eqb_spec k' k); split; intros H; eauto.
    + destruct H; [contradiction|]. apply IH; auto.
    + right; apply IH; auto.
Qed.
Lemma lookup_map {A B} (f : nat -> A -> B) k (m : list (nat * A)) :
  lookup k (map (fun p => (fst p, f (fst p) (snd p))) m) = option_map (f k) (lookup k m).
Proof.
  induction m as [|[k' v'] t IH]; simpl; auto. destruct (Nat.eqb_spec k' k); subst; auto.
Qed.

(* ---------- misc ---------- *)
Lemma Forall2_nth_error {A B} (R : A -> B -> Prop) l1 l2 :
  Forall2 R l1 l2 -> forall i x, nth_error l1 i = Some x -> exists y, nth_error l2 i = Some y /\ R x y.
Proof.
  induction 1; intros [|i] z Hz; simpl in *; try discriminate.
  - inversion Hz; subst; eauto.
  - eauto.
Qed.
Lemma nth_error_app_l {A} (l1 l2 : list A) i x : nth_error l1 i = Some x -> nth_error (l1 ++ l2) i = Some x.
Proof. intros H. rewrite nth_error_app1; auto. apply nth_error_Some. congruence. Qed.
Lemma nth_error_Some_lt {A} (l : list A) i x : nth_error l i = Some x -> i < length l.
Proof. intros H; apply nth_error_Some; congruence. Qed.
Lemma nth_error_Some_ex {A} (l : list A) i : i < length l -> exists x, nth_error l i = Some x.
Proof. intros H. destruct (nth_error l i) eqn:E; eauto. apply nth_error_None in E; lia. Qed.
Lemma nth_error_seq a n i : i < n -> nth_error (seq a n) i = Some (a + i).
Proof.
  revert a i; induction n as [|n IH]; intros a [|i] H; simpl; try lia.
  - f_equal; lia.
  - rewrite IH by lia. f_equal; lia.
Qed.
Lemma nth_error_repeat {A} (x : A) n i : i < n -> nth_error (repeat x n) i = Some x.
Proof. revert i; induction n as [|n IH]; intros [|i] H; simpl; try lia; auto. apply IH; lia. Qed.
Lemma NoDup_app_iff {A} (l1 l2 : list A) :
  NoDup (l1 ++ l2) <-> NoDup l1 /\ NoDup l2 /\ (forall x, In x l1 -> ~ In x l2).
Proof.
  induction l1 as [|x t IH]; simpl.
  - split; [intros H; repeat split; auto; constructor | tauto].
  - rewrite !NoDup_cons_iff, IH, in_app_iff. split.
    + intros [H1 [H2 [H3 H4]]]. repeat split; auto. intros y [Hy|Hy]; subst; auto.
    + intros [[H1 H2] [H3 H4]]. repeat split; auto. intros [H|H]; auto. apply (H4 x); auto.
Qed.
