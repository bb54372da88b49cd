(* A stable sort: the model of slice::sort / sort_by (standard library; specified, not modelled line by line). *)
From Verif Require Import Prelude.
From Coq Require Export Sorted.

Section Sort.
  Context {A : Type} (leb : A -> A -> bool).
  Fixpoint ins (x : A) (l : list A) : list A :=
    match l with [] => [x] | y :: t => if leb x y then x :: y :: t else y :: ins x t end.
  (* stable: equal elements keep their order *)
  Definition isort (l : list A) : list A := fold_right ins [] l.

  Lemma ins_perm x l : Permutation (ins x l) (x :: l).
  Proof. induction l as [|y t IH]; cbn; auto. destruct (leb x y); auto. rewrite IH. constructor. Qed.
  Lemma isort_perm l : Permutation (isort l) l.
  Proof. induction l as [|x t IH]; cbn; auto. rewrite ins_perm; auto. Qed.

  Hypothesis leb_total : forall a b, leb a b = true \/ leb b a = true.
  Hypothesis leb_trans : forall a b c, leb a b = true -> leb b c = true -> leb a c = true.
  Definition sorted := StronglySorted (fun a b => leb a b = true).
  Lemma ins_sorted x l : sorted l -> sorted (ins x l).
  Proof.
    induction l as [|y t IH]; intros H; cbn.
    - repeat constructor.
    - inversion H as [|? ? Ht Hf]; subst. destruct (leb x y) eqn:E.
      + constructor; auto. constructor; auto. eapply Forall_impl; [|exact Hf]. cbn; intros; eauto.
      + constructor; [apply IH; auto|].
        apply Forall_forall. intros z Hz. apply (Permutation_in _ (ins_perm x t)) in Hz.
        destruct Hz as [<-|Hz]; [destruct (leb_total x y); congruence|].
        rewrite Forall_forall in Hf; auto.
  Qed.
  Lemma isort_sorted l : sorted (isort l).
  Proof. induction l as [|x t IH]; cbn; [constructor|]. apply ins_sorted; auto. Qed.

  Lemma sorted_id l : sorted l -> isort l = l.
  Proof.
    induction l as [|x t IH]; intros H; auto. inversion H as [|? ? Ht Hf]; subst. change (isort (x :: t)) with (ins x (isort t)). rewrite IH by auto.
    destruct t as [|y t]; cbn; auto. inversion Hf; subst. rewrite H2. auto.
  Qed.
End Sort.

(* lexicographic comparison of number lists: derived Ord on Vec<usize> and on enums *)
Fixpoint lexc (a b : list nat) : comparison :=
  match a, b with
  | [], [] => Eq
  | [], _ :: _ => Lt
  | _ :: _, [] => Gt
  | x :: a, y :: b => match x ?= y with Eq => lexc a b | c => c end
  end.
Lemma lexc_eq a : forall b, lexc a b = Eq <-> a = b.
Proof.
  induction a as [|x a IH]; intros [|y b]; cbn; split; intros H; auto; try discriminate.
  - destruct (Nat.compare_spec x y); try discriminate. subst; f_equal; apply IH; auto.
  - inversion H; subst. rewrite Nat.compare_refl. apply IH; auto.
Qed.
Lemma lexc_refl a : lexc a a = Eq.
Proof. apply lexc_eq; auto. Qed.
Lemma lexc_opp a : forall b, lexc b a = CompOpp (lexc a b).
Proof.
  induction a as [|x a IH]; intros [|y b]; cbn; auto. rewrite (Nat.compare_antisym x y).
  destruct (x ?= y); cbn; auto.
Qed.
Lemma lexc_lt_trans a : forall b c, lexc a b = Lt -> lexc b c = Lt -> lexc a c = Lt.
Proof.
  induction a as [|x a IH]; intros [|y b] [|z c]; cbn; intros H1 H2; auto; try discriminate.
  destruct (Nat.compare_spec x y), (Nat.compare_spec y z); try discriminate; subst.
  - rewrite Nat.compare_refl. eauto.
  - destruct (Nat.compare_spec y z); auto; lia.
  - destruct (Nat.compare_spec x z); auto; lia.
  - destruct (Nat.compare_spec x z); auto; lia.
Qed.
Definition lexlt (a b : list nat) : Prop := lexc a b = Lt.
