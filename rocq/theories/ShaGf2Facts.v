(* The gadgets of ShaGf2.v compute the functions of ShaSpec.v. *)
From Verif Require Import Prelude Field Expr Hints Ir IrInst ApiSpec Gadget ShaSpec ShaGf2.
Open Scope nat_scope.

(* ------------------------------------------------------------ bits, least significant first *)
Fixpoint le (l : list bool) : Z := match l with [] => 0 | b :: l => Z.b2z b + 2 * le l end%Z.
Definition le_bits (n : nat) (z : Z) : list bool := map (fun i => Z.testbit z (Z.of_nat i)) (seq 0 n).
Lemma be_le l : be l = le (rev l).
Proof.
  unfold be. rewrite <- (fold_left_rev_right (fun b z => (2 * z + Z.b2z b)%Z) l 0%Z). induction (rev l) as [|b r IH]; cbn [fold_right le]; [reflexivity|]. rewrite IH. lia.
Qed.
Lemma le_be l : le l = be (rev l). Proof. rewrite be_le, rev_involutive. auto. Qed.
Lemma le_range l : (0 <= le l < 2 ^ Z.of_nat (length l))%Z.
Proof. induction l as [|b l IH]; [cbn; lia|]. cbn [le length]. rewrite Nat2Z.inj_succ, Z.pow_succ_r by lia. destruct b; cbn [Z.b2z]; lia. Qed.
Lemma testbit_le l : forall i, Z.testbit (le l) (Z.of_nat i) = nth i l false.
Proof.
  induction l as [|b l IH]; intros i; [destruct i; apply Z.bits_0|]. cbn [le]. rewrite Z.add_comm. destruct i as [|i]; cbn [nth].
  - cbn [Z.of_nat]. apply Z.testbit_0_r.
  - rewrite Nat2Z.inj_succ, Z.testbit_succ_r by lia. apply IH.
Qed.
Lemma testbit_le_z l i : (0 <= i)%Z -> Z.testbit (le l) i = nth (Z.to_nat i) l false.
Proof. intros H. rewrite <- testbit_le, Z2Nat.id by auto. auto. Qed.
Lemma le_app a b : le (a ++ b) = (le a + 2 ^ Z.of_nat (length a) * le b)%Z.
Proof. induction a as [|x a IH]; cbn [app le length]; [change (2 ^ Z.of_nat 0)%Z with 1%Z; lia|]. rewrite IH, Nat2Z.inj_succ, Z.pow_succ_r by lia. ring. Qed.
Lemma le_bits_length n z : length (le_bits n z) = n.
Proof. unfold le_bits. rewrite map_length, seq_length. auto. Qed.
Lemma nth_le_bits n z i : nth i (le_bits n z) false = (i <? n) && Z.testbit z (Z.of_nat i).
Proof.
  unfold le_bits. destruct (Nat.ltb_spec i n) as [L|L]; cbn [andb].
  - rewrite nth_indep with (d' := Z.testbit z (Z.of_nat 0)) by (rewrite map_length, seq_length; auto). rewrite (map_nth (fun i => Z.testbit z (Z.of_nat i))), seq_nth by auto. auto.
  - apply nth_overflow. rewrite map_length, seq_length. auto.
Qed.
Lemma le_le_bits n z : le (le_bits n z) = (z mod 2 ^ Z.of_nat n)%Z.
Proof.
  apply Z.bits_inj'. intros i Hi. rewrite testbit_le_z, nth_le_bits, Z2Nat.id by auto. destruct (Nat.ltb_spec (Z.to_nat i) n) as [L|L]; cbn [andb].
  - rewrite Z.mod_pow2_bits_low by lia. auto.
  - rewrite Z.mod_pow2_bits_high by lia. auto.
Qed.
Lemma list_eq_nth {A} (d : A) a : forall b, length a = length b -> (forall i, nth i a d = nth i b d) -> a = b.
Proof.
  induction a as [|x a IH]; intros [|y b] L H; cbn in L; try discriminate; auto. f_equal. apply (H 0). apply IH. lia. intros i. apply (H (S i)).
Qed.
Lemma le_bits_le l : le_bits (length l) (le l) = l.
Proof.
  apply (list_eq_nth false). apply le_bits_length. intros i. rewrite nth_le_bits, testbit_le. destruct (Nat.ltb_spec i (length l)); cbn [andb]; auto. rewrite nth_overflow; auto.
Qed.
Lemma be_bits_le n z : be_bits n z = rev (le_bits n z).
Proof.
  unfold be_bits, le_bits. rewrite <- map_rev. rewrite <- (map_map (fun i => n - 1 - i) (fun i => Z.testbit z (Z.of_nat i))). f_equal.
  apply (list_eq_nth 0). rewrite rev_length, map_length, seq_length. auto.
  intros i. destruct (Nat.ltb_spec i n) as [L|L].
  - rewrite rev_nth by (rewrite seq_length; auto). rewrite seq_length, seq_nth by lia.
    rewrite nth_indep with (d' := n - 1 - 0) by (rewrite map_length, seq_length; auto). rewrite (map_nth (fun i => n - 1 - i)), seq_nth by auto. lia.
  - rewrite !nth_overflow; auto. rewrite rev_length, seq_length. auto. rewrite map_length, seq_length. auto.
Qed.
Lemma be_bits_be l : be_bits (length l) (be l) = l.
Proof. rewrite be_bits_le, be_le. rewrite <- (rev_length l), le_bits_le, rev_involutive. auto. Qed.
Lemma be_be_bits n z : be (be_bits n z) = (z mod 2 ^ Z.of_nat n)%Z.
Proof. rewrite be_bits_le, be_le, rev_involutive. apply le_le_bits. Qed.
Lemma be_bits_length n z : length (be_bits n z) = n.
Proof. rewrite be_bits_le, rev_length. apply le_bits_length. Qed.
Lemma be_range l : (0 <= be l < 2 ^ Z.of_nat (length l))%Z.
Proof. rewrite be_le. pose proof (le_range (rev l)). rewrite rev_length in H. auto. Qed.

(* ------------------------------------------------------------ words *)
Fixpoint map2 {A B C} (f : A -> B -> C) (a : list A) (b : list B) : list C := match a, b with x :: a, y :: b => f x y :: map2 f a b | _, _ => [] end.
Lemma map2_length {A B C} (f : A -> B -> C) a : forall b, length a = length b -> length (map2 f a b) = length a.
Proof. induction a as [|x a IH]; intros [|y b] H; cbn in *; auto; try discriminate. Qed.
Lemma map2_nth (f : bool -> bool -> bool) : f false false = false -> forall a b i, length a = length b -> nth i (map2 f a b) false = f (nth i a false) (nth i b false).
Proof. intros Hf a. induction a as [|x a IH]; intros [|y b] i H; cbn in H; try discriminate; destruct i; cbn; auto. Qed.
Lemma map2_app {A B C} (f : A -> B -> C) a : forall b a' b', length a = length b -> map2 f (a ++ a') (b ++ b') = map2 f a b ++ map2 f a' b'.
Proof. induction a as [|x a IH]; intros [|y b] a' b' H; cbn in *; auto; try discriminate. rewrite IH; auto. Qed.
Lemma map2_rev {A B C} (f : A -> B -> C) a : forall b, length a = length b -> map2 f (rev a) (rev b) = rev (map2 f a b).
Proof. induction a as [|x a IH]; intros [|y b] H; cbn in *; auto; try discriminate. rewrite map2_app, IH by (rewrite ?rev_length; lia). reflexivity. Qed.
Lemma be_map2 (f : bool -> bool -> bool) (g : Z -> Z -> Z) : f false false = false -> (forall x y i, Z.testbit (g x y) i = f (Z.testbit x i) (Z.testbit y i)) ->
  forall a b, length a = length b -> be (map2 f a b) = g (be a) (be b).
Proof.
  intros Hf Hg a b L. rewrite !be_le, <- map2_rev by auto. apply Z.bits_inj'. intros i Hi. rewrite Hg, !testbit_le_z by auto. apply map2_nth; auto. rewrite !rev_length; auto.
Qed.
Lemma be_not l : be (map negb l) = (2 ^ Z.of_nat (length l) - 1 - be l)%Z.
Proof.
  rewrite !be_le, <- map_rev. rewrite <- (rev_length l). induction (rev l) as [|b r IH]; [reflexivity|]. cbn [map le length]. rewrite IH, Nat2Z.inj_succ, Z.pow_succ_r by lia. destruct b; cbn [negb Z.b2z]; lia.
Qed.
Lemma nth_skipn {A} (d : A) k : forall l i, nth i (skipn k l) d = nth (k + i) l d.
Proof. induction k as [|k IH]; intros [|x l] i; cbn; auto. destruct i; auto. Qed.
Lemma nth_firstn {A} (d : A) k : forall l i, nth i (firstn k l) d = if i <? k then nth i l d else d.
Proof.
  induction k as [|k IH]; intros [|x l] i; try (cbn; destruct i; auto; fail).
  - cbn [firstn]. destruct (i <? S k); destruct i; auto.
  - destruct i as [|i]; cbn [firstn nth]; auto. rewrite IH. auto.
Qed.
Lemma skipn_rev' {A} k (l : list A) : skipn (length l - k) l = rev (firstn k (rev l)).
Proof. rewrite firstn_rev, rev_involutive. auto. Qed.
Lemma firstn_rev' {A} k (l : list A) : firstn (length l - k) l = rev (skipn k (rev l)).
Proof. rewrite skipn_rev, rev_involutive. auto. Qed.
Lemma be_rotr l n : length l = 32 -> n <= 32 -> be (rotate_right l n) = rotr (Z.of_nat n) (be l).
Proof.
  intros L Hn. unfold rotate_right. rewrite !be_le, rev_app_distr, skipn_rev', firstn_rev', !rev_involutive. rewrite <- (rev_length l) in L. set (r := rev l) in *.
  apply Z.bits_inj'. intros i Hi. rewrite testbit_le_z by auto. unfold rotr, w32. rewrite Z.lor_spec, Z.shiftr_spec by auto.
  assert (Ls : length (skipn n r) = 32 - n) by (rewrite skipn_length; lia).
  destruct (Nat.ltb_spec (Z.to_nat i) (32 - n)) as [C|C].
  - rewrite app_nth1, nth_skipn by lia. rewrite (Z.mod_pow2_bits_low _ 32 i) by lia. rewrite Z.shiftl_spec_low, orb_false_r by lia. rewrite testbit_le_z by lia. f_equal. lia.
  - rewrite app_nth2, nth_firstn by lia. rewrite Ls. rewrite (testbit_le_z r (i + Z.of_nat n)) by lia. rewrite (nth_overflow r false (n := Z.to_nat (i + Z.of_nat n))) by lia. cbn [orb].
    destruct (Nat.ltb_spec (Z.to_nat i - (32 - n)) n) as [D|D].
    + rewrite Z.mod_pow2_bits_low, Z.shiftl_spec, testbit_le_z by lia. f_equal. lia.
    + rewrite Z.mod_pow2_bits_high by lia. auto.
Qed.
Lemma be_shr l n : length l = 32 -> n <= 32 -> be (repeat false n ++ firstn (length l - n) l) = shr (Z.of_nat n) (be l).
Proof.
  intros L Hn. rewrite !be_le, rev_app_distr, firstn_rev', rev_involutive. rewrite <- (rev_length l) in L. set (r := rev l) in *.
  apply Z.bits_inj'. intros i Hi. unfold shr. rewrite Z.shiftr_spec, !testbit_le_z by lia.
  assert (Ls : length (skipn n r) = 32 - n) by (rewrite skipn_length; lia).
  replace (Z.to_nat (i + Z.of_nat n)) with (n + Z.to_nat i) by lia. rewrite <- nth_skipn.
  destruct (Nat.ltb_spec (Z.to_nat i) (32 - n)) as [C|C].
  - rewrite app_nth1 by lia. auto.
  - rewrite app_nth2 by lia. rewrite (nth_overflow (skipn n r)) by lia. destruct (nth_in_or_default (Z.to_nat i - length (skipn n r)) (rev (repeat false n)) false) as [I|I]; auto.
    apply in_rev in I. apply repeat_spec in I. auto.
Qed.
Lemma rotate_length {A} (l : list A) n : length (rotate_right l n) = length l.
Proof. unfold rotate_right. rewrite app_length, skipn_length, firstn_length. lia. Qed.

Lemma f2_length {A B} (R : A -> B -> Prop) l l' : Forall2 R l l' -> length l = length l'. Proof. intros H; induction H; cbn; auto. Qed.
Lemma f2_impl {A B} (R S : A -> B -> Prop) l l' : (forall a b, R a b -> S a b) -> Forall2 R l l' -> Forall2 S l l'. Proof. intros I H; induction H; constructor; auto. Qed.
Section Facts.
  Context {F : Fld}.
  Hypothesis H2 : fmod F = 2%Z.
  Add Field Ff : (fth F).
  Lemma two_0 : fadd (f1 : F) f1 = f0.
  Proof. rewrite <- ofZ_1, <- ofZ_add. rewrite <- (ofZ_toZ _ (ofZ (1 + 1))), toZ_ofZ, H2. apply ofZ_0. Qed.
  Lemma f_bool (x : F) : exists b, x = fbool b.
  Proof.
    pose proof (toZ_range F x) as R. rewrite H2 in R. assert (C : toZ x = 0%Z \/ toZ x = 1%Z) by lia.
    destruct C as [C|C]; rewrite <- (ofZ_toZ F x), C. exists false. apply ofZ_0. exists true. apply ofZ_1.
  Qed.
  Lemma opp_1 : fopp (f1 : F) = f1.
  Proof. assert (E : fadd (f1 : F) f1 = f0) by apply two_0. assert (E2 : fsub (fadd (f1 : F) f1) f1 = fopp f1) by (rewrite E; ring). rewrite <- E2. ring. Qed.
  Lemma fb_add a b : fadd (fbool a : F) (fbool b) = fbool (xorb a b).
  Proof. destruct a, b; cbn; try ring. apply two_0. Qed.
  Lemma fb_sub a b : fsub (fbool a : F) (fbool b) = fbool (xorb a b).
  Proof. destruct a, b; cbn; try ring. transitivity (fopp (f1 : F)); [ring|apply opp_1]. Qed.
  Lemma fb_mul a b : fmul (fbool a : F) (fbool b) = fbool (andb a b).
  Proof. destruct a, b; cbn; ring. Qed.
  Lemma fb_k z : (ofZ (Z.b2z z) : F) = fbool z. Proof. destruct z; cbn [Z.b2z]; [apply ofZ_1|apply ofZ_0]. Qed.

  Definition ib (hv : list F) (x : nat) (b : bool) : Prop := is hv x (fbool b).
  Definition ibs (hv : list F) (xs : list nat) (bs : list bool) : Prop := Forall2 (ib hv) xs bs.
  Lemma ib_ext hv hv' x b : ext hv hv' -> ib hv x b -> ib hv' x b. Proof. apply is_ext. Qed.
  Lemma ibs_ext hv hv' x b : ext hv hv' -> ibs hv x b -> ibs hv' x b.
  Proof. intros X H. induction H; constructor; eauto using ib_ext. Qed.
  Lemma ibs_iss hv xs bs : ibs hv xs bs <-> iss hv xs (map fbool bs).
  Proof.
    split; intros H. induction H; constructor; auto. revert bs H. induction xs as [|x xs IH]; intros [|b bs] H; inversion H; subst; constructor; auto. apply IH; auto.
  Qed.
  Lemma ok_x hv x y a b : ib hv x a -> ib hv y b -> ok hv (a_add x y) (fun hv' z => ib hv' z (xorb a b)).
  Proof. intros A B. unfold ib. rewrite <- fb_add. apply ok_add; auto. Qed.
  Lemma ok_a hv x y a b : ib hv x a -> ib hv y b -> ok hv (a_mul x y) (fun hv' z => ib hv' z (andb a b)).
  Proof. intros A B. unfold ib. rewrite <- fb_mul. apply ok_mul; auto. Qed.
  Lemma ok_k hv z : ok hv (a_const (Z.b2z z)) (fun hv' x => ib hv' x z).
  Proof. unfold ib. rewrite <- fb_k. apply ok_const. Qed.
  Lemma ok_k0 hv : ok hv (a_const 0) (fun hv' x => ib hv' x false). Proof. apply (ok_k hv false). Qed.
  Lemma ok_k1 hv : ok hv (a_const 1) (fun hv' x => ib hv' x true). Proof. apply (ok_k hv true). Qed.
  Lemma ok_inc hv x a : ib hv x a -> ok hv (a_bin BAdd (AV x) (k 1)) (fun hv' z => ib hv' z (negb a)).
  Proof. intros A. unfold ib. replace (negb a) with (xorb a true) by (destruct a; auto). rewrite <- fb_add. eapply ok_bin; cbn; [exact A|reflexivity|]. cbn. rewrite ofZ_1. reflexivity. Qed.
  Lemma ok_dec hv x a : ib hv x a -> ok hv (a_bin BSub (k 1) (AV x)) (fun hv' z => ib hv' z (negb a)).
  Proof. intros A. unfold ib. replace (negb a) with (xorb true a) by (destruct a; auto). rewrite <- fb_sub. eapply ok_bin; cbn; [reflexivity|exact A|]. cbn. rewrite ofZ_1. reflexivity. Qed.

  (* a word with value v *)
  Definition W (hv : list F) (w : word) (v : Z) : Prop := exists bs, ibs hv w bs /\ length bs = 32 /\ be bs = v.
  Lemma W_ext hv hv' w v : ext hv hv' -> W hv w v -> W hv' w v.
  Proof. intros X (bs & A & B). exists bs. eauto using ibs_ext. Qed.
  Definition Ws (hv : list F) := Forall2 (W hv).
  Lemma Ws_ext hv hv' w v : ext hv hv' -> Ws hv w v -> Ws hv' w v.
  Proof. intros X H. induction H; constructor; eauto using W_ext. Qed.
  Lemma ibs_length hv xs bs : ibs hv xs bs -> length xs = length bs. Proof. apply f2_length. Qed.
  Lemma W_length hv w v : W hv w v -> length w = 32. Proof. intros (bs & A & B & _). rewrite <- B. eapply ibs_length; eauto. Qed.
  Lemma W_range hv w v : W hv w v -> (0 <= v < 2 ^ 32)%Z.
  Proof. intros (bs & A & B & <-). pose proof (be_range bs) as R. rewrite B in R. exact R. Qed.

  Ltac up := repeat match goal with
    | X : ext ?a ?b, H : ib ?a _ _ |- _ => apply (ib_ext _ _ _ _ X) in H
    | X : ext ?a ?b, H : ibs ?a _ _ |- _ => apply (ibs_ext _ _ _ _ X) in H
    | X : ext ?a ?b, H : W ?a _ _ |- _ => apply (W_ext _ _ _ _ X) in H
    | X : ext ?a ?b, H : Ws ?a _ _ |- _ => apply (Ws_ext _ _ _ _ X) in H
    | X : ext ?a ?b |- _ => clear X a || clear X end.
  Ltac step L := eapply ok_bind; [eapply L; eassumption|let hv := fresh "hv" in let x := fresh "x" in let X := fresh "X" in let H := fresh "H" in cbv beta; intros hv x X H; up].

  Lemma ok_gmap {A B X Y} (f : A -> G F B) (R : list F -> A -> X -> Prop) (S : list F -> B -> Y -> Prop) (g : X -> Y) :
    (forall hv hv' a x, ext hv hv' -> R hv a x -> R hv' a x) -> (forall hv hv' a x, ext hv hv' -> S hv a x -> S hv' a x) ->
    (forall hv a x, R hv a x -> ok hv (f a) (fun hv' b => S hv' b (g x))) ->
    forall l xs hv, Forall2 (R hv) l xs -> ok hv (gmap f l) (fun hv' bs => Forall2 (S hv') bs (map g xs)).
  Proof.
    intros HR HS Hf l xs hv H. revert hv H. revert xs. induction l as [|a l IH]; intros xs hv H; inversion H as [|a0 x l0 xs0 Ha Hl]; subst; cbn [gmap map].
    - apply ok_ret. constructor.
    - eapply ok_bind; [apply Hf; exact Ha|]. cbv beta. intros hv1 b X1 Hb. eapply ok_bind; [apply (IH xs0)|].
      { eapply f2_impl; [|exact Hl]. cbv beta. intros; eapply HR; eauto. }
      cbv beta. intros hv2 bs X2 Hbs. apply ok_ret. constructor; auto. eapply HS; eauto.
  Qed.
  Lemma ok_gfold {A B X Y} (f : B -> A -> G F B) (R : list F -> A -> X -> Prop) (S : list F -> B -> Y -> Prop) (g : Y -> X -> Y) :
    (forall hv hv' a x, ext hv hv' -> R hv a x -> R hv' a x) ->
    (forall hv s y a x, S hv s y -> R hv a x -> ok hv (f s a) (fun hv' b => S hv' b (g y x))) ->
    forall l xs hv s y, Forall2 (R hv) l xs -> S hv s y -> ok hv (gfold f l s) (fun hv' s' => S hv' s' (fold_left g xs y)).
  Proof.
    intros HR Hf l. induction l as [|a l IH]; intros xs hv s y H Hs; inversion H as [|a0 x l0 xs0 Ha Hl]; subst; cbn [gfold fold_left].
    - apply ok_ret. auto.
    - eapply ok_bind; [apply (Hf _ _ _ _ _ Hs Ha)|]. cbv beta. intros hv1 b X1 Hb. apply IH; auto.
      eapply f2_impl; [|exact Hl]. cbv beta. intros; eapply HR; eauto.
  Qed.
  Lemma ibs_combine hv : forall a b x y, ibs hv a x -> ibs hv b y -> length a = length b ->
    Forall2 (fun p q => ib hv (fst p) (fst q) /\ ib hv (snd p) (snd q)) (combine a b) (combine x y).
  Proof.
    intros a. induction a as [|h a IH]; intros b x y A B L; inversion A; subst; destruct b as [|h' b]; cbn in L; try discriminate; inversion B; subst; cbn; constructor; auto.
  Qed.
  Lemma map_combine {A B C} (f : A -> B -> C) a : forall b, map (fun p => f (fst p) (snd p)) (combine a b) = map2 f a b.
  Proof. induction a as [|x a IH]; intros [|y b]; cbn; auto. f_equal; auto. Qed.

  Lemma ok_w_bin (m : nat -> nat -> G F nat) f g : (forall hv x y a b, ib hv x a -> ib hv y b -> ok hv (m x y) (fun hv' z => ib hv' z (f a b))) ->
    f false false = false -> (forall x y i, Z.testbit (g x y) i = f (Z.testbit x i) (Z.testbit y i)) ->
    forall hv a b x y, W hv a x -> W hv b y -> ok hv (_ <-- a_const 0;; gmap (fun p => m (fst p) (snd p)) (combine a b)) (fun hv' c => W hv' c (g x y)).
  Proof.
    intros Hm Hf Hg hv a b x y A B. step ok_k0. destruct A as (xs & A & LA & <-), B as (ys & B & LB & <-).
    eapply ok_imp.
    - eapply (ok_gmap (fun p => m (fst p) (snd p)) (fun hv p q => ib hv (fst p) (fst q) /\ ib hv (snd p) (snd q)) ib (fun q => f (fst q) (snd q))).
      + intros h h' p q X [P Q]. split; eapply ib_ext; eauto.
      + apply ib_ext.
      + intros h p q [P Q]. apply Hm; auto.
      + eapply ibs_combine; eauto. apply ibs_length in A, B. congruence.
    - cbv beta. intros h c X H0. exists (map2 f xs ys). rewrite <- map_combine. split; [exact H0|]. rewrite map_combine. split. rewrite map2_length; lia. apply be_map2; auto. lia.
  Qed.
  Lemma ok_xor hv a b x y : W hv a x -> W hv b y -> ok hv (w_xor a b) (fun hv' c => W hv' c (Z.lxor x y)).
  Proof. apply (ok_w_bin a_add xorb); auto using ok_x. intros; apply Z.lxor_spec. Qed.
  Lemma ok_and hv a b x y : W hv a x -> W hv b y -> ok hv (w_and a b) (fun hv' c => W hv' c (Z.land x y)).
  Proof. apply (ok_w_bin a_mul andb); auto using ok_a. intros; apply Z.land_spec. Qed.
  Lemma ok_not hv a x : W hv a x -> ok hv (w_not a) (fun hv' c => W hv' c (compl x)).
  Proof.
    intros A. unfold w_not. step ok_k0. destruct A as (xs & A & LA & <-). eapply ok_imp.
    - eapply (ok_gmap (fun x => a_bin BSub (k 1) (AV x)) ib ib negb); [apply ib_ext|apply ib_ext|apply ok_dec|exact A].
    - cbv beta. intros h c X H0. exists (map negb xs). rewrite map_length. split; auto. split; auto. rewrite be_not, LA. reflexivity.
  Qed.
  Lemma Forall2_skipn {A B} (R : A -> B -> Prop) k : forall l l', Forall2 R l l' -> Forall2 R (skipn k l) (skipn k l').
  Proof. induction k as [|k IH]; intros l l' H; cbn; auto. inversion H; subst; auto. Qed.
  Lemma Forall2_firstn {A B} (R : A -> B -> Prop) k : forall l l', Forall2 R l l' -> Forall2 R (firstn k l) (firstn k l').
  Proof. induction k as [|k IH]; intros l l' H; cbn; auto. inversion H; subst; auto. Qed.
  Lemma W_rotr hv w v n : n <= 32 -> W hv w v -> W hv (rotate_right w n) (rotr (Z.of_nat n) v).
  Proof.
    intros Hn (bs & A & L & <-). exists (rotate_right bs n). split; [|split; [rewrite rotate_length; auto|apply be_rotr; auto]].
    unfold rotate_right. rewrite (ibs_length _ _ _ A). apply Forall2_app; [apply Forall2_skipn|apply Forall2_firstn]; exact A.
  Qed.
  Lemma ok_shr hv w v n : n <= 32 -> W hv w v -> ok hv (shift_right w n) (fun hv' c => W hv' c (shr (Z.of_nat n) v)).
  Proof.
    intros Hn A. unfold shift_right. step ok_k0. apply ok_ret. destruct A as (bs & A & L & <-).
    exists (repeat false n ++ firstn (length bs - n) bs). rewrite (ibs_length _ _ _ A). split; [|split].
    - apply Forall2_app; [|apply Forall2_firstn; exact A]. clear -H. induction n; cbn; constructor; auto.
    - rewrite app_length, repeat_length, firstn_length. lia.
    - apply be_shr; auto.
  Qed.
  Lemma ok_ch hv a b c x y z : W hv a x -> W hv b y -> W hv c z -> ok hv (ch a b c) (fun hv' r => W hv' r (Ch x y z)).
  Proof. intros A B C. unfold ch. step ok_and. step ok_not. step ok_and. unfold Ch. apply ok_xor; auto. Qed.
  Lemma ok_maj hv a b c x y z : W hv a x -> W hv b y -> W hv c z -> ok hv (maj a b c) (fun hv' r => W hv' r (Maj x y z)).
  Proof. intros A B C. unfold maj. step ok_and. step ok_and. step ok_and. step ok_xor. unfold Maj. apply ok_xor; auto. Qed.
  Lemma ok_xor3 hv a b c x y z : W hv a x -> W hv b y -> W hv c z -> ok hv (tmp <-- w_xor a b;; w_xor tmp c) (fun hv' r => W hv' r (Z.lxor (Z.lxor x y) z)).
  Proof. intros A B C. step ok_xor. apply ok_xor; auto. Qed.
  Lemma ok_bsig0 hv a x : W hv a x -> ok hv (capital_sigma0 a) (fun hv' r => W hv' r (bsig0 x)).
  Proof. intros A. apply ok_xor3; apply (W_rotr hv a x); auto; lia. Qed.
  Lemma ok_bsig1 hv a x : W hv a x -> ok hv (capital_sigma1 a) (fun hv' r => W hv' r (bsig1 x)).
  Proof. intros A. apply ok_xor3; apply (W_rotr hv a x); auto; lia. Qed.
  Lemma ok_ssig0 hv a x : W hv a x -> ok hv (lower_case_sigma0 a) (fun hv' r => W hv' r (ssig0 x)).
  Proof.
    intros A. unfold lower_case_sigma0. eapply ok_bind; [apply (ok_shr hv a x 3); auto; lia|]. cbv beta. intros h s X Hs. up.
    apply ok_xor3; [apply (W_rotr h a x)|apply (W_rotr h a x)|]; auto; lia.
  Qed.
  Lemma ok_ssig1 hv a x : W hv a x -> ok hv (lower_case_sigma1 a) (fun hv' r => W hv' r (ssig1 x)).
  Proof.
    intros A. unfold lower_case_sigma1. eapply ok_bind; [apply (ok_shr hv a x 10); auto; lia|]. cbv beta. intros h s X Hs. up.
    apply ok_xor3; [apply (W_rotr h a x)|apply (W_rotr h a x)|]; auto; lia.
  Qed.

  (* ------------------------------------------------------------ adders *)
  Lemma ibs_nil hv : ibs hv [] []. Proof. constructor. Qed.
  Lemma ibs_cons hv x b xs bs : ib hv x b -> ibs hv xs bs -> ibs hv (x :: xs) (b :: bs). Proof. constructor; auto. Qed.
  Lemma ibs_inv hv x xs bs : ibs hv (x :: xs) bs -> exists b bs', bs = b :: bs' /\ ib hv x b /\ ibs hv xs bs'.
  Proof. intros H. inversion H; subst. eauto. Qed.
  (* the value of the result and of the carry, given the value of the operands *)
  Definition sums (hv : list F) (c : list nat) (n : nat) (v : Z) : Prop := exists cs (co : bool), ibs hv c cs /\ length cs = n /\ (le cs + 2 ^ Z.of_nat n * Z.b2z co = v)%Z.
  Lemma ok_bk4 hv a0 a1 a2 a3 b0 b1 b2 b3 ci x0 x1 x2 x3 y0 y1 y2 y3 z :
    ib hv a0 x0 -> ib hv a1 x1 -> ib hv a2 x2 -> ib hv a3 x3 -> ib hv b0 y0 -> ib hv b1 y1 -> ib hv b2 y2 -> ib hv b3 y3 -> ib hv ci z ->
    ok hv (brent_kung_adder_4_bits a0 a1 a2 a3 b0 b1 b2 b3 ci) (fun hv' r => exists cs co, ibs hv' (fst r) cs /\ length cs = 4 /\ ib hv' (snd r) co /\
      (le cs + 16 * Z.b2z co = le [x0; x1; x2; x3] + le [y0; y1; y2; y3] + Z.b2z z)%Z).
  Proof.
    intros A0 A1 A2 A3 B0 B1 B2 B3 C. unfold brent_kung_adder_4_bits.
    step ok_k0. clear H. step ok_k0. clear H. do 8 first [step ok_a|step ok_x]. step ok_a. step ok_a. step ok_a. step ok_x. step ok_a. step ok_x. step ok_a. step ok_x.
    step ok_k0. match goal with H : ib _ _ false |- _ => clear H end. cbv zeta.
    step ok_a. step ok_x. step ok_a. step ok_x. step ok_a. step ok_a. step ok_x. step ok_a. step ok_a. step ok_x.
    step ok_k0. match goal with H : ib _ _ false |- _ => clear H end. step ok_x. step ok_x. step ok_x. step ok_x.
    apply ok_ret. cbn [fst snd]. eexists [_; _; _; _], _. split; [|split; [reflexivity|split; [eassumption|]]].
    - repeat (apply ibs_cons; [eassumption|]). apply ibs_nil.
    - clear. destruct x0, x1, x2, x3, y0, y1, y2, y3, z; reflexivity.
  Qed.
  Lemma ok_bk_loop n : forall hv a b ci x y z, ibs hv a x -> ibs hv b y -> length x = 4 * n -> length y = 4 * n -> ib hv ci z ->
    ok hv (brentkung_loop a b ci) (fun hv' c => sums hv' c (4 * n) (le x + le y + Z.b2z z)).
  Proof.
    induction n as [|n IH]; intros hv a b ci x y z A B LA LB C.
    - destruct x; [|discriminate]. destruct y; [|discriminate]. inversion A; subst. inversion B; subst. cbn [brentkung_loop]. apply ok_ret.
      exists [], z. split; [constructor|]. split; auto. cbn [le]. change (2 ^ Z.of_nat (4 * 0))%Z with 1%Z. lia.
    - replace (4 * S n) with (4 + 4 * n) in * by lia.
      destruct x as [|x0 [|x1 [|x2 [|x3 x]]]]; try discriminate LA. destruct y as [|y0 [|y1 [|y2 [|y3 y]]]]; try discriminate LB.
      inversion A as [|a0 ? ? ? A0 A']; subst; clear A. inversion A' as [|a1 ? ? ? A1 A'']; subst; clear A'. inversion A'' as [|a2 ? ? ? A2 A']; subst; clear A''. inversion A' as [|a3 ? ar ? A3 AR]; subst; clear A'.
      inversion B as [|b0 ? ? ? B0 B']; subst; clear B. inversion B' as [|b1 ? ? ? B1 B'']; subst; clear B'. inversion B'' as [|b2 ? ? ? B2 B']; subst; clear B''. inversion B' as [|b3 ? br ? B3 BR]; subst; clear B'.
      cbn [brentkung_loop]. eapply ok_bind; [exact (ok_bk4 hv a0 a1 a2 a3 b0 b1 b2 b3 ci x0 x1 x2 x3 y0 y1 y2 y3 z A0 A1 A2 A3 B0 B1 B2 B3 C)|].
      cbv beta. intros h1 r X1 (cs & co & R1 & R2 & R3 & R4). fold (ibs hv ar x) in AR. fold (ibs hv br y) in BR. up.
      cbn [length] in LA, LB. eapply ok_bind; [apply (IH h1 ar br (snd r) x y co); auto; lia|]. cbv beta. intros h2 c X2 (cs2 & co2 & Q1 & Q2 & Q3). up.
      apply ok_ret. exists (cs ++ cs2), co2. split; [apply Forall2_app; auto|]. split; [rewrite app_length; lia|].
      rewrite le_app, R2. change (x0 :: x1 :: x2 :: x3 :: x) with ([x0; x1; x2; x3] ++ x). change (y0 :: y1 :: y2 :: y3 :: y) with ([y0; y1; y2; y3] ++ y). rewrite !le_app.
      cbn [length]. change (2 ^ Z.of_nat 4)%Z with 16%Z. rewrite Nat2Z.inj_add, Z.pow_add_r by lia. change (2 ^ Z.of_nat 4)%Z with 16%Z. nia.
  Qed.
  Lemma sums_rev hv c v : sums hv c 32 v -> W hv (rev c) (w32 v).
  Proof.
    intros (cs & co & A & L & E). exists (rev cs). split; [|split; [rewrite rev_length; auto|]].
    - clear -A. induction A; cbn; [constructor|]. apply Forall2_app; auto.
    - rewrite <- le_be. unfold w32. rewrite <- E. change (Z.of_nat 32) with 32%Z. rewrite (Z.mul_comm (2 ^ 32)), Z_mod_plus_full. symmetry. apply Z.mod_small. pose proof (le_range cs) as R. rewrite L in R. exact R.
  Qed.
  Lemma ibs_rev hv a x : ibs hv a x -> ibs hv (rev a) (rev x).
  Proof. intros A. induction A; cbn; [constructor|]. apply Forall2_app; auto. Qed.
  Lemma ok_w_add hv a b x y : W hv a x -> W hv b y -> ok hv (w_add a b) (fun hv' c => W hv' c (w32 (x + y))).
  Proof.
    intros A B. unfold w_add, add_brentkung. step ok_k0. clear H. step ok_k0. destruct A as (xs & A & LA & <-), B as (ys & B & LB & <-). apply ibs_rev in A, B.
    eapply ok_bind; [apply (ok_bk_loop 8 _ _ _ _ _ _ false A B); rewrite ?rev_length; auto|]. cbv beta. intros h c X Hc. apply ok_ret.
    apply sums_rev in Hc. rewrite !be_le. cbn [Z.b2z] in Hc. rewrite Z.add_0_r in Hc. exact Hc.
  Qed.
  Lemma ok_fa hv a b c x y z : ib hv a x -> ib hv b y -> ib hv c z ->
    ok hv (bit_add_with_carry a b c) (fun hv' r => exists s co, ib hv' (fst r) s /\ ib hv' (snd r) co /\ (Z.b2z s + 2 * Z.b2z co = Z.b2z x + Z.b2z y + Z.b2z z)%Z).
  Proof.
    intros A B C. unfold bit_add_with_carry. step ok_x. step ok_x. step ok_a. step ok_a. step ok_a. step ok_a. step ok_x. step ok_x. step ok_x. step ok_x.
    apply ok_ret. cbn [fst snd]. eexists _, _. split; [eassumption|split; [eassumption|]]. clear. destruct x, y, z; reflexivity.
  Qed.
  Lemma ok_vanilla_loop n : forall hv a b ci x y z, ibs hv a x -> ibs hv b y -> length x = n -> length y = n -> ib hv ci z ->
    ok hv (vanilla_loop a b ci) (fun hv' c => sums hv' c n (le x + le y + Z.b2z z)).
  Proof.
    induction n as [|n IH]; intros hv a b ci x y z A B LA LB C.
    - destruct x; [|discriminate]. destruct y; [|discriminate]. inversion A; subst. inversion B; subst. cbn [vanilla_loop]. apply ok_ret.
      exists [], z. split; [constructor|]. split; auto. cbn [le]. change (2 ^ Z.of_nat 0)%Z with 1%Z. lia.
    - destruct x as [|x0 x]; [discriminate|]. destruct y as [|y0 y]; [discriminate|].
      inversion A as [|a0 ? ar ? A0 AR]; subst; clear A. inversion B as [|b0 ? br ? B0 BR]; subst; clear B.
      cbn [vanilla_loop]. eapply ok_bind; [apply (ok_fa _ _ _ _ _ _ _ A0 B0 C)|]. cbv beta. intros h1 r X1 (s & co & R1 & R2 & R3).
      fold (ibs hv ar x) in AR. fold (ibs hv br y) in BR. up. cbn [length] in LA, LB.
      eapply ok_bind; [apply (IH h1 ar br (snd r) x y co); auto; lia|]. cbv beta. intros h2 c X2 (cs2 & co2 & Q1 & Q2 & Q3). up.
      apply ok_ret. exists (s :: cs2), co2. split; [constructor; auto|]. split; [cbn; lia|]. cbn [le]. rewrite Nat2Z.inj_succ, Z.pow_succ_r by lia. nia.
  Qed.
  Lemma ok_add_vanilla hv a b x y : W hv a x -> W hv b y -> ok hv (add_vanilla a b) (fun hv' c => W hv' c (w32 (x + y))).
  Proof.
    intros A B. unfold add_vanilla. step ok_k0. clear H. step ok_k0. destruct A as (xs & A & LA & <-), B as (ys & B & LB & <-). apply ibs_rev in A, B.
    eapply ok_bind; [apply (ok_vanilla_loop 32 _ _ _ _ _ _ false A B); rewrite ?rev_length; auto|]. cbv beta. intros h c X Hc. apply ok_ret.
    apply sums_rev in Hc. rewrite !be_le. cbn [Z.b2z] in Hc. rewrite Z.add_0_r in Hc. exact Hc.
  Qed.
  Lemma land1 z j : (0 <= j)%Z -> Z.land (Z.shiftr z j) 1 = Z.b2z (Z.testbit z j).
  Proof.
    intros H. apply Z.bits_inj'. intros i Hi. rewrite Z.land_spec, Z.shiftr_spec by auto. destruct (Z.eq_dec i 0) as [->|N].
    - rewrite Z.add_0_l, Z.b2z_bit0, (Z.bit0_odd 1). cbn. apply andb_true_r.
    - assert (E : Z.testbit 1 i = false) by (destruct i; try lia; reflexivity). rewrite E, andb_false_r. destruct (Z.testbit z j); cbn [Z.b2z]; [auto|rewrite Z.bits_0; auto].
  Qed.
  Lemma ok_add_const_loop b n : forall hv a ci x z j, ibs hv a x -> length x = n -> ib hv ci z -> (0 <= j)%Z ->
    ok hv (add_const_loop a b j ci) (fun hv' c => sums hv' c n (le x + Z.shiftr b j mod 2 ^ Z.of_nat n + Z.b2z z)).
  Proof.
    induction n as [|n IH]; intros hv a ci x z j A LA C J.
    - destruct x; [|discriminate]. inversion A; subst. cbn [add_const_loop]. apply ok_ret. exists [], z. split; [constructor|]. split; auto. cbn [le]. change (2 ^ Z.of_nat 0)%Z with 1%Z. rewrite Z.mod_1_r. lia.
    - destruct x as [|x0 x]; [discriminate|]. inversion A as [|a0 ? ar ? A0 AR]; subst; clear A. fold (ibs hv ar x) in AR. cbn [length] in LA. injection LA as LA.
      assert (E : (Z.shiftr b j mod 2 ^ Z.of_nat (S n) = Z.b2z (Z.testbit b j) + 2 * (Z.shiftr b (j + 1) mod 2 ^ Z.of_nat n))%Z).
      { rewrite <- !le_le_bits. unfold le_bits at 1. cbn [seq map le]. rewrite Z.shiftr_spec by lia. f_equal. f_equal. f_equal. rewrite <- seq_shift, map_map. apply map_ext. intros i. rewrite !Z.shiftr_spec by lia. f_equal. lia. }
      cbn [add_const_loop]. rewrite land1 by auto. rewrite E. destruct (Z.testbit b j) eqn:T; cbn [Z.b2z Z.eqb Pos.eqb].
      + step ok_inc. step ok_x. step ok_a. step ok_x. eapply ok_bind; [eapply (IH _ ar _ x _ (j + 1)%Z); [eassumption|lia|eassumption|lia]|]. cbv beta. intros h c X (cs & co & Q1 & Q2 & Q3). up.
        apply ok_ret. exists (xorb (negb x0) z :: cs), co. split; [constructor; [eassumption|exact Q1]|]. split; [cbn; lia|]. cbn [le]. rewrite Nat2Z.inj_succ, Z.pow_succ_r by lia. clear - Q3. destruct x0, z; cbn [negb xorb andb Z.b2z] in *; nia.
      + step ok_x. step ok_a. eapply ok_bind; [eapply (IH _ ar _ x _ (j + 1)%Z); [eassumption|lia|eassumption|lia]|]. cbv beta. intros h c X (cs & co & Q1 & Q2 & Q3). up.
        apply ok_ret. exists (xorb x0 z :: cs), co. split; [constructor; [eassumption|exact Q1]|]. split; [cbn; lia|]. cbn [le]. rewrite Nat2Z.inj_succ, Z.pow_succ_r by lia. clear - Q3. destruct x0, z; cbn [negb xorb andb Z.b2z] in *; nia.
  Qed.
  Lemma ok_add_const hv a x b : (0 <= b < 2 ^ 32)%Z -> W hv a x -> ok hv (add_const a b) (fun hv' c => W hv' c (w32 (x + b))).
  Proof.
    intros Hb A. unfold add_const. step ok_k0. destruct A as (xs & A & LA & <-). apply ibs_rev in A.
    eapply ok_bind; [apply (ok_add_const_loop b 32 _ _ _ _ false 0 A); rewrite ?rev_length; auto; lia|]. cbv beta. intros h c X Hc. apply ok_ret.
    apply sums_rev in Hc. rewrite !be_le. cbn [Z.b2z] in Hc. rewrite Z.add_0_r, Z.shiftr_0_r, Z.mod_small in Hc by exact Hb. exact Hc.
  Qed.
End Facts.
