(* The derived operations of the frontend (Frontend.v) keep the promises of ApiSpec.v. *)
From Verif Require Import Prelude Field Expr Hints Ir IrInst IrFacts ApiSpec Frontend.
From Coq Require Import Lia.
Open Scope nat_scope.

Section ApiFacts.
  Context {F : Fld}.
  Add Field Faf : (fth F).

  Definition bf (b : bool) : F := fbool b.
  Lemma is0_bf b : is0 F (bf b) = negb b.
  Proof. destruct b; cbn. apply feqb_false, f1_neq_f0. apply feqb_refl. Qed.
  Lemma boolean_bf b : boolean F (bf b) = true.
  Proof. unfold boolean. rewrite is0_bf. destruct b; cbn; auto. apply feqb_refl. Qed.
  Lemma boolean_ex x : boolean F x = true -> exists b, x = bf b.
  Proof. unfold boolean. rewrite orb_true_iff, is0_spec, feqb_spec. intros [->| ->]; [exists false|exists true]; auto. Qed.
  Lemma bool_bf op a b : bin_fun (BBool op) (bf a) (bf b) = Some (bf (bool_fun op a b)).
  Proof. unfold bin_fun. rewrite !boolean_bf, !is0_bf, !negb_involutive. auto. Qed.
  Lemma bool_eval_fun op x y : bool_eval F op x y = bin_fun (BBool op) x y.
  Proof.
    unfold bool_eval, bin_fun. destruct (boolean F x) eqn:Hx; cbn [andb]; auto. destruct (boolean F y) eqn:Hy; auto.
    destruct (boolean_ex _ Hx) as [a ->], (boolean_ex _ Hy) as [b ->]. rewrite !is0_bf, !negb_involutive. f_equal.
    assert (H2 : (ofZ 2 : F) = (f1 + f1)%F) by (change 2%Z with (1 + 1)%Z; rewrite ofZ_add, ofZ_1; auto).
    destruct op, a, b; cbn; try rewrite H2; ring.
  Qed.
  Lemma div_eval_fun c x y : div_eval F c x y = bin_fun (BDiv c) x y. Proof. reflexivity. Qed.
  Lemma to_binary_fun x n : to_binary x n = if (toZ x <? 2 ^ Z.of_nat n)%Z then Some (map (fun i => bf (Z.testbit (toZ x) (Z.of_nat i))) (seq 0 n)) else None.
  Proof.
    rewrite to_binary_spec. destruct (_ <? _)%Z; auto. f_equal. unfold bits_of. rewrite map_map. apply map_ext. intros i. unfold bf, fbool.
    rewrite Z.testbit_eqb by lia. destruct (Z.eqb_spec ((toZ x / 2 ^ Z.of_nat i) mod 2) 1) as [->|H]. apply ofZ_1.
    pose proof (Z.mod_pos_bound (toZ x / 2 ^ Z.of_nat i) 2 ltac:(lia)). replace ((toZ x / 2 ^ Z.of_nat i) mod 2)%Z with 0%Z by lia. apply ofZ_0.
  Qed.

  (* ------------------------------------------------------------ sequences of operations on values *)
  Definition step1 (hv : list F) (o : Op (Arg F)) : option (list F * bool) := let* o := op_map (arg_val hv) o in api_fun o.
  Fixpoint pf (os : list (Op (Arg F))) (hv : list F) : option (list F * bool) :=
    match os with
    | [] => Some (hv, true)
    | o :: os => let* r := step1 hv o in let* s := pf os (hv ++ fst r) in Some (fst s, snd r && snd s)
    end.
  Lemma pf_app a b hv : pf (a ++ b) hv = let* r := pf a hv in let* s := pf b (fst r) in Some (fst s, snd r && snd s).
  Proof.
    revert hv. induction a as [|o a IH]; intros hv; cbn [app pf obind fst snd].
    - destruct (pf b hv) as [[? ?]|]; auto.
    - destruct (step1 hv o) as [[outs b1]|]; cbn [obind fst snd]; auto. rewrite IH. destruct (pf a (hv ++ outs)) as [[h1 b2]|]; cbn [obind fst snd]; auto.
      destruct (pf b h1) as [[h2 b3]|]; cbn [obind fst snd]; auto. rewrite andb_assoc. auto.
  Qed.
  Lemma pf_cons o os hv outs hv' b : step1 hv o = Some (outs, true) -> pf os (hv ++ outs) = Some (hv', b) -> pf (o :: os) hv = Some (hv', b).
  Proof. intros H1 H2. cbn [pf]. rewrite H1. cbn [obind fst snd]. rewrite H2. auto. Qed.

  Definition det (o : Op (Arg F)) : bool := match o with ORandom | OHint _ _ _ => false | _ => true end.
  Fixpoint prims (E : Env F) (os : list (Op (Arg F))) (hv hv' : list F) (b : bool) : Prop :=
    match os with
    | [] => hv' = hv /\ b = true
    | o :: os => exists o' outs b1 b2, op_map (arg_val hv) o = Some o' /\ api_sem E o' outs b1 /\ prims E os (hv ++ outs) hv' b2 /\ b = b1 && b2
    end.
  Lemma det_map {A} (f : Arg F -> option A) o o' : det o = true -> op_map f o = Some o' -> match o' with ORandom | OHint _ _ _ => False | _ => True end.
  Proof.
    destruct o; cbn [det op_map]; intros Hd H; try discriminate;
    repeat match type of H with context [obind ?e _] => destruct e; cbn [obind] in H; try discriminate end; injection H as <-; exact I.
  Qed.
  Lemma det_sem E o o' hv outs b : det o = true -> op_map (arg_val hv) o = Some o' -> (api_sem E o' outs b <-> api_fun o' = Some (outs, b)).
  Proof. intros Hd Ho. pose proof (det_map _ _ _ Hd Ho) as H. destruct o'; try contradiction; reflexivity. Qed.
  Lemma prims_pf E os : forallb det os = true -> forall hv hv' b, prims E os hv hv' b <-> pf os hv = Some (hv', b).
  Proof.
    induction os as [|o os IH]; cbn [forallb prims pf]; intros Hd hv hv' b.
    - split; [intros [-> ->]; auto|intros H; injection H as <- <-; auto].
    - apply andb_true_iff in Hd. destruct Hd as [Hd1 Hd2]. unfold step1. split.
      + intros (o' & outs & b1 & b2 & H1 & H2 & H3 & ->). apply (det_sem E o o' hv) in H2; auto. apply IH in H3; auto. rewrite H1. cbn [obind]. rewrite H2. cbn [obind fst snd]. rewrite H3. auto.
      + intros H. destruct (op_map (arg_val hv) o) as [o'|] eqn:H1; cbn [obind] in H; [|discriminate]. destruct (api_fun o') as [[outs b1]|] eqn:H2; cbn [obind fst snd] in H; [|discriminate].
        destruct (pf os (hv ++ outs)) as [[h2 b2]|] eqn:H3; cbn [obind fst snd] in H; [|discriminate]. injection H as <- <-.
        exists o', outs, b1, b2. split; auto. split; [apply (det_sem E o o' hv); auto|]. split; auto. apply IH; auto.
  Qed.

  (* ------------------------------------------------------------ greater than *)
  Lemma nth_app_l {A} (l r : list A) i x : nth_error l i = Some x -> nth_error (l ++ r) i = Some x.
  Proof. intros H. rewrite nth_error_app1; auto. apply nth_error_Some. congruence. Qed.
  Lemma nth_app_r {A} (l r : list A) i x : nth_error r (i - length l) = Some x -> length l <= i -> nth_error (l ++ r) i = Some x.
  Proof. intros H Hi. rewrite nth_error_app2; auto. Qed.
  Lemma nth_last {A} (l : list A) x r : nth_error (l ++ x :: r) (length l) = Some x.
  Proof. rewrite nth_error_app2 by lia. rewrite Nat.sub_diag. auto. Qed.

  Lemma step_bool op hv h1 h2 a b : nth_error hv h1 = Some (bf a) -> nth_error hv h2 = Some (bf b) ->
    step1 hv (OBin (BBool op) (v h1) (v h2)) = Some ([bf (bool_fun op a b)], true).
  Proof. intros H1 H2. unfold step1. cbn [op_map arg_val v]. rewrite H1, H2. cbn [obind api_fun]. rewrite bool_bf. auto. Qed.
  Lemma step_not hv h1 h2 b : nth_error hv h1 = Some f1 -> nth_error hv h2 = Some (bf b) ->
    step1 hv (OBin BSub (v h1) (v h2)) = Some ([bf (negb b)], true).
  Proof.
    intros H1 H2. unfold step1. cbn [op_map arg_val v]. rewrite H1, H2. cbn [obind api_fun bin_fun]. do 3 f_equal. destruct b; cbn; ring.
  Qed.

  Lemma cmp_step X Y i : (0 <= X)%Z -> (0 <= Y)%Z ->
    (Y mod 2 ^ Z.of_nat (S i) <? X mod 2 ^ Z.of_nat (S i))%Z =
    (Z.testbit X (Z.of_nat i) && negb (Z.testbit Y (Z.of_nat i))) ||
    (negb (xorb (Z.testbit X (Z.of_nat i)) (Z.testbit Y (Z.of_nat i))) && (Y mod 2 ^ Z.of_nat i <? X mod 2 ^ Z.of_nat i)%Z).
  Proof.
    intros HX HY. set (m := (2 ^ Z.of_nat i)%Z). assert (Hm : (0 < m)%Z) by (apply Z.pow_pos_nonneg; lia).
    assert (H2 : (2 ^ Z.of_nat (S i) = m * 2)%Z) by (unfold m; rewrite Nat2Z.inj_succ, Z.pow_succ_r by lia; lia).
    assert (Hd : forall Z0, (0 <= Z0)%Z -> (Z0 mod (m * 2) = m * Z.b2z (Z.testbit Z0 (Z.of_nat i)) + Z0 mod m)%Z).
    { intros Z0 HZ. rewrite Z.rem_mul_r by lia. rewrite Z.testbit_spec' by lia. fold m. lia. }
    rewrite H2, !Hd by auto. pose proof (Z.mod_pos_bound X m Hm). pose proof (Z.mod_pos_bound Y m Hm).
    destruct (Z.testbit X (Z.of_nat i)), (Z.testbit Y (Z.of_nat i)); cbn [Z.b2z andb negb xorb orb].
    - apply Bool.eq_iff_eq_true. rewrite !Z.ltb_lt. lia.
    - apply Z.ltb_lt. lia.
    - apply Z.ltb_ge. lia.
    - apply Bool.eq_iff_eq_true. rewrite !Z.ltb_lt. lia.
  Qed.

  Lemma gt_loop_pf one x0 y0 X Y : (0 <= X)%Z -> (0 <= Y)%Z -> forall i hv result equal r e,
    nth_error hv one = Some f1 ->
    (forall j, j < i -> nth_error hv (x0 + j) = Some (bf (Z.testbit X (Z.of_nat j)))) ->
    (forall j, j < i -> nth_error hv (y0 + j) = Some (bf (Z.testbit Y (Z.of_nat j)))) ->
    nth_error hv result = Some (bf r) -> nth_error hv equal = Some (bf e) ->
    exists hv', pf (fst (gt_loop (F := F) one x0 y0 i (length hv) result equal)) hv = Some (hv', true) /\ length hv' = length hv + 7 * i /\
      nth_error hv' (snd (gt_loop (F := F) one x0 y0 i (length hv) result equal)) =
        Some (bf (r || (e && (Y mod 2 ^ Z.of_nat i <? X mod 2 ^ Z.of_nat i)%Z))) /\ exists t, hv' = hv ++ t.
  Proof.
    intros HX HY. induction i as [|i IH]; intros hv result equal r e Hone Hx Hy Hr He.
    - exists hv. cbn [gt_loop fst snd pf]. split; auto. split; [lia|]. split; [|exists []; rewrite app_nil_r; auto].
      rewrite Hr. do 2 f_equal. cbn [Z.of_nat]. rewrite !Z.pow_0_r, !Z.mod_1_r. cbn. rewrite andb_false_r, orb_false_r. auto.
    - cbn [gt_loop].
      set (xb := Z.testbit X (Z.of_nat i)). set (yb := Z.testbit Y (Z.of_nat i)).
      pose proof (Hx i (Nat.lt_succ_diag_r i)) as Hxi. pose proof (Hy i (Nat.lt_succ_diag_r i)) as Hyi. fold xb in Hxi. fold yb in Hyi.
      set (new := [bf (negb yb); bf (xb && negb yb); bf (e && (xb && negb yb)); bf (r || (e && (xb && negb yb))); bf (xorb xb yb); bf (negb (xorb xb yb)); bf (e && negb (xorb xb yb))]).
      destruct (IH (hv ++ new) (length hv + 3) (length hv + 6) (r || (e && (xb && negb yb))) (e && negb (xorb xb yb))) as (hv' & H1 & H2 & H3 & t & H4).
      { apply nth_app_l; auto. } { intros j Hj. apply nth_app_l, Hx. lia. } { intros j Hj. apply nth_app_l, Hy. lia. }
      { apply nth_app_r; [|lia]. replace (length hv + 3 - length hv) with 3 by lia. reflexivity. }
      { apply nth_app_r; [|lia]. replace (length hv + 6 - length hv) with 6 by lia. reflexivity. }
      rewrite app_length in H1, H2, H3. change (length new) with 7 in H1, H2, H3.
      destruct (gt_loop (F := F) one x0 y0 i (length hv + 7) (length hv + 3) (length hv + 6)) as [ops rr] eqn:Eg. cbn [fst snd] in *.
      exists hv'. split; [|split; [lia|split; [|exists (new ++ t); rewrite H4, app_assoc; auto]]].
      2:{ rewrite H3. f_equal. f_equal. rewrite cmp_step by auto. fold xb yb. destruct r, e, xb, yb; cbn; auto. }
      rewrite pf_app.
      assert (H7 : pf [OBin BSub (v one) (v (y0 + i)); OBin (BBool BAnd) (v (x0 + i)) (v (length hv)); OBin (BBool BAnd) (v equal) (v (length hv + 1));
          OBin (BBool BOr) (v result) (v (length hv + 2)); OBin (BBool BXor) (v (x0 + i)) (v (y0 + i)); OBin BSub (v one) (v (length hv + 4));
          OBin (BBool BAnd) (v equal) (v (length hv + 5))] hv = Some (hv ++ new, true)).
      { eapply pf_cons. apply step_not; eauto.
        eapply pf_cons. { eapply step_bool. apply nth_app_l; eauto. apply nth_last. }
        eapply pf_cons. { eapply step_bool. do 2 apply nth_app_l; eauto. rewrite <- app_assoc. apply nth_app_r; [|lia]. replace (length hv + 1 - length hv) with 1 by lia. reflexivity. }
        eapply pf_cons. { eapply step_bool. do 3 apply nth_app_l; eauto. rewrite <- !app_assoc. apply nth_app_r; [|lia]. replace (length hv + 2 - length hv) with 2 by lia. reflexivity. }
        eapply pf_cons. { eapply step_bool. do 4 apply nth_app_l; eauto. do 4 apply nth_app_l; eauto. }
        eapply pf_cons. { apply step_not. do 5 apply nth_app_l; eauto. rewrite <- !app_assoc. apply nth_app_r; [|lia]. replace (length hv + 4 - length hv) with 4 by lia. reflexivity. }
        eapply pf_cons. { eapply step_bool. do 6 apply nth_app_l; eauto. rewrite <- !app_assoc. apply nth_app_r; [|lia]. replace (length hv + 5 - length hv) with 5 by lia. reflexivity. }
        cbn [pf]. rewrite <- !app_assoc. reflexivity. }
      rewrite H7. cbn [obind fst snd]. rewrite H1. reflexivity.
  Qed.

  Lemma step_const hv a x : arg_val hv a = Some x -> step1 hv (OConst a) = Some ([x], true).
  Proof. intros H. unfold step1. cbn [op_map]. rewrite H. auto. Qed.
  Lemma step_tobin hv h x n : nth_error hv h = Some x -> (toZ x < 2 ^ Z.of_nat n)%Z ->
    step1 hv (OToBin (v h) n) = Some (map (fun i => bf (Z.testbit (toZ x) (Z.of_nat i))) (seq 0 n), true).
  Proof. intros H Hx. unfold step1. cbn [op_map arg_val v]. rewrite H. cbn [obind api_fun]. apply Z.ltb_lt in Hx. rewrite Hx. auto. Qed.
  Definition bitsf (x : F) (n : nat) : list F := map (fun i => bf (Z.testbit (toZ x) (Z.of_nat i))) (seq 0 n).
  Lemma bitsf_len x n : length (bitsf x n) = n. Proof. unfold bitsf. rewrite map_length, seq_length. auto. Qed.
  Lemma bitsf_nth x n j : j < n -> nth_error (bitsf x n) j = Some (bf (Z.testbit (toZ x) (Z.of_nat j))).
  Proof. intros H. unfold bitsf. erewrite map_nth_error; [reflexivity|]. rewrite nth_error_seq by auto. reflexivity. Qed.

  (* FIELD_SIZE bounds the modulus as builder.rs:478-482 expects: 254 bits for 256, 31 bits for 32 *)
  Definition size_ok (fsize : nat) : Prop := forall n, num_bits fsize = Some n -> (fmod F <= 2 ^ Z.of_nat n)%Z.
  Lemma gt_ops_pf fsize hv a1 a2 x y p n : size_ok fsize -> num_bits fsize = Some n -> gt_ops fsize (length hv) a1 a2 = Some p -> arg_val hv a1 = Some x -> arg_val hv a2 = Some y ->
    exists hv', pf (fst p) hv = Some (hv', true) /\ length hv' = length hv + 5 + 2 * n + 7 * n /\ nth_error hv' (snd p) = Some (bf (toZ y <? toZ x)%Z) /\ exists t, hv' = hv ++ t.
  Proof.
    intros Hs Hn Hp H1 H2. unfold gt_ops in Hp. rewrite Hn in Hp. cbn [obind] in Hp.
    assert (Hb : forall z : F, (toZ z < 2 ^ Z.of_nat n)%Z) by (intros z; pose proof (toZ_range F z); specialize (Hs n Hn); lia).
    set (hv7 := hv ++ [f1; x; y] ++ bitsf x n ++ bitsf y n ++ [f0; f1]).
    assert (Hl7 : length hv7 = length hv + 5 + 2 * n) by (unfold hv7; rewrite !app_length, !bitsf_len; cbn; lia).
    destruct (gt_loop_pf (length hv) (length hv + 3) (length hv + 3 + n) (toZ x) (toZ y) ltac:(apply toZ_range) ltac:(apply toZ_range) n hv7 (length hv + 3 + 2 * n) (length hv + 4 + 2 * n) false true) as (hv' & G1 & G2 & G3 & t & G4).
    { unfold hv7. apply nth_last. }
    { intros j Hj. unfold hv7. apply nth_app_r; [|lia]. rewrite nth_error_app2 by (cbn; lia). apply nth_app_l. cbn [length]. replace (length hv + 3 + j - length hv - 3) with j by lia. apply bitsf_nth; auto. }
    { intros j Hj. unfold hv7. apply nth_app_r; [|lia]. rewrite nth_error_app2 by (cbn; lia). rewrite nth_error_app2 by (rewrite bitsf_len; cbn; lia). apply nth_app_l.
      rewrite bitsf_len. cbn [length]. replace (length hv + 3 + n + j - length hv - 3 - n) with j by lia. apply bitsf_nth; auto. }
    { unfold hv7. apply nth_app_r; [|lia]. rewrite nth_error_app2 by (cbn; lia). rewrite !nth_error_app2 by (rewrite ?bitsf_len; cbn; lia). rewrite !bitsf_len. cbn [length].
      replace (length hv + 3 + 2 * n - length hv - 3 - n - n) with 0 by lia. reflexivity. }
    { unfold hv7. apply nth_app_r; [|lia]. rewrite nth_error_app2 by (cbn; lia). rewrite !nth_error_app2 by (rewrite ?bitsf_len; cbn; lia). rewrite !bitsf_len. cbn [length].
      replace (length hv + 4 + 2 * n - length hv - 3 - n - n) with 1 by lia. reflexivity. }
    rewrite Hl7 in *. destruct (gt_loop (F := F) (length hv) (length hv + 3) (length hv + 3 + n) n (length hv + 5 + 2 * n) (length hv + 3 + 2 * n) (length hv + 4 + 2 * n)) as [ops r] eqn:Eg.
    injection Hp as <-. cbn [fst snd] in *. exists hv'. split; [|split; [lia|split]].
    - change (pf ([OConst (AK f1); OConst a1; OConst a2; OToBin (v (length hv + 1)) n; OToBin (v (length hv + 2)) n; OConst (AK f0); OConst (AK f1)] ++ ops) hv = Some (hv', true)). rewrite pf_app.
      assert (H7 : pf [OConst (AK f1); OConst a1; OConst a2; OToBin (v (length hv + 1)) n; OToBin (v (length hv + 2)) n; OConst (AK f0); OConst (AK f1)] hv = Some (hv7, true)).
      { eapply pf_cons. apply step_const; reflexivity.
        assert (Ha : forall a z l, arg_val hv a = Some z -> arg_val (hv ++ l) a = Some z) by (intros [h|c] z l; cbn; auto; apply nth_app_l).
        eapply pf_cons. apply step_const, Ha; eauto.
        eapply pf_cons. apply step_const. rewrite <- app_assoc. apply Ha; eauto.
        eapply pf_cons. { apply step_tobin; [|apply (Hb x)]. rewrite <- !app_assoc. apply nth_app_r; [|lia]. replace (length hv + 1 - length hv) with 1 by lia. reflexivity. } fold (bitsf x n).
        eapply pf_cons. { apply step_tobin; [|apply (Hb y)]. rewrite <- !app_assoc. apply nth_app_r; [|lia]. replace (length hv + 2 - length hv) with 2 by lia. reflexivity. } fold (bitsf y n).
        eapply pf_cons. apply step_const; reflexivity. eapply pf_cons. apply step_const; reflexivity.
        cbn [pf]. unfold hv7. rewrite <- !app_assoc. reflexivity. }
      rewrite H7. cbn [obind fst snd]. rewrite G1. auto.
    - rewrite G3. cbn [orb andb]. rewrite !Z.mod_small by (split; [apply toZ_range|apply Hb]). auto.
    - exists (([f1; x; y] ++ bitsf x n ++ bitsf y n ++ [f0; f1]) ++ t). rewrite app_assoc. unfold hv7 in G4. auto.
  Qed.
  Lemma arg_app hv l a z : arg_val (F := F) hv a = Some z -> arg_val (hv ++ l) a = Some z.
  Proof. destruct a; cbn; auto. apply nth_app_l. Qed.

  (* ------------------------------------------------------------ from_binary *)
  Definition wsum (m : F) (l : list F) : F := fsum F (map (fun p => m * (ofZ (2 ^ Z.of_nat (fst p)) * snd p))%F (combine (seq 0 (length l)) l)).
  Lemma wsum_nil m : wsum m [] = f0. Proof. reflexivity. Qed.
  Lemma pow2_S n : (ofZ (2 ^ Z.of_nat (S n)) : F) = ((1 + 1) * ofZ (2 ^ Z.of_nat n))%F.
  Proof. rewrite Nat2Z.inj_succ, Z.pow_succ_r by lia. rewrite ofZ_mul. f_equal. change 2%Z with (1 + 1)%Z. rewrite ofZ_add, ofZ_1. auto. Qed.
  Lemma wsum_cons m x l : wsum m (x :: l) = (m * x + wsum (m + m) l)%F.
  Proof.
    unfold wsum. cbn [length seq combine map fsum fold_right fst snd]. fold (fsum F). f_equal.
    - change (2 ^ Z.of_nat 0)%Z with 1%Z. rewrite ofZ_1. ring.
    - rewrite <- seq_shift. f_equal. generalize (length l). intros k.
      assert (H : forall a, map (fun p : nat * F => m * (ofZ (2 ^ Z.of_nat (fst p)) * snd p))%F (combine (map S (seq a k)) l) = map (fun p => (m + m) * (ofZ (2 ^ Z.of_nat (fst p)) * snd p))%F (combine (seq a k) l)).
      { revert l. induction k as [|k IH]; intros l a; cbn [seq map combine]; auto. destruct l as [|y l]; cbn [map fst snd]; auto. f_equal; [rewrite pow2_S; ring|]. apply IH. }
      rewrite H. reflexivity.
  Qed.
  Lemma omap_args hv l xs vs : omap (arg_val (F := F) hv) xs = Some vs -> omap (arg_val (hv ++ l)) xs = Some vs.
  Proof. intros H. apply omap_some in H. apply omap_some. induction H; constructor; auto. apply arg_app; auto. Qed.
  Lemma from_bin_loop_pf xs : forall hv res m r vs, nth_error hv res = Some r -> omap (arg_val hv) xs = Some vs ->
    exists hv', pf (fst (from_bin_loop xs (length hv) res m)) hv = Some (hv', true) /\
                nth_error hv' (snd (from_bin_loop xs (length hv) res m)) = Some (r + wsum (m + m) vs)%F.
  Proof.
    induction xs as [|x xs IH]; intros hv res m r vs Hr Ho; cbn [omap from_bin_loop] in *.
    - injection Ho as <-. exists hv. cbn [fst snd pf]. split; auto. rewrite wsum_nil, Hr. f_equal. ring.
    - destruct (arg_val hv x) as [vx|] eqn:Hx; cbn [obind] in Ho; [|discriminate].
      destruct (omap (arg_val hv) xs) as [vs'|] eqn:Ho'; cbn [obind] in Ho; [|discriminate]. injection Ho as <-.
      set (new := [((m + m) * vx)%F; (r + (m + m) * vx)%F]).
      destruct (IH (hv ++ new) (length hv + 1) (m + m)%F (r + (m + m) * vx)%F vs') as (hv' & I1 & I2).
      { apply nth_app_r; [replace (length hv + 1 - length hv) with 1 by lia; auto|lia]. } { apply omap_args; auto. }
      rewrite app_length in I1, I2. change (length new) with 2 in I1, I2.
      destruct (from_bin_loop xs (length hv + 2) (length hv + 1) (m + m)%F) as [ops rr] eqn:El. cbn [fst snd] in *.
      exists hv'. split.
      * cbn [app]. eapply pf_cons. { unfold step1. cbn [op_map]. change (arg_val hv (AK (m + m)%F)) with (Some (m + m)%F). rewrite Hx. cbn [obind api_fun bin_fun]. reflexivity. }
        eapply pf_cons. { unfold step1. cbn [op_map arg_val v]. rewrite (nth_app_l _ _ _ _ Hr), nth_last. cbn [obind api_fun bin_fun]. reflexivity. }
        rewrite <- app_assoc. exact I1.
      * rewrite I2. f_equal. rewrite wsum_cons. ring.
  Qed.
  Lemma wsum_1 l : wsum f1 l = fsum F (map (fun p => ofZ (2 ^ Z.of_nat (fst p)) * snd p)%F (combine (seq 0 (length l)) l)).
  Proof. unfold wsum. f_equal. apply map_ext. intros p. ring. Qed.

  (* ------------------------------------------------------------ all derived operations *)
  Lemma fsub_is0 x y : is0 F (fsub x y) = feqb x y.
  Proof. apply Bool.eq_iff_eq_true. rewrite is0_spec, fsub_0, feqb_spec. reflexivity. Qed.
  Lemma gt_loop_det one x0 y0 i : forall H r e, forallb det (fst (gt_loop (F := F) one x0 y0 i H r e)) = true.
  Proof. induction i as [|i IH]; intros H r e; cbn [gt_loop]; auto. specialize (IH (H + 7) (H + 3) (H + 6)). destruct (gt_loop _ _ _ _ _ _ _). cbn in *. auto. Qed.
  Lemma gt_ops_det fsize H x y p : gt_ops (F := F) fsize H x y = Some p -> forallb det (fst p) = true.
  Proof.
    unfold gt_ops. destruct (num_bits fsize) as [n|]; cbn [obind]; [|discriminate].
    pose proof (gt_loop_det H (H + 3) (H + 3 + n) n (H + 5 + 2 * n) (H + 3 + 2 * n) (H + 4 + 2 * n)) as Hd.
    destruct (gt_loop _ _ _ _ _ _ _) as [ops r]. intros Hp. injection Hp as <-. cbn [fst forallb app det andb] in *. auto.
  Qed.
  Lemma from_bin_det xs : forall H r m, forallb det (fst (from_bin_loop (F := F) xs H r m)) = true.
  Proof. induction xs as [|x xs IH]; intros H r m; cbn [from_bin_loop]; auto. specialize (IH (H + 2) (H + 1) (fadd m m)). destruct (from_bin_loop _ _ _ _). cbn in *. auto. Qed.
  Lemma derived_det fsize dbg H o os rs : derived (F := F) fsize dbg H o = Some (Some (os, rs)) -> forallb det os = true /\ det o = true.
  Proof.
    destruct o; cbn [derived]; try discriminate; try (destruct dbg; [discriminate|]); intros Hd; try (injection Hd as <- <-; auto; fail).
    - destruct (gt_ops fsize H x y) as [p|] eqn:E; cbn [obind] in Hd; [|discriminate]. injection Hd as <- <-. split; auto. eapply gt_ops_det; eauto.
    - destruct (gt_ops fsize H y x) as [p|] eqn:E; cbn [obind] in Hd; [|discriminate]. destruct (num_bits fsize); [|discriminate]. injection Hd as <- <-. split; auto.
      rewrite forallb_app. rewrite (gt_ops_det _ _ _ _ _ E). auto.
    - unfold from_bin_ops in Hd. destruct l as [|x xs]; [injection Hd as <- <-; auto|]. pose proof (from_bin_det xs (H + 1) H f1) as Hf. destruct (from_bin_loop _ _ _ _) as [ops r]. injection Hd as <- <-. cbn in *. auto.
  Qed.

  Definition pf_is (os : list (Op (Arg F))) (rs : list nat) (hv : list F) (r : option (list F * bool)) : Prop :=
    match r with
    | Some (outs, b) => exists hv', pf os hv = Some (hv', b) /\ omap (nth_error hv') rs = Some outs
    | None => pf os hv = None
    end.
  Lemma derived_pf fsize dbg hv o os rs o' : size_ok fsize -> derived fsize dbg (length hv) o = Some (Some (os, rs)) ->
    op_map (arg_val hv) o = Some o' -> pf_is os rs hv (api_fun o').
  Proof.
    intros Hs Hd Ho. destruct o; cbn [derived] in Hd; try discriminate; try (destruct dbg; [discriminate|]); cbn [op_map] in Ho.
    - (* gt *) destruct (gt_ops fsize (length hv) x y) as [p|] eqn:E; cbn [obind] in Hd; [|discriminate]. injection Hd as <- <-.
      destruct (arg_val hv x) as [vx|] eqn:Hx; cbn [obind] in Ho; [|discriminate]. destruct (arg_val hv y) as [vy|] eqn:Hy; cbn [obind] in Ho; [|discriminate]. injection Ho as <-.
      destruct (num_bits fsize) as [n|] eqn:En; [|unfold gt_ops in E; rewrite En in E; discriminate].
      destruct (gt_ops_pf fsize hv x y vx vy p n Hs En E Hx Hy) as (hv' & H1 & _ & H2 & _). cbn [api_fun pf_is]. exists hv'. split; auto. cbn [omap]. rewrite H2. auto.
    - (* geq *) destruct (gt_ops fsize (length hv) y x) as [p|] eqn:E; cbn [obind] in Hd; [|discriminate]. destruct (num_bits fsize) as [n|] eqn:En; [|discriminate]. injection Hd as <- <-.
      destruct (arg_val hv x) as [vx|] eqn:Hx; cbn [obind] in Ho; [|discriminate]. destruct (arg_val hv y) as [vy|] eqn:Hy; cbn [obind] in Ho; [|discriminate]. injection Ho as <-.
      destruct (gt_ops_pf fsize hv y x vy vx p n Hs En E Hy Hx) as (hv' & H1 & H3 & H2 & _). cbn [api_fun pf_is].
      exists ((hv' ++ [f1]) ++ [bf (negb (toZ vx <? toZ vy)%Z)]). split.
      + rewrite pf_app, H1. cbn [obind fst snd andb].
        rewrite (pf_cons (OConst (AK f1)) _ hv' [f1] ((hv' ++ [f1]) ++ [bf (negb (toZ vx <? toZ vy)%Z)]) true); auto.
        eapply pf_cons. { apply step_not. 2: apply nth_app_l; eauto. match goal with |- nth_error _ ?i = _ => replace i with (length hv') by lia end. apply nth_last. } reflexivity.
      + cbn [omap].
        match goal with |- context [nth_error ?l ?i] => replace (nth_error l i) with (Some (bf (negb (toZ vx <? toZ vy)%Z))) end.
        2:{ symmetry. match goal with |- nth_error _ ?i = _ => replace i with (length (hv' ++ [f1])) by (rewrite app_length; cbn [length]; lia) end. apply nth_last. }
        cbn [obind]. do 2 f_equal. unfold bf. f_equal. rewrite Z.ltb_antisym, negb_involutive. auto.
    - (* inverse *) injection Hd as <- <-. destruct (arg_val hv x) as [vx|] eqn:Hx; cbn [obind] in Ho; [|discriminate]. injection Ho as <-.
      cbn [api_fun]. unfold pf_is. cbn [pf]. unfold step1. cbn [op_map arg_val]. rewrite Hx. cbn [obind api_fun bin_fun].
      destruct (is0 F vx) eqn:E0.
      + rewrite andb_false_r. auto.
      + cbn [obind fst snd andb]. eexists. split; [reflexivity|]. cbn [omap]. rewrite nth_last. cbn [obind]. do 2 f_equal. ring.
    - (* assert equal *) injection Hd as <- <-. destruct (arg_val hv x) as [vx|] eqn:Hx; cbn [obind] in Ho; [|discriminate]. destruct (arg_val hv y) as [vy|] eqn:Hy; cbn [obind] in Ho; [|discriminate]. injection Ho as <-.
      cbn [api_fun]. unfold pf_is. cbn [pf]. unfold step1. cbn [op_map v]. rewrite Hx, Hy. unfold v. cbn [obind api_fun bin_fun fst snd arg_val]. rewrite nth_last. cbn [obind fst snd api_fun andb con_fun]. rewrite fsub_is0, andb_true_r. eexists. split; reflexivity.
    - (* assert different *) injection Hd as <- <-. destruct (arg_val hv x) as [vx|] eqn:Hx; cbn [obind] in Ho; [|discriminate]. destruct (arg_val hv y) as [vy|] eqn:Hy; cbn [obind] in Ho; [|discriminate]. injection Ho as <-.
      cbn [api_fun]. unfold pf_is. cbn [pf]. unfold step1. cbn [op_map v]. rewrite Hx, Hy. unfold v. cbn [obind api_fun bin_fun fst snd arg_val]. rewrite nth_last. cbn [obind fst snd api_fun andb con_fun]. rewrite fsub_is0, andb_true_r. eexists. split; reflexivity.
    - (* from_binary *) destruct (omap (arg_val hv) l) as [vs|] eqn:Hl; cbn [obind] in Ho; [|discriminate]. injection Ho as <-. cbn [api_fun]. rewrite <- wsum_1. unfold from_bin_ops in Hd.
      destruct l as [|x xs].
      + injection Hd as <- <-. cbn in Hl. injection Hl as <-. unfold pf_is. exists (hv ++ [f0]). split; [reflexivity|]. cbn [omap]. rewrite nth_last. reflexivity.
      + cbn [omap] in Hl. destruct (arg_val hv x) as [vx|] eqn:Hx; cbn [obind] in Hl; [|discriminate]. destruct (omap (arg_val hv) xs) as [vs'|] eqn:Hxs; cbn [obind] in Hl; [|discriminate]. injection Hl as <-.
        destruct (from_bin_loop_pf xs (hv ++ [vx]) (length hv) f1 vx vs') as (hv' & H1 & H2). apply nth_last. apply omap_args; auto.
        rewrite app_length in H1, H2. cbn [length] in H1, H2. destruct (from_bin_loop xs (length hv + 1) (length hv) f1) as [ops r] eqn:Ef. injection Hd as <- <-. cbn [fst snd] in *.
        unfold pf_is. exists hv'. split. { eapply pf_cons; [apply step_const; eauto|exact H1]. } cbn [omap]. rewrite H2. cbn [obind]. do 2 f_equal. rewrite wsum_cons. ring.
    - (* unconstrained_add *) injection Hd as <- <-. destruct (arg_val hv x) as [vx|] eqn:Hx; cbn [obind] in Ho; [|discriminate]. destruct (arg_val hv y) as [vy|] eqn:Hy; cbn [obind] in Ho; [|discriminate]. injection Ho as <-.
      cbn [api_fun]. unfold pf_is. exists (hv ++ [vx; vy; fadd vx vy; fadd vx vy]). split.
      + eapply pf_cons. apply step_const; eauto. eapply pf_cons. apply step_const, arg_app; eauto.
        eapply pf_cons. { unfold step1. cbn [op_map arg_val v]. rewrite <- app_assoc. rewrite (nth_app_r hv _ (length hv) vx), (nth_app_r hv _ (length hv + 1) vy); [reflexivity|replace (length hv + 1 - length hv) with 1 by lia; auto|lia|rewrite Nat.sub_diag; auto|lia]. }
        eapply pf_cons. { unfold step1. cbn [op_map arg_val v]. rewrite <- !app_assoc. rewrite (nth_app_r hv _ (length hv + 2) (fadd vx vy)); [reflexivity|replace (length hv + 2 - length hv) with 2 by lia; auto|lia]. }
        cbn [pf]. rewrite <- !app_assoc. reflexivity.
      + cbn [omap]. rewrite (nth_app_r hv _ (length hv + 3) (fadd vx vy)); [reflexivity|replace (length hv + 3 - length hv) with 3 by lia; auto|lia].
    - injection Hd as <- <-. destruct (arg_val hv x) as [vx|] eqn:Hx; cbn [obind] in Ho; [|discriminate]. destruct (arg_val hv y) as [vy|] eqn:Hy; cbn [obind] in Ho; [|discriminate]. injection Ho as <-.
      cbn [api_fun]. unfold pf_is. exists (hv ++ [vx; vy; fmul vx vy; fmul vx vy]). split.
      + eapply pf_cons. apply step_const; eauto. eapply pf_cons. apply step_const, arg_app; eauto.
        eapply pf_cons. { unfold step1. cbn [op_map arg_val v]. rewrite <- app_assoc. rewrite (nth_app_r hv _ (length hv) vx), (nth_app_r hv _ (length hv + 1) vy); [reflexivity|replace (length hv + 1 - length hv) with 1 by lia; auto|lia|rewrite Nat.sub_diag; auto|lia]. }
        eapply pf_cons. { unfold step1. cbn [op_map arg_val v]. rewrite <- !app_assoc. rewrite (nth_app_r hv _ (length hv + 2) (fmul vx vy)); [reflexivity|replace (length hv + 2 - length hv) with 2 by lia; auto|lia]. }
        cbn [pf]. rewrite <- !app_assoc. reflexivity.
      + cbn [omap]. rewrite (nth_app_r hv _ (length hv + 3) (fmul vx vy)); [reflexivity|replace (length hv + 3 - length hv) with 3 by lia; auto|lia].
  Qed.
End ApiFacts.
