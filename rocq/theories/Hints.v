(* Model of expander_compiler/src/hints/builtin.rs, hints/mod.rs and of UnconstrainedBinOpType::eval
   (circuit/ir/source/mod.rs:412-500).  U256 values are non-negative integers; << truncates to 256 bits. *)
From Verif Require Import Prelude Field.
Local Open Scope Z_scope.

(* builtin.rs:8-30 *)
Inductive Builtin :=
| HIdentity | HDiv | HEq | HNotEq | HBoolOr | HBoolAnd | HBitOr | HBitAnd | HBitXor | HSelect | HPow
| HIntDiv | HMod | HShiftL | HShiftR | HLesserEq | HGreaterEq | HLesser | HGreater | HToBinary.
Definition builtin_base : N := 225125005787136%N.     (* 0xccc000000000 *)
Definition all_builtins : list Builtin :=
  [HIdentity; HDiv; HEq; HNotEq; HBoolOr; HBoolAnd; HBitOr; HBitAnd; HBitXor; HSelect; HPow;
   HIntDiv; HMod; HShiftL; HShiftR; HLesserEq; HGreaterEq; HLesser; HGreater; HToBinary].
Definition builtin_offset (b : Builtin) : N :=
  match b with
  | HIdentity => 0 | HDiv => 1 | HEq => 2 | HNotEq => 3 | HBoolOr => 4 | HBoolAnd => 5 | HBitOr => 6 | HBitAnd => 7
  | HBitXor => 8 | HSelect => 9 | HPow => 10 | HIntDiv => 11 | HMod => 12 | HShiftL => 13 | HShiftR => 14
  | HLesserEq => 15 | HGreaterEq => 16 | HLesser => 17 | HGreater => 18 | HToBinary => 19
  end%N.
Definition builtin_id (b : Builtin) : N := (builtin_base + builtin_offset b)%N.
(* builtin.rs:36-68 *)
Definition builtin_of (id : N) : option Builtin :=
  if (id <? builtin_base)%N then None
  else if (builtin_base + 100 <? id)%N then None
  else find (fun b => (id =? builtin_id b)%N) all_builtins.

(* builtin.rs:83-145 *)
Definition validate_builtin_hint (h : Builtin) (ni no : nat) : bool :=
  match h with
  | HIdentity => (ni =? no)%nat && negb (ni =? 0)%nat
  | HSelect => (ni =? 3)%nat && (no =? 1)%nat
  | HToBinary => (ni =? 1)%nat && negb (no =? 0)%nat
  | _ => (ni =? 2)%nat && (no =? 1)%nat
  end.
(* builtin.rs:147-164 *)
Definition validate_hint (id : N) (ni no : nat) : bool :=
  match builtin_of id with
  | Some h => validate_builtin_hint h ni no
  | None => negb (no =? 0)%nat && negb (ni =? 0)%nat
  end.

Section Hints.
  Context {F : Fld}.
  Add Field Ffh : (fth F).
  Notation p := (fmod F).

  Definition u256 (z : Z) : Z := z mod 2 ^ 256.
  (* builtin.rs:323-325: 256 - leading_zeros *)
  Definition bit_length (z : Z) : Z := if z =? 0 then 0 else Z.log2 z + 1.
  Definition fbool (b : bool) : F := if b then f1 else f0.   (* F::from(b as u32) *)

  (* builtin.rs:247-260.  (y & 1) then y >>= 1 *)
  Fixpoint to_binary_loop (n : nat) (y : Z) : list F * Z :=
    match n with
    | O => ([], y)
    | S n => let '(l, y') := to_binary_loop n (Z.shiftr y 1) in (ofZ (Z.land y 1) :: l, y')
    end.
  Definition to_binary (x : F) (n : nat) : option (list F) :=
    let '(l, y) := to_binary_loop n (toZ x) in if y =? 0 then Some l else None.

  (* builtin.rs:205-216 and source/mod.rs:421-433: square and multiply; the fuel is never exhausted (pow_spec) *)
  Fixpoint pow_loop (fuel : nat) (t res : F) (y : Z) : F :=
    match fuel with
    | O => res
    | S fuel => if y =? 0 then res
                else pow_loop fuel (fmul t t) (if negb (Z.land y 1 =? 0) then fmul res t else res) (Z.shiftr y 1)
    end.
  Definition pow_impl (x y : F) : F := pow_loop (S (Z.to_nat (bit_length (toZ y)))) x f1 (toZ y).

  (* builtin.rs:327-364: the two functions call each other at most once, since MODULUS - k <= MODULUS / 2 when
     k > MODULUS / 2; [shift_amount] is the common computation of the shift.  None: the mutual recursion would go on *)
  Definition shift_amount (k : Z) : Z := if Z.shiftr k 64 =? 0 then k else bit_length p.
  Definition shl_direct (x k : Z) : Z :=
    let shift := shift_amount k in
    if 256 <=? shift then 0
    else Z.land (u256 (Z.shiftl x shift)) (u256 (Z.shiftl 1 (bit_length p)) - 1).
  Definition shr_direct (x k : Z) : Z :=
    let shift := shift_amount k in
    if 256 <=? shift then 0 else Z.shiftr x shift.
  Definition shift_l (x k : Z) : option Z :=
    if k <=? p / 2 then Some (shl_direct x k)
    else if p - k <=? p / 2 then Some (shr_direct x (p - k)) else None.
  Definition shift_r (x k : Z) : option Z :=
    if k <=? p / 2 then Some (shr_direct x k)
    else if p - k <=? p / 2 then Some (shl_direct x (p - k)) else None.

  (* builtin.rs:235-245: binop_hint, binop_hint_on_u256; None = index out of bounds *)
  Definition on_u256 (f : Z -> Z -> option Z) (x y : F) : option F :=
    let* z := f (toZ x) (toZ y) in Some (ofZ z).
  Definition binop_hint (args : list F) (f : F -> F -> option F) : option (list F) :=
    match args with x :: y :: _ => let* z := f x y in Some [z] | _ => None end.
  Definition nz (x : F) : bool := negb (is0 F x).

  (* builtin.rs:166-233 : impl_builtin_hint; None = panic.  The field's < is that of the canonical representatives *)
  Definition impl_builtin_hint (h : Builtin) (n : nat) (args : list F) : option (list F) :=
    match h with
    | HIdentity => Some (firstn n args)
    | HDiv => binop_hint args (fun x y => Some (if is0 F y then f0 else fmul x (finv y)))
    | HEq => binop_hint args (fun x y => Some (fbool (feqb x y)))
    | HNotEq => binop_hint args (fun x y => Some (fbool (negb (feqb x y))))
    | HBoolOr => binop_hint args (fun x y => Some (fbool (nz x || nz y)))
    | HBoolAnd => binop_hint args (fun x y => Some (fbool (nz x && nz y)))
    | HBitOr => binop_hint args (on_u256 (fun x y => Some (Z.lor x y)))
    | HBitAnd => binop_hint args (on_u256 (fun x y => Some (Z.land x y)))
    | HBitXor => binop_hint args (on_u256 (fun x y => Some (Z.lxor x y)))
    | HSelect => match args with c :: x :: y :: _ => Some [if nz c then x else y] | _ => None end
    | HPow => binop_hint args (fun x y => Some (pow_impl x y))
    | HIntDiv => binop_hint args (on_u256 (fun x y => Some (if y =? 0 then 0 else x / y)))
    | HMod => binop_hint args (on_u256 (fun x y => Some (if y =? 0 then 0 else x mod y)))
    | HShiftL => binop_hint args (on_u256 shift_l)
    | HShiftR => binop_hint args (on_u256 shift_r)
    | HLesserEq => binop_hint args (fun x y => Some (fbool (toZ x <=? toZ y)))
    | HGreaterEq => binop_hint args (fun x y => Some (fbool (toZ y <=? toZ x)))
    | HLesser => binop_hint args (fun x y => Some (fbool (toZ x <? toZ y)))
    | HGreater => binop_hint args (fun x y => Some (fbool (toZ y <? toZ x)))
    | HToBinary => match args with x :: _ => to_binary x n | _ => None end
    end.
  (* hints/mod.rs:10-20 safe_impl: builtin ids are handled by the compiler, all others by the hint caller *)
  Definition hint_impl (user : N -> nat -> list F -> option (list F)) (id : N) (n : nat) (args : list F) : option (list F) :=
    match builtin_of id with Some h => impl_builtin_hint h n args | None => user id n args end.

  (* source/mod.rs:74-93 *)
  Inductive UnOp := UDiv | UPow | UIntDiv | UMod | UShiftL | UShiftR | ULesserEq | UGreaterEq | ULesser | UGreater
  | UEq | UNotEq | UBoolOr | UBoolAnd | UBitOr | UBitAnd | UBitXor.
  (* source/mod.rs:412-500; None = an error is reported *)
  Definition unop_eval (op : UnOp) (x y : F) : option F :=
    match op with
    | UDiv => if is0 F y then None else Some (fmul x (finv y))
    | UPow => Some (pow_impl x y)
    | UIntDiv => on_u256 (fun x y => if y =? 0 then None else Some (x / y)) x y
    | UMod => on_u256 (fun x y => if y =? 0 then None else Some (x mod y)) x y
    | UShiftL => on_u256 shift_l x y
    | UShiftR => on_u256 shift_r x y
    | ULesserEq => on_u256 (fun x y => Some (Z.b2z (x <=? y))) x y
    | UGreaterEq => on_u256 (fun x y => Some (Z.b2z (y <=? x))) x y
    | ULesser => on_u256 (fun x y => Some (Z.b2z (x <? y))) x y
    | UGreater => on_u256 (fun x y => Some (Z.b2z (y <? x))) x y
    | UEq => Some (fbool (feqb x y))
    | UNotEq => Some (fbool (negb (feqb x y)))
    | UBoolOr => Some (fbool (nz x || nz y))
    | UBoolAnd => Some (fbool (nz x && nz y))
    | UBitOr => on_u256 (fun x y => Some (Z.lor x y)) x y
    | UBitAnd => on_u256 (fun x y => Some (Z.land x y)) x y
    | UBitXor => on_u256 (fun x y => Some (Z.lxor x y)) x y
    end.
  (* hint_normalize.rs:9-30 (op_to_hint_id) *)
  Definition op_hint (op : UnOp) : Builtin :=
    match op with
    | UDiv => HDiv | UPow => HPow | UIntDiv => HIntDiv | UMod => HMod | UShiftL => HShiftL | UShiftR => HShiftR
    | ULesserEq => HLesserEq | UGreaterEq => HGreaterEq | ULesser => HLesser | UGreater => HGreater | UEq => HEq
    | UNotEq => HNotEq | UBoolOr => HBoolOr | UBoolAnd => HBoolAnd | UBitOr => HBitOr | UBitAnd => HBitAnd
    | UBitXor => HBitXor
    end.

  (* ---------------- facts ---------------- *)
  Lemma builtin_of_id h : builtin_of (builtin_id h) = Some h.
  Proof. destruct h; reflexivity. Qed.
  Lemma builtin_id_inj a b : builtin_id a = builtin_id b -> a = b.
  Proof. intros H. pose proof (builtin_of_id a) as Ha. rewrite H, builtin_of_id in Ha. congruence. Qed.
  Lemma builtin_of_some id h : builtin_of id = Some h -> id = builtin_id h.
  Proof.
    unfold builtin_of. destruct (_ <? _)%N; [discriminate|]. destruct (_ <? _)%N; [discriminate|].
    intros H. apply find_some in H. destruct H as [_ H]. apply N.eqb_eq in H; auto.
  Qed.

  (* reading back n bits, least significant first *)
  Fixpoint of_bits (l : list Z) : Z := match l with [] => 0 | b :: l => b + 2 * of_bits l end.
  Fixpoint from_bits (l : list F) : F := match l with [] => f0 | b :: l => fadd b (fmul (ofZ 2) (from_bits l)) end.
  Definition bits_of (z : Z) (n : nat) : list Z := map (fun i => (z / 2 ^ Z.of_nat i) mod 2) (seq 0 n).

  Lemma bits_of_S z n : bits_of z (S n) = z mod 2 :: bits_of (z / 2) n.
  Proof.
    unfold bits_of. cbn [seq map]. f_equal. { rewrite Z.pow_0_r, Z.div_1_r; auto. }
    rewrite <- seq_shift, map_map. apply map_ext. intros i. f_equal.
    replace (Z.of_nat (S i)) with (1 + Z.of_nat i) by lia. rewrite Z.pow_add_r by lia. rewrite Z.pow_1_r.
    rewrite Z.div_div by lia. auto.
  Qed.
  Lemma to_binary_loop_spec n : forall y, 0 <= y ->
    to_binary_loop n y = (map (fun b => ofZ b) (bits_of y n), y / 2 ^ Z.of_nat n).
  Proof.
    induction n as [|n IH]; intros y Hy.
    - cbn. rewrite Z.div_1_r. auto.
    - cbn [to_binary_loop]. rewrite Z.shiftr_div_pow2, Z.pow_1_r by lia. rewrite IH by (apply Z.div_pos; lia).
      rewrite bits_of_S. cbn [map]. f_equal.
      + f_equal. f_equal. change 1 with (Z.ones 1). rewrite Z.land_ones by lia. auto.
      + rewrite Z.div_div by (try apply Z.pow_pos_nonneg; lia). f_equal.
        replace (Z.of_nat (S n)) with (1 + Z.of_nat n) by lia. rewrite Z.pow_add_r by lia. auto.
  Qed.
  Lemma to_binary_spec x n : to_binary x n =
    if toZ x <? 2 ^ Z.of_nat n then Some (map (fun b => ofZ b) (bits_of (toZ x) n)) else None.
  Proof.
    unfold to_binary. destruct (toZ_range F x) as [H0 _]. rewrite to_binary_loop_spec by auto.
    assert (0 < 2 ^ Z.of_nat n) by (apply Z.pow_pos_nonneg; lia).
    destruct (Z.ltb_spec (toZ x) (2 ^ Z.of_nat n)).
    - rewrite Z.div_small by lia. auto.
    - destruct (Z.eqb_spec (toZ x / 2 ^ Z.of_nat n) 0) as [E|]; auto.
      apply Z.div_small_iff in E; lia.
  Qed.
  Lemma of_bits_range l : Forall (fun b => b = 0 \/ b = 1) l -> 0 <= of_bits l < 2 ^ Z.of_nat (length l).
  Proof.
    induction l as [|b l IH]; intros H; [cbn; lia|]. inversion H; subst. specialize (IH H3).
    cbn [of_bits length]. replace (Z.of_nat (S (length l))) with (1 + Z.of_nat (length l)) by lia.
    rewrite Z.pow_add_r by lia. rewrite Z.pow_1_r. lia.
  Qed.
  Lemma of_bits_bits n : forall z, 0 <= z < 2 ^ Z.of_nat n -> of_bits (bits_of z n) = z.
  Proof.
    induction n as [|n IH]; intros z Hz; [cbn in *; lia|]. rewrite bits_of_S. cbn [of_bits].
    replace (Z.of_nat (S n)) with (1 + Z.of_nat n) in Hz by lia. rewrite Z.pow_add_r in Hz by lia.
    rewrite IH. rewrite Z.add_comm. rewrite <- Z.div_mod by lia. auto.
    split. apply Z.div_pos; lia. apply Z.div_lt_upper_bound; lia.
  Qed.
  Lemma bits_of_01 z n : Forall (fun b => b = 0 \/ b = 1) (bits_of z n).
  Proof.
    unfold bits_of. apply Forall_forall. intros b Hb. apply in_map_iff in Hb. destruct Hb as [i [<- _]].
    pose proof (Z.mod_pos_bound (z / 2 ^ Z.of_nat i) 2). lia.
  Qed.
  Lemma bits_of_length z n : length (bits_of z n) = n.
  Proof. unfold bits_of. rewrite map_length, seq_length. auto. Qed.
  Lemma from_bits_ofZ l : from_bits (map (fun b => ofZ b) l) = ofZ (of_bits l).
  Proof. induction l as [|b l IH]; cbn [from_bits map of_bits]. rewrite ofZ_0; auto. rewrite IH, ofZ_add, ofZ_mul. auto. Qed.

  (* x * x * ... (k times) *)
  Fixpoint fpow (x : F) (k : nat) : F := match k with O => f1 | S k => fmul x (fpow x k) end.
  Lemma fpow_add x a b : fpow x (a + b) = fmul (fpow x a) (fpow x b).
  Proof. induction a as [|a IH]; cbn [fpow Nat.add]. ring. rewrite IH. ring. Qed.
  Lemma fpow_sq x k : fpow (fmul x x) k = fpow x (2 * k).
  Proof. replace (2 * k)%nat with (k + k)%nat by lia. rewrite fpow_add. induction k as [|k IH]; cbn [fpow]; [ring|]. rewrite IH; ring. Qed.
  Lemma pow_loop_spec fuel : forall t res y, 0 <= y < 2 ^ (Z.of_nat fuel - 1) -> (1 <= fuel)%nat ->
    pow_loop fuel t res y = fmul res (fpow t (Z.to_nat y)).
  Proof.
    induction fuel as [|fuel IH]; intros t res y Hy Hf; [lia|]. cbn [pow_loop].
    destruct (Z.eqb_spec y 0) as [->|Hne]. { cbn. ring. }
    assert (Hf2 : (1 <= fuel)%nat). { destruct fuel; [cbn in Hy; lia|lia]. }
    rewrite Z.shiftr_div_pow2, Z.pow_1_r by lia.
    replace (Z.of_nat (S fuel) - 1) with (1 + (Z.of_nat fuel - 1)) in Hy by lia. rewrite Z.pow_add_r, Z.pow_1_r in Hy by lia.
    rewrite IH; auto. 2:{ split. apply Z.div_pos; lia. apply Z.div_lt_upper_bound; lia. }
    rewrite fpow_sq. change 1 with (Z.ones 1). rewrite Z.land_ones by lia. rewrite Z.pow_1_r.
    pose proof (Z.div_mod y 2 ltac:(lia)) as Hd. pose proof (Z.mod_pos_bound y 2 ltac:(lia)) as Hm.
    assert (0 <= y / 2) by (apply Z.div_pos; lia).
    destruct (Z.eqb_spec (y mod 2) 0) as [E|E]; cbn [negb].
    - replace (Z.to_nat y) with (2 * Z.to_nat (y / 2))%nat by lia. auto.
    - replace (Z.to_nat y) with (S (2 * Z.to_nat (y / 2)))%nat by lia. cbn [fpow]. ring.
  Qed.
  Lemma pow_impl_spec x y : pow_impl x y = fpow x (Z.to_nat (toZ y)).
  Proof.
    unfold pow_impl. destruct (toZ_range F y) as [H0 _]. rewrite pow_loop_spec; [ring| |lia]. split; auto.
    unfold bit_length. destruct (Z.eqb_spec (toZ y) 0) as [->|Hne]; [cbn; lia|].
    assert (0 <= Z.log2 (toZ y)) by apply Z.log2_nonneg.
    replace (Z.of_nat (S (Z.to_nat (Z.log2 (toZ y) + 1))) - 1) with (Z.log2 (toZ y) + 1) by lia.
    apply Z.log2_spec; lia.
  Qed.

  Hypothesis Hp : p < 2 ^ 254.     (* every supported field: at most 254 bits *)
  Hypothesis Hp1 : 1 < p.
  Lemma bit_length_bound z : 0 <= z < p -> z < 2 ^ bit_length p.
  Proof.
    intros H. unfold bit_length. destruct (Z.eqb_spec p 0); [lia|]. pose proof (Z.log2_spec p ltac:(lia)). unfold Z.succ in *. lia.
  Qed.
  Lemma bit_length_small : 0 <= bit_length p <= 254.
  Proof.
    unfold bit_length. destruct (Z.eqb_spec p 0); [lia|]. pose proof (Z.log2_nonneg p).
    assert (Z.log2 p < 254) by (apply Z.log2_lt_pow2; lia). lia.
  Qed.
  Lemma shift_amount_big k : 0 <= k -> shift_amount k = k \/ (2 ^ 64 <= k /\ shift_amount k = bit_length p).
  Proof.
    intros Hk. unfold shift_amount. rewrite Z.shiftr_div_pow2 by lia. destruct (Z.eqb_spec (k / 2 ^ 64) 0) as [E|E]; auto.
    right. split; auto. destruct (Z_lt_dec k (2 ^ 64)); [|lia]. rewrite Z.div_small in E by lia. contradiction.
  Qed.
  Lemma pow2_ge a b : 0 <= a <= b -> 2 ^ a <= 2 ^ b.
  Proof. intros. apply Z.pow_le_mono_r; lia. Qed.
  Lemma shr_direct_spec x k : 0 <= x < p -> 0 <= k -> shr_direct x k = x / 2 ^ k.
  Proof.
    intros Hx Hk. unfold shr_direct. pose proof bit_length_small as Hb. pose proof (bit_length_bound x Hx) as Hxb.
    destruct (shift_amount_big k Hk) as [->|[Hbig ->]].
    - destruct (Z.leb_spec 256 k) as [H|H].
      + rewrite Z.div_small; auto. split; [lia|]. pose proof (pow2_ge 254 k ltac:(lia)). lia.
      + apply Z.shiftr_div_pow2; lia.
    - destruct (Z.leb_spec 256 (bit_length p)); [lia|]. rewrite Z.shiftr_div_pow2 by lia.
      rewrite (Z.div_small x (2 ^ bit_length p)) by lia. rewrite Z.div_small; auto. split; [lia|].
      pose proof (pow2_ge 254 k ltac:(lia)). lia.
  Qed.
  Lemma shl_direct_spec x k : 0 <= x < p -> 0 <= k -> shl_direct x k = (x * 2 ^ k) mod 2 ^ bit_length p.
  Proof.
    intros Hx Hk. unfold shl_direct, u256. pose proof bit_length_small as Hb.
    assert (Hm : (Z.shiftl 1 (bit_length p)) mod 2 ^ 256 - 1 = Z.ones (bit_length p)).
    { rewrite Z.shiftl_1_l. rewrite Z.mod_small. unfold Z.ones. rewrite Z.shiftl_1_l. lia.
      split. apply Z.pow_nonneg; lia. apply Z.pow_lt_mono_r; lia. }
    rewrite Hm.
    assert (Hdiv : forall j, bit_length p <= j -> (x * 2 ^ j) mod 2 ^ bit_length p = 0).
    { intros j Hj. replace (2 ^ j) with (2 ^ (j - bit_length p) * 2 ^ bit_length p) by (rewrite <- Z.pow_add_r by lia; f_equal; lia).
      rewrite Z.mul_assoc. apply Z.mod_mul. apply Z.pow_nonzero; lia. }
    assert (Hgen : forall s, 0 <= s -> Z.land ((Z.shiftl x s) mod 2 ^ 256) (Z.ones (bit_length p)) = (x * 2 ^ s) mod 2 ^ bit_length p).
    { intros s Hs. rewrite Z.land_ones by lia. rewrite Z.shiftl_mul_pow2 by lia.
      replace (2 ^ 256) with (2 ^ bit_length p * 2 ^ (256 - bit_length p)) by (rewrite <- Z.pow_add_r by lia; f_equal; lia).
      rewrite Z.rem_mul_r by (try apply Z.pow_nonzero; try apply Z.pow_pos_nonneg; lia).
      rewrite Z.mul_comm. rewrite (Z.mul_comm (2 ^ bit_length p)). rewrite Z.mod_add by (apply Z.pow_nonzero; lia).
      rewrite Z.mod_mod by (apply Z.pow_nonzero; lia). rewrite Z.mul_comm; auto. }
    destruct (shift_amount_big k Hk) as [->|[Hbig ->]].
    - destruct (Z.leb_spec 256 k). rewrite Hdiv; lia. apply Hgen; auto.
    - destruct (Z.leb_spec 256 (bit_length p)); [lia|]. rewrite Hgen by lia. rewrite !Hdiv; lia.
  Qed.
End Hints.
