(* Prime fields: an [Fld] for every prime p; the concrete fields used in examples. *)
From Verif Require Import Prelude Field.
From Coq Require Import Znumtheory Eqdep_dec.
Local Open Scope Z_scope.

(* extended Euclid with logarithmic fuel *)
Fixpoint egcd (n : nat) (a b : Z) : Z * Z :=
  match n with
  | O => (1, 0)
  | S n => if b =? 0 then (1, 0) else
           let (u, v) := egcd n b (a mod b) in (v, u - a / b * v)
  end.
Lemma egcd_spec n : forall a b, 0 <= b < a -> a * b < 2 ^ Z.of_nat n ->
  let (u, v) := egcd (S n) a b in u * a + v * b = Z.gcd a b.
Proof.
  induction n as [|n IH]; intros a b Hb Hn.
  - simpl in Hn. cbn [egcd]. assert (b = 0) by nia. subst. rewrite Z.eqb_refl, Z.gcd_0_r, Z.abs_eq; lia.
  - cbn [egcd]. destruct (Z.eqb_spec b 0).
    + subst. rewrite Z.gcd_0_r, Z.abs_eq; lia.
    + pose proof (Z.mod_pos_bound a b ltac:(lia)) as Hm.
      pose proof (Z.div_mod a b ltac:(lia)) as Hd.
      assert (Hq : 1 <= a / b) by (apply Z.div_le_lower_bound; lia).
      assert (H2 : b * (a mod b) < 2 ^ Z.of_nat n).
      { rewrite Nat2Z.inj_succ, Z.pow_succ_r in Hn by lia. nia. }
      specialize (IH b (a mod b) ltac:(lia) H2). cbn [egcd] in IH.
      destruct (if a mod b =? 0 then (1, 0) else _) as [u v].
      rewrite (Z.gcd_comm b (a mod b)), Z.gcd_mod in IH by lia.
      rewrite (Z.gcd_comm a b), <- IH. nia.
Qed.

Section Zp.
  Variable p : Z.
  Hypothesis Hp : prime p.
  Definition zp := {z : Z | (z mod p =? z) = true}.
  Lemma p_pos : 1 < p. Proof. destruct Hp; lia. Qed.
  Definition mk (z : Z) : zp.
    exists (z mod p). rewrite Z.mod_mod; [apply Z.eqb_refl | pose proof p_pos; lia].
  Defined.
  Lemma zp_eq (x y : zp) : proj1_sig x = proj1_sig y -> x = y.
  Proof. destruct x as [x hx], y as [y hy]; simpl; intros; subst. f_equal. apply UIP_dec, bool_dec. Qed.
  Lemma zp_val (x : zp) : proj1_sig x mod p = proj1_sig x.
  Proof. destruct x as [x hx]; simpl. apply Z.eqb_eq; auto. Qed.
  Lemma zp_range (x : zp) : 0 <= proj1_sig x < p.
  Proof. rewrite <- zp_val. apply Z.mod_pos_bound. pose proof p_pos; lia. Qed.
  Definition zinv (z : Z) : Z := snd (egcd (S (Z.to_nat (Z.log2 (p * z) + 1))) p (z mod p)).
  (* applied to canonical representatives only *)
  Lemma zinv_spec z : 0 < z < p -> (zinv z * z) mod p = 1.
  Proof.
    intros Hz. pose proof p_pos as Hpp. unfold zinv. rewrite (Z.mod_small z p) by lia.
    pose proof (egcd_spec (Z.to_nat (Z.log2 (p * z) + 1)) p z ltac:(lia)) as H.
    assert (Hb : p * z < 2 ^ Z.of_nat (Z.to_nat (Z.log2 (p * z) + 1))).
    { rewrite Z2Nat.id by (pose proof (Z.log2_nonneg (p*z)); lia).
      pose proof (Z.log2_spec (p*z) ltac:(nia)). rewrite Z.add_1_r. lia. }
    specialize (H Hb). destruct (egcd _ _ _) as [u v]. cbn [snd].
    assert (Hg : Z.gcd p z = 1).
    { apply Zgcd_1_rel_prime. apply rel_prime_sym, rel_prime_le_prime; auto. lia. }
    rewrite Hg in H. replace (v * z) with (1 + (- u) * p) by lia.
    rewrite Z.mod_add by lia. apply Z.mod_1_l; lia.
  Qed.
  Definition zp_inv (x : zp) : zp := mk (zinv (proj1_sig x)).
  Lemma mk_val z : proj1_sig (mk z) = z mod p. Proof. reflexivity. Qed.
  Lemma zp_field : field_theory (mk 0) (mk 1)
     (fun x y => mk (proj1_sig x + proj1_sig y)) (fun x y => mk (proj1_sig x * proj1_sig y))
     (fun x y => mk (proj1_sig x - proj1_sig y)) (fun x => mk (- proj1_sig x))
     (fun x y => mk (proj1_sig x * proj1_sig (zp_inv y))) zp_inv (@eq zp).
  Proof.
    pose proof p_pos as Hpp.
    constructor.
    - constructor; intros; apply zp_eq; rewrite ?mk_val.
      + rewrite Z.mod_0_l, Z.add_0_l by lia. apply zp_val.
      + f_equal; lia.
      + rewrite Zplus_mod_idemp_l, Zplus_mod_idemp_r. f_equal; lia.
      + rewrite Z.mod_1_l by lia. rewrite Z.mul_1_l. apply zp_val.
      + f_equal; lia.
      + rewrite Zmult_mod_idemp_l, Zmult_mod_idemp_r. f_equal; lia.
      + rewrite Zmult_mod_idemp_l, <- Zplus_mod. f_equal; lia.
      + rewrite Zplus_mod_idemp_r. f_equal; lia.
      + rewrite Zplus_mod_idemp_r. f_equal; lia.
    - intros H. apply (f_equal (@proj1_sig _ _)) in H. rewrite !mk_val, Z.mod_1_l, Z.mod_0_l in H; lia.
    - intros; reflexivity.
    - intros x Hx. apply zp_eq. unfold zp_inv. rewrite !mk_val, Zmult_mod_idemp_l, Z.mod_1_l by lia.
      apply zinv_spec. pose proof (zp_range x).
      destruct (Z.eq_dec (proj1_sig x) 0) as [E|E]; [|lia].
      exfalso. apply Hx. apply zp_eq. rewrite mk_val, Z.mod_0_l; lia.
  Qed.
  Definition ZpFld : Fld.
    refine {| car := zp; fth := zp_field; feqb := fun x y => proj1_sig x =? proj1_sig y;
              fmod := p; toZ := @proj1_sig _ _; ofZ := mk |}.
    - intros x y. rewrite Z.eqb_eq. split; [apply zp_eq | intros; subst; auto].
    - apply zp_range.
    - intros x. apply zp_eq. rewrite mk_val. apply zp_val.
    - intros; reflexivity.
    - reflexivity.
    - reflexivity.
    - intros a b. apply zp_eq. rewrite !mk_val. apply Zplus_mod.
    - intros a b. apply zp_eq. rewrite !mk_val. apply Zmult_mod.
  Defined.
End Zp.

(* primality by trial division *)
Fixpoint no_div (n : nat) (d p : Z) : bool :=
  match n with
  | O => p <? d * d
  | S n => if p <? d * d then true else
           if p mod d =? 0 then false else no_div n (d + 1) p
  end.
Lemma no_div_spec n : forall d p, 1 < d -> 1 < p -> (forall e, 1 < e < d -> ~ (e | p)) ->
  no_div n d p = true -> prime p.
Proof.
  induction n as [|n IH]; intros d p Hd Hp Hlow H; cbn [no_div] in H.
  1: assert (Hlt : p < d * d) by (apply Z.ltb_lt; auto).
  2: destruct (Z.ltb_spec p (d*d)) as [Hlt|Hge].
  1, 2: apply prime_alt; split; [auto|]; intros e He Hdiv;
    destruct (Z_lt_ge_dec e d) as [|Hge]; [eapply Hlow; [|exact Hdiv]; lia|];
    destruct Hdiv as [q Hq]; apply (Hlow q); [nia|]; exists e; lia.
  destruct (Z.eqb_spec (p mod d) 0); [discriminate|].
  apply (IH (d+1) p); auto; try lia.
  intros e He Hdiv. destruct (Z.eq_dec e d) as [->|Hne].
  - apply Zdivide_mod in Hdiv. contradiction.
  - apply (Hlow e); auto. lia.
Qed.
Lemma prime_check p : 1 < p -> no_div (Z.to_nat (Z.sqrt p + 1)) 2 p = true -> prime p.
Proof. intros Hp H. eapply no_div_spec; [| |  |exact H]; try lia. Qed.

Lemma prime_7 : prime 7. Proof. apply prime_check; [lia|reflexivity]. Qed.
Lemma prime_2' : prime 2. Proof. apply prime_check; [lia|reflexivity]. Qed.
Lemma prime_101 : prime 101. Proof. apply prime_check; [lia|reflexivity]. Qed.
Lemma prime_m31 : prime (2^31 - 1). Proof. apply prime_check; [lia|vm_compute; reflexivity]. Qed.
Definition F7 := ZpFld _ prime_7.
Definition F2 := ZpFld _ prime_2'.
Definition F101 := ZpFld _ prime_101.
Definition M31 := ZpFld _ prime_m31.

(* numerals of a field, for examples *)
Definition fz {F : Fld} (z : Z) : F := ofZ z.
Example m31_inv : toZ (fmul (finv (fz (F:=M31) 12345)) (fz 12345)) = 1.
Proof. vm_compute. reflexivity. Qed.

(* comparing results through their canonical representatives, so that examples reduce to integers *)
Definition zs {F : Fld} (l : list F) : list Z := map toZ l.
Lemma zs_eq {F : Fld} (l : list F) (z : list Z) : zs l = z -> l = map ofZ z.
Proof. intros <-. unfold zs. rewrite map_map. rewrite <- map_id at 1. apply map_ext. intros; rewrite ofZ_toZ; auto. Qed.
