(* The field the circuits are over.  Models the trait FieldArith / FieldModulus used as CircuitField<C>
   (expander_compiler/src/field.rs; the arithmetic itself comes from an external crate and is not modelled:
   every prime field with canonical integer representatives is an instance of [Fld]). *)
From Verif Require Import Prelude.
From Coq Require Export Field Ring.
Local Open Scope Z_scope.

Record Fld := {
  car :> Type;
  f0 : car; f1 : car;
  fadd : car -> car -> car; fmul : car -> car -> car; fsub : car -> car -> car; fopp : car -> car;
  finv : car -> car; fdiv : car -> car -> car;
  feqb : car -> car -> bool;
  fth : field_theory f0 f1 fadd fmul fsub fopp fdiv finv (@eq car);
  feqb_spec : forall x y, feqb x y = true <-> x = y;
  fmod : Z;                                  (* MODULUS *)
  toZ : car -> Z;                            (* to_u256: canonical representative *)
  ofZ : Z -> car;                            (* from_u256 / from(u32) *)
  toZ_range : forall x, 0 <= toZ x < fmod;
  ofZ_toZ : forall x, ofZ (toZ x) = x;
  toZ_ofZ : forall z, toZ (ofZ z) = z mod fmod;
  ofZ_0 : ofZ 0 = f0; ofZ_1 : ofZ 1 = f1;
  ofZ_add : forall a b, ofZ (a + b) = fadd (ofZ a) (ofZ b);
  ofZ_mul : forall a b, ofZ (a * b) = fmul (ofZ a) (ofZ b)
}.
Arguments f0 {_}. Arguments f1 {_}. Arguments fadd {_}. Arguments fmul {_}. Arguments fsub {_}.
Arguments fopp {_}. Arguments finv {_}. Arguments fdiv {_}. Arguments feqb {_}. Arguments toZ {_}.
Arguments ofZ {_}.

Declare Scope fld_scope.
Delimit Scope fld_scope with F.
Infix "+" := fadd : fld_scope.
Infix "*" := fmul : fld_scope.
Infix "-" := fsub : fld_scope.
Notation "- x" := (fopp x) : fld_scope.
Infix "=?" := feqb : fld_scope.
Notation "0" := f0 : fld_scope.
Notation "1" := f1 : fld_scope.

Section FieldLemmas.
  Variable F : Fld.
  Add Field Ffield : (fth F).
  Open Scope fld_scope.
  Implicit Types x y : F.

  Lemma feqb_refl x : (x =? x) = true.
  Proof. apply feqb_spec; auto. Qed.
  Lemma feqb_false x y : (x =? y) = false <-> x <> y.
  Proof.
    destruct (x =? y) eqn:E; split; intros H; auto; try discriminate.
    - apply feqb_spec in E; contradiction.
    - intros E2. apply feqb_spec in E2. congruence.
  Qed.
  Lemma feqb_reflect x y : reflect (x = y) (x =? y).
  Proof. destruct (x =? y) eqn:E; constructor. apply feqb_spec; auto. apply feqb_false; auto. Qed.
  Lemma f1_neq_f0 : (1 : F) <> 0.
  Proof. apply (F_1_neq_0 (fth F)). Qed.
  Lemma f_dec x y : {x = y} + {x <> y}.
  Proof. destruct (feqb_reflect x y); auto. Qed.
  Lemma finv_l x : x <> 0 -> finv x * x = 1.
  Proof. apply (Finv_l (fth F)). Qed.
  Lemma fmul_0 x y : x * y = 0 <-> x = 0 \/ y = 0.
  Proof.
    split.
    - intros H. destruct (f_dec x 0); auto. right.
      assert (E : y = finv x * x * y) by (rewrite finv_l by auto; ring).
      rewrite E. transitivity (finv x * (x * y)); [ring|]. rewrite H; ring.
    - intros [->| ->]; ring.
  Qed.
  Lemma fsub_0 x y : x - y = 0 <-> x = y.
  Proof. split; intros H. transitivity (x - y + y); [ring|]. rewrite H; ring. subst; ring. Qed.
  Lemma fadd_cancel_l x y z : x + y = x + z -> y = z.
  Proof. intros H. transitivity (x + y - x); [ring|]. rewrite H; ring. Qed.

  Definition is0 (x : F) : bool := x =? 0.
  Lemma is0_spec x : is0 x = true <-> x = 0.
  Proof. apply feqb_spec. Qed.

  (* sum of a list *)
  Definition fsum (l : list F) : F := fold_right fadd 0 l.
  Lemma fsum_app l1 l2 : fsum (l1 ++ l2) = fsum l1 + fsum l2.
  Proof. induction l1 as [|x t IH]; simpl; [ring|]. rewrite IH; ring. Qed.
  Lemma fsum_perm l1 l2 : Permutation l1 l2 -> fsum l1 = fsum l2.
  Proof. induction 1; simpl; auto; [congruence | ring | congruence]. Qed.
  Lemma fsum_mul c l : fsum (map (fmul c) l) = c * fsum l.
  Proof. induction l as [|x t IH]; simpl; [ring|]. rewrite IH; ring. Qed.
  Definition fprod (l : list F) : F := fold_right fmul 1 l.
  Lemma fprod_app l1 l2 : fprod (l1 ++ l2) = fprod l1 * fprod l2.
  Proof. induction l1 as [|x t IH]; simpl; [ring|]. rewrite IH; ring. Qed.
  Lemma fprod_perm l1 l2 : Permutation l1 l2 -> fprod l1 = fprod l2.
  Proof. induction 1; simpl; auto; [congruence | ring | congruence]. Qed.

  Lemma ofZ_opp a : ofZ (Z.opp a) = - (ofZ a : F).
  Proof.
    assert (H : (ofZ (Z.opp a) : F) + ofZ a = 0).
    { rewrite <- ofZ_add. replace (Z.opp a + a)%Z with 0%Z by lia. apply ofZ_0. }
    transitivity (ofZ (Z.opp a) + ofZ a - (ofZ a : F)); [ring|]. rewrite H; ring.
  Qed.
  Lemma fmod_pos : (1 < fmod F)%Z.
  Proof.
    destruct (Z.eq_dec (fmod F) 1) as [E|E].
    - exfalso. apply f1_neq_f0.
      rewrite <- (ofZ_toZ _ (1 : F)), <- (ofZ_toZ _ (0 : F)).
      pose proof (toZ_range F 1). pose proof (toZ_range F 0). f_equal; lia.
    - pose proof (toZ_range F 0). lia.
  Qed.
  Lemma toZ_inj x y : toZ x = toZ y -> x = y.
  Proof. intros H. rewrite <- (ofZ_toZ _ x), <- (ofZ_toZ _ y), H; auto. Qed.
  Lemma toZ_0 : toZ (0 : F) = 0%Z.
  Proof. rewrite <- ofZ_0, toZ_ofZ. apply Z.mod_0_l. pose proof fmod_pos; lia. Qed.
  Lemma toZ_1 : toZ (1 : F) = 1%Z.
  Proof. rewrite <- ofZ_1, toZ_ofZ. apply Z.mod_1_l. apply fmod_pos. Qed.
  Lemma ofZ_inj_small a b : (0 <= a < fmod F)%Z -> (0 <= b < fmod F)%Z -> (ofZ a : F) = ofZ b -> a = b.
  Proof.
    intros Ha Hb H. apply (f_equal toZ) in H. rewrite !toZ_ofZ in H. rewrite !Z.mod_small in H; auto.
  Qed.
  Lemma toZ_ofZ_small a : (0 <= a < fmod F)%Z -> toZ (ofZ a : F) = a.
  Proof. intros H. rewrite toZ_ofZ. apply Z.mod_small; auto. Qed.
  Lemma toZ_add x y : toZ (x + y) = ((toZ x + toZ y) mod fmod F)%Z.
  Proof. rewrite <- (ofZ_toZ _ x), <- (ofZ_toZ _ y), <- ofZ_add, toZ_ofZ, !ofZ_toZ; auto. Qed.
  Lemma toZ_mul x y : toZ (x * y) = ((toZ x * toZ y) mod fmod F)%Z.
  Proof. rewrite <- (ofZ_toZ _ x), <- (ofZ_toZ _ y), <- ofZ_mul, toZ_ofZ, !ofZ_toZ; auto. Qed.
End FieldLemmas.
