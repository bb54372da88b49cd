(* Facts about the model of serialisation. *)
From Verif Require Import Prelude Field Expr Topo Hints Ir IrInst Layered InputMapping Witness Serde.
From Coq Require Import NArith Nnat.
Local Open Scope nat_scope.

(* deserialising what was serialised gives the value back and leaves the following bytes *)
Definition RT {A} (ser : A -> bytes) (de : Rd A) (ok : A -> Prop) := forall a rest, ok a -> de (ser a ++ rest) = Some (a, rest).
(* a successful read depends on the bytes consumed only *)
Definition PF {A} (de : Rd A) := forall l a r, de l = Some (a, r) -> exists p, l = p ++ r /\ forall x, de (p ++ x) = Some (a, x).

Lemma PF_ret {A} (a : A) : PF (ret a).
Proof. intros l b r H. inversion H; subst. exists []; auto. Qed.
Lemma PF_fail {A} : PF (@rfail A).
Proof. intros l b r H. discriminate. Qed.
Lemma PF_bind {A B} (p : Rd A) (k : A -> Rd B) : PF p -> (forall a, PF (k a)) -> PF (rbind p k).
Proof.
  intros Hp Hk l b r H. unfold rbind in H. destruct (p l) as [[a l1]|] eqn:E; [|discriminate].
  destruct (Hp _ _ _ E) as [p1 [-> H1]]. destruct (Hk a _ _ _ H) as [p2 [-> H2]].
  exists (p1 ++ p2). split; [rewrite app_assoc; auto|]. intros x. rewrite <- app_assoc. unfold rbind. rewrite H1. apply H2.
Qed.
Lemma PF_if {A} (b : bool) (p q : Rd A) : PF p -> PF q -> PF (if b then p else q).
Proof. destruct b; auto. Qed.
(* consequences *)
Lemma RT_truncated {A} (ser : A -> bytes) de ok a p x : RT ser de ok -> PF de -> ok a -> ser a = p ++ x -> x <> [] -> de p = None.
Proof.
  intros HR HP Hok E Hx. destruct (de p) as [[b r]|] eqn:D; auto. exfalso.
  destruct (HP _ _ _ D) as [q [-> Hq]]. specialize (HR a [] Hok). rewrite app_nil_r, E, <- app_assoc, Hq in HR.
  injection HR as _ H. destruct r; [|discriminate]. destruct x; [contradiction|discriminate].
Qed.

(* ------------------------------------------------------------ primitives *)
Lemma dec_enc k : RT (enc k) (dec k) (fun n => (n < 256 ^ N.of_nat k)%N).
Proof.
  induction k as [|k IH]; intros n rest Hn.
  - cbn in Hn. replace n with 0%N by lia. reflexivity.
  - cbn [enc dec app]. unfold rbind. rewrite IH.
    + unfold ret. do 2 f_equal. pose proof (N.div_mod n 256). lia.
    + rewrite Nat2N.inj_succ, N.pow_succ_r' in Hn. apply N.div_lt_upper_bound; lia.
Qed.
Lemma PF_dec k : PF (dec k).
Proof.
  induction k as [|k IH]; [apply PF_ret|]. intros l a r H. cbn [dec] in H. destruct l as [|b l]; [discriminate|].
  assert (HP : PF (v <- dec k ;; ret (b + 256 * v)%N)) by (apply PF_bind; auto; intros; apply PF_ret).
  destruct (HP _ _ _ H) as [p [-> Hp]]. exists (b :: p). split; auto.
Qed.
(* a successful read of k bytes below 256 shows the bytes of the number read *)
Lemma dec_inv k : forall l n r, Forall (fun b => (b < 256)%N) l -> dec k l = Some (n, r) -> l = enc k n ++ r.
Proof.
  induction k as [|k IH]; intros l n r Hb H; cbn [dec] in H.
  - inversion H; subst. reflexivity.
  - destruct l as [|b l]; [discriminate|]. inversion Hb as [|? ? Hb1 Hb2]; subst. unfold rbind in H. destruct (dec k l) as [[v l1]|] eqn:E; [|discriminate].
    unfold ret in H. injection H as Hn <-. assert (Hq : n = (b + v * 256)%N) by (rewrite <- Hn, (N.mul_comm v); reflexivity). cbn [enc app].
    assert (E1 : (n / 256 = v)%N) by (rewrite Hq, N.div_add by discriminate; rewrite N.div_small by auto; apply N.add_0_l).
    assert (E2 : (n mod 256 = b)%N) by (rewrite Hq, N.mod_add by discriminate; apply N.mod_small; auto).
    rewrite E1, E2. f_equal. apply IH; auto.
Qed.

Definition fit (x : nat) : Prop := (N.of_nat x < 2 ^ 64)%N.
Lemma rt_u8 : RT ser_u8 de_u8 (fun n => (n < 256)%N).
Proof. intros n rest H. apply dec_enc; auto. Qed.
Lemma rt_u64 : RT ser_u64 de_u64 (fun n => (n < 2 ^ 64)%N).
Proof. intros n rest H. apply dec_enc; auto. Qed.
Lemma rt_usize : RT ser_usize de_usize fit.
Proof. intros n rest H. unfold de_usize, ser_usize, rbind. rewrite rt_u64 by auto. unfold ret. rewrite Nat2N.id. auto. Qed.
Lemma rt_bool : RT ser_bool de_bool (fun _ => True).
Proof. intros b rest _. unfold de_bool, ser_bool, rbind. rewrite rt_u8 by (destruct b; lia). destruct b; auto. Qed.
Lemma rt_u256 : RT ser_u256 de_u256 (fun z => (0 <= z < 2 ^ 256)%Z).
Proof.
  intros z rest H. unfold de_u256, ser_u256, rbind. rewrite dec_enc.
  - unfold ret. rewrite Z2N.id by lia. auto.
  - change (256 ^ N.of_nat 32)%N with (Z.to_N (2 ^ 256)). apply Z2N.inj_lt; lia.
Qed.
Lemma rt_n {A} (f : A -> bytes) (p : Rd A) ok l : RT f p ok -> Forall ok l -> forall rest, de_n (length l) p (flat_map f l ++ rest) = Some (l, rest).
Proof.
  intros H. induction 1 as [|a l Ha Hl IH]; intros rest; [reflexivity|]. cbn [length de_n flat_map]. rewrite <- app_assoc. unfold rbind.
  rewrite H by auto. rewrite IH. auto.
Qed.
Lemma rt_vec {A} (f : A -> bytes) (p : Rd A) ok : RT f p ok -> RT (ser_vec f) (de_vec p) (fun l => fit (length l) /\ Forall ok l).
Proof. intros H l rest [H1 H2]. unfold de_vec, ser_vec, rbind. rewrite <- app_assoc, rt_usize by auto. apply (rt_n f p ok); auto. Qed.
Lemma rt_pair {A B} (f : A -> bytes) (g : B -> bytes) p q ok1 ok2 : RT f p ok1 -> RT g q ok2 ->
  RT (ser_pair f g) (de_pair p q) (fun x => ok1 (fst x) /\ ok2 (snd x)).
Proof. intros H1 H2 [a b] rest [Ha Hb]. unfold de_pair, ser_pair, rbind. cbn [fst snd] in *. rewrite <- app_assoc, H1, H2 by auto. auto. Qed.
Lemma PF_n {A} (p : Rd A) n : PF p -> PF (de_n n p).
Proof. intros H. induction n; cbn [de_n]; [apply PF_ret|]. repeat (apply PF_bind; auto; intros). apply PF_ret. Qed.
Lemma PF_usize : PF de_usize. Proof. apply PF_bind; [apply PF_dec|intros; apply PF_ret]. Qed.
Lemma PF_u8 : PF de_u8. Proof. apply PF_dec. Qed.
Lemma PF_u64 : PF de_u64. Proof. apply PF_dec. Qed.
Lemma PF_u256 : PF de_u256. Proof. apply PF_bind; [apply PF_dec|intros; apply PF_ret]. Qed.
Lemma PF_vec {A} (p : Rd A) : PF p -> PF (de_vec p).
Proof. intros H. apply PF_bind; [apply PF_usize|]. intros; apply PF_n; auto. Qed.
Ltac pf := repeat first [apply PF_usize | apply PF_u8 | apply PF_u64 | apply PF_u256 | apply PF_ret | apply PF_fail | assumption
  | apply PF_vec | apply PF_n | apply PF_if | apply PF_bind; [|intros ?] ].
Lemma PF_bool : PF de_bool. Proof. unfold de_bool; pf. Qed.
Lemma PF_pair {A B} (p : Rd A) (q : Rd B) : PF p -> PF q -> PF (de_pair p q).
Proof. intros; unfold de_pair; pf. Qed.

(* maps *)
Lemma map_insert_new {B} k (v : B) m : ~ In k (keys m) -> map_insert k v m = m ++ [(k, v)].
Proof.
  induction m as [|[k' v'] m IH]; intros H; cbn; auto. cbn in H. destruct (Nat.eqb_spec k k'); [subst; exfalso; apply H; auto|]. rewrite IH; auto.
Qed.
Lemma fold_insert {B} (l m : list (nat * B)) : NoDup (keys (m ++ l)) ->
  fold_left (fun m p => map_insert (fst p) (snd p) m) l m = m ++ l.
Proof.
  revert m; induction l as [|[k v] l IH]; intros m H; cbn [fold_left fst snd]; [rewrite app_nil_r; auto|].
  rewrite map_insert_new.
  - rewrite IH; rewrite <- app_assoc; auto.
  - unfold keys in *. rewrite map_app in H. cbn in H. apply NoDup_remove_2 in H. intros Hi. apply H. apply in_or_app; auto.
Qed.
Lemma rt_map {B} (g : B -> bytes) q ok : RT g q ok ->
  RT (ser_vec (ser_pair ser_usize g)) (de_map q) (fun m => NoDup (keys m) /\ fit (length m) /\ Forall (fun p => fit (fst p) /\ ok (snd p)) m).
Proof.
  intros H m rest [H1 [H2 H3]]. unfold de_map, rbind. rewrite (rt_vec _ _ _ (rt_pair _ _ _ _ _ _ rt_usize H)) by auto.
  unfold ret. rewrite (fold_insert m []) by auto. auto.
Qed.
Lemma PF_map {B} (q : Rd B) : PF q -> PF (de_map q).
Proof. intros. unfold de_map. apply PF_bind; [apply PF_vec, PF_pair; auto; apply PF_usize|intros; apply PF_ret]. Qed.

Section SF.
  Context {F : Fld}.
  Variable w : nat.
  Hypothesis Hw : (fmod F <= 256 ^ Z.of_nat w)%Z.
  Hypothesis Hmod : (fmod F < 2 ^ 256)%Z.
  Notation ser_f := (@ser_f F w). Notation de_f := (@de_f F w).

  Lemma rt_f : RT ser_f de_f (fun _ => True).
  Proof.
    intros x rest _. unfold de_f, ser_f, rbind. pose proof (toZ_range F x) as Hr. rewrite dec_enc.
    - rewrite Z2N.id by lia. rewrite (proj2 (Z.ltb_lt _ _)) by lia. rewrite ofZ_toZ. auto.
    - replace (256 ^ N.of_nat w)%N with (Z.to_N (256 ^ Z.of_nat w)). apply Z2N.inj_lt; lia.
      rewrite Z2N.inj_pow by lia. f_equal. lia.
  Qed.
  Lemma PF_f : PF de_f.
  Proof. unfold de_f. apply PF_bind; [apply PF_dec|]. intros. pf. Qed.
  Ltac pff := repeat first [apply PF_f | apply PF_usize | apply PF_u8 | apply PF_u64 | apply PF_u256 | apply PF_bool | apply PF_ret | apply PF_fail | assumption
  | apply PF_vec | apply PF_n | apply PF_pair | apply PF_if | apply PF_bind; [|intros ?] ].

  Definition fit_coef (c : Coef F) : Prop := match c with CPub i => fit i | _ => True end.
  Lemma rt_coef : RT (ser_coef w) (de_coef w) fit_coef.
  Proof.
    intros c rest H. unfold de_coef, ser_coef. destruct c; rewrite <- ?app_assoc; unfold rbind; rewrite rt_u8 by lia; cbn [N.eqb Pos.eqb].
    rewrite rt_f; auto. auto. rewrite rt_usize; auto.
  Qed.
  Lemma PF_coef : PF (de_coef (F := F) w). Proof. unfold de_coef. pff. Qed.

  (* ------------------------------------------------------------ layered *)
  Section Cross.
    Variable cross : bool.
    Definition fit_inp (i : Inp) : Prop := fit (il i) /\ fit (io i) /\ (cross = false -> il i = 0).
    Definition fit_iu (l : list nat) : Prop := fit (length l) /\ Forall fit l /\ (cross = false -> length l = 1).
    Definition fit_gate {A} (ok : A -> Prop) (g : @Gate F A) : Prop := ok (g_in g) /\ fit (g_out g) /\ fit_coef (g_coef g).
    Definition fit_list {A} (ok : A -> Prop) (l : list A) : Prop := fit (length l) /\ Forall ok l.
    Definition fit_alloc (a : Alloc) : Prop := fit_iu (a_in a) /\ fit (a_out a).
    Definition fit_child (ch : nat * list Alloc) : Prop := fit (fst ch) /\ fit_list fit_alloc (snd ch).
    Definition fit_seg (s : @Segment F) : Prop :=
      fit_iu (s_ins s) /\ fit (s_outs s) /\ fit_list fit_child (s_children s)
      /\ fit_list (fit_gate (fun p => fit_inp (fst p) /\ fit_inp (snd p))) (s_muls s) /\ fit_list (fit_gate fit_inp) (s_adds s)
      /\ fit_list (fit_gate (fun _ => True)) (s_consts s) /\ fit_list (fit_gate (fun p => fit (fst p) /\ fit_list fit_inp (snd p))) (s_customs s).
    (* every integer in the circuit is a usize; normal circuits have one input layer per segment, with number 0 *)
    Definition fit_layered (c : @LCircuit F) : Prop :=
      fit (l_pub c) /\ fit (l_actual c) /\ fit (l_zeroes c) /\ fit_list fit_seg (l_segs c) /\ fit_list fit (l_layers c).

    Lemma rt_inp : RT (ser_inp cross) (de_inp cross) fit_inp.
    Proof.
      intros [l o] rest [H1 [H2 H3]]. unfold de_inp, ser_inp. cbn [il io] in *. destruct cross; rewrite <- ?app_assoc; unfold rbind; rewrite !rt_usize by auto; auto.
      rewrite H3; auto.
    Qed.
    Lemma rt_iu : RT (ser_iu cross) (de_iu cross) fit_iu.
    Proof.
      intros l rest [H1 [H2 H3]]. unfold de_iu, ser_iu. destruct cross.
      - apply (rt_vec _ _ _ rt_usize); auto.
      - destruct l as [|x [|y l]]; try (specialize (H3 eq_refl); discriminate). cbn [hd]. inversion H2; subst. unfold rbind. rewrite rt_usize; auto.
    Qed.
    Lemma rt_gate {A} (f : A -> bytes) p ok : RT f p ok -> RT (ser_gate w f) (de_gate w p) (fit_gate ok).
    Proof.
      intros H [i o c] rest [H1 [H2 H3]]. unfold de_gate, ser_gate. cbn [g_in g_out g_coef] in *. rewrite <- !app_assoc. unfold rbind.
      rewrite H, rt_usize, rt_coef by auto. auto.
    Qed.
    Lemma rt_list {A} (f : A -> bytes) p ok : RT f p ok -> RT (ser_vec f) (de_vec p) (fit_list ok).
    Proof. apply rt_vec. Qed.
    Lemma rt_mul_in : RT (ser_mul_in cross) (de_mul_in cross) (fun p => fit_inp (fst p) /\ fit_inp (snd p)).
    Proof. intros [a b] rest [H1 H2]. unfold de_mul_in, ser_mul_in. cbn [fst snd] in *. rewrite <- app_assoc. unfold rbind. rewrite !rt_inp by auto. auto. Qed.
    Lemma rt_const_in : RT ser_const_in de_const_in (fun _ => True).
    Proof. intros [] rest _. reflexivity. Qed.
    Lemma rt_custom_in : RT (ser_custom_in cross) (de_custom_in cross) (fun p => fit (fst p) /\ fit_list fit_inp (snd p)).
    Proof.
      intros [t l] rest [H1 H2]. unfold de_custom_in, ser_custom_in. cbn [fst snd] in *. rewrite <- app_assoc. unfold rbind. rewrite rt_usize by auto.
      rewrite (rt_list _ _ _ rt_inp) by auto. auto.
    Qed.
    Lemma rt_alloc : RT (ser_alloc cross) (de_alloc cross) fit_alloc.
    Proof. intros [i o] rest [H1 H2]. unfold de_alloc, ser_alloc. cbn [a_in a_out] in *. rewrite <- app_assoc. unfold rbind. rewrite rt_iu, rt_usize by auto. auto. Qed.
    Lemma rt_child : RT (ser_child cross) (de_child cross) fit_child.
    Proof. intros a rest H. apply (rt_pair _ _ _ _ _ _ rt_usize (rt_list _ _ _ rt_alloc)). auto. Qed.
    Lemma rt_seg : RT (ser_seg w cross) (de_seg w cross) fit_seg.
    Proof.
      intros [i o ch m a c u] rest [H1 [H2 [H3 [H4 [H5 [H6 H7]]]]]]. unfold de_seg, ser_seg. cbn [s_ins s_outs s_children s_muls s_adds s_consts s_customs] in *.
      rewrite <- !app_assoc. unfold rbind at 1. rewrite rt_iu by auto. unfold rbind at 1. rewrite rt_usize by auto.
      unfold rbind at 1. rewrite (rt_list _ _ _ rt_child) by auto. unfold rbind at 1. rewrite (rt_list _ _ _ (rt_gate _ _ _ rt_mul_in)) by auto.
      unfold rbind at 1. rewrite (rt_list _ _ _ (rt_gate _ _ _ rt_inp)) by auto. unfold rbind at 1. rewrite (rt_list _ _ _ (rt_gate _ _ _ rt_const_in)) by auto.
      unfold rbind at 1. rewrite (rt_list _ _ _ (rt_gate _ _ _ rt_custom_in)) by auto. auto.
    Qed.
    Lemma rt_layered : RT (ser_layered w cross) (de_layered w cross) fit_layered.
    Proof.
      intros [p a z s l] rest [H1 [H2 [H3 [H4 H5]]]]. unfold de_layered, ser_layered. cbn [l_pub l_actual l_zeroes l_segs l_layers] in *.
      rewrite <- !app_assoc. unfold rbind at 1. rewrite rt_u64 by reflexivity. rewrite N.eqb_refl. cbn [negb].
      unfold rbind at 1. pose proof (fmod_pos F). rewrite rt_u256 by lia. rewrite Z.eqb_refl. cbn [negb].
      unfold rbind at 1. rewrite rt_usize by auto. unfold rbind at 1. rewrite rt_usize by auto. unfold rbind at 1. rewrite rt_usize by auto.
      unfold rbind at 1. rewrite (rt_list _ _ _ rt_seg) by auto. unfold rbind at 1. rewrite (rt_list _ _ _ rt_usize) by auto. auto.
    Qed.
    Lemma PF_inp : PF (de_inp cross). Proof. unfold de_inp; pff. Qed.
    Lemma PF_iu : PF (de_iu cross). Proof. unfold de_iu; pff. Qed.
    Lemma PF_gate {A} (p : Rd A) : PF p -> PF (de_gate (F := F) w p).
    Proof. intros. unfold de_gate. apply PF_bind; auto; intros. apply PF_bind; [pff|intros]. apply PF_bind; [apply PF_coef|intros; apply PF_ret]. Qed.
    Lemma PF_layered : PF (de_layered (F := F) w cross).
    Proof.
      unfold de_layered, de_seg, de_child, de_alloc, de_mul_in, de_const_in, de_custom_in.
      repeat first [apply PF_iu | apply PF_inp | apply PF_gate | apply PF_f | apply PF_usize | apply PF_u8 | apply PF_u64 | apply PF_u256 | apply PF_bool | apply PF_ret | apply PF_fail | assumption
        | apply PF_vec | apply PF_n | apply PF_pair | apply PF_if | apply PF_bind; [|intros ?] ].
    Qed.
    (* a file that is accepted starts with the magic number and the modulus of the field *)
    Lemma layered_header l c r : Forall (fun b => (b < 256)%N) l -> de_layered (F := F) w cross l = Some (c, r) ->
      exists t, l = ser_u64 MAGIC ++ ser_u256 (fmod F) ++ t.
    Proof.
      intros Hb H. unfold de_layered in H. unfold rbind at 1 in H. destruct (de_u64 l) as [[m l1]|] eqn:E; [|discriminate].
      apply dec_inv in E; auto. subst l. destruct (N.eqb_spec m MAGIC) as [->|]; [|discriminate]. cbn [negb] in H.
      unfold rbind at 1 in H. unfold de_u256, rbind at 1 in H. destruct (dec 32 l1) as [[n l2]|] eqn:E2; [|discriminate].
      apply Forall_app in Hb. destruct Hb as [_ Hb]. apply dec_inv in E2; auto. subst l1. unfold ret at 1 in H.
      destruct (Z.eqb_spec (Z.of_N n) (fmod F)) as [Ez|]; [|discriminate]. exists l2. unfold ser_u64, ser_u256. rewrite <- Ez, N2Z.id. auto.
    Qed.
  End Cross.

  (* ------------------------------------------------------------ IR *)
  Definition fit_lc (l : LinComb F) : Prop := fit_list (fun t => fit (fst t)) (lc_terms l).
  Definition fit_h (h : N) : Prop := (h < 2 ^ 64)%N.
  Definition fit_hinsn (i : HInsn F) : Prop :=
    match i with
    | HLin l => fit_lc l | HMul l => fit_list fit l | HHint h l n => fit_h h /\ fit_list fit l /\ fit n | HConst c => fit_coef c
    | HCall id l n => fit id /\ fit_list fit l /\ fit n | HGate t l => fit t /\ fit_list fit l
    end.
  Definition fit_sinsn (i : SInsn F) : Prop :=
    match i with
    | SLin l => fit_lc l | SMul l => fit_list fit l | SDiv x y _ => fit x /\ fit y | SBool x y _ => fit x /\ fit y | SIsZero x => fit x
    | SCommit l => fit_list fit l | SHint h l n => fit_h h /\ fit_list fit l /\ fit n | SConst c => fit_coef c
    | SCall id l n => fit id /\ fit_list fit l /\ fit n | SUnOp x y _ => fit x /\ fit y | SSelect c t e => fit c /\ fit t /\ fit e
    | SGate t l => fit t /\ fit_list fit l | SToBin x n => fit x /\ fit n
    end.
  Lemma combine_map {A B} (l : list (A * B)) : combine (map fst l) (map snd l) = l.
  Proof. induction l as [|[a b] l IH]; cbn; auto. rewrite IH; auto. Qed.
  Lemma rt_lc : RT (ser_lc w) (de_lc w) fit_lc.
  Proof.
    intros [ts c] rest [H1 H2]. unfold de_lc, ser_lc. cbn [lc_terms lc_const] in *. rewrite <- !app_assoc. unfold rbind at 1. rewrite rt_usize by auto.
    unfold rbind at 1. rewrite <- (map_length fst) at 1. rewrite (rt_n ser_usize de_usize fit) by (auto using rt_usize; apply Forall_map; auto).
    unfold rbind at 1. rewrite <- (map_length snd) at 1. rewrite (rt_n ser_f de_f (fun _ => True)) by (auto using rt_f; apply Forall_forall; auto).
    unfold rbind at 1. rewrite rt_f by auto. unfold ret. rewrite combine_map. auto.
  Qed.
  Lemma PF_lc : PF (de_lc (F := F) w). Proof. unfold de_lc. pff. Qed.
  Ltac step := first [rewrite rt_u8 by (cbn; lia) | rewrite rt_u64 by assumption | rewrite rt_usize by assumption | rewrite rt_lc by assumption | rewrite rt_coef by assumption
    | rewrite (rt_list _ _ _ rt_usize) by assumption | rewrite rt_bool by exact I].
  Lemma rt_hinsn : RT (ser_hinsn w) (de_hinsn w) fit_hinsn.
  Proof.
    intros i rest H. unfold de_hinsn, ser_hinsn. destruct i; cbn [fit_hinsn] in H; rewrite <- ?app_assoc; unfold rbind at 1; rewrite rt_u8 by lia; cbn [N.eqb Pos.eqb];
      repeat match goal with H : _ /\ _ |- _ => destruct H end; repeat (unfold rbind at 1; step); auto.
  Qed.
  Lemma rt_boolop : RT (fun op => ser_u8 (boolop_tag op)) de_boolop (fun _ => True).
  Proof. intros op rest _. unfold de_boolop, rbind. rewrite rt_u8 by (destruct op; cbn; lia). destruct op; auto. Qed.
  Lemma rt_unop : RT (fun op => ser_u8 (unop_tag op)) de_unop (fun _ => True).
  Proof. intros op rest _. unfold de_unop, rbind. rewrite rt_u8 by (destruct op; cbn; lia). destruct op; auto. Qed.
  Lemma rt_sinsn : RT (ser_sinsn w) (de_sinsn w) fit_sinsn.
  Proof.
    intros i rest H. unfold de_sinsn, ser_sinsn. destruct i; cbn [fit_sinsn] in H; rewrite <- ?app_assoc; unfold rbind at 1; rewrite rt_u8 by lia; cbn [N.eqb Pos.eqb];
      repeat match goal with H : _ /\ _ |- _ => destruct H end;
      repeat (unfold rbind at 1; first [step | rewrite (rt_boolop _ _ Logic.I) | rewrite (rt_unop _ _ Logic.I)]); auto.
  Qed.
  Lemma rt_scon : RT ser_scon de_scon (fun c => fit (snd c)).
  Proof.
    intros [t v] rest H. unfold de_scon, ser_scon. cbn [fst snd] in *. rewrite <- app_assoc. unfold rbind. rewrite rt_u8 by (destruct t; cbn; lia).
    destruct t; cbn [con_tag N.eqb Pos.eqb]; unfold ret; rewrite rt_usize by auto; auto.
  Qed.
  Lemma PF_unop : PF de_unop.
  Proof. unfold de_unop. apply PF_bind; [pff|]. intros t. destruct t as [|p]; [apply PF_fail|]. repeat (destruct p as [p|p|]; try apply PF_fail; try apply PF_ret). Qed.
  Lemma PF_hinsn : PF (de_hinsn (F := F) w).
  Proof. unfold de_hinsn. repeat first [apply PF_lc | apply PF_coef | apply PF_usize | apply PF_u8 | apply PF_u64 | apply PF_vec | apply PF_ret | apply PF_fail | apply PF_if | apply PF_bind; [|intros ?]]. Qed.
  Lemma PF_sinsn : PF (de_sinsn (F := F) w).
  Proof. unfold de_sinsn, de_boolop. repeat first [apply PF_unop | apply PF_lc | apply PF_coef | apply PF_usize | apply PF_u8 | apply PF_u64 | apply PF_bool | apply PF_vec | apply PF_ret | apply PF_fail | apply PF_if | apply PF_bind; [|intros ?]]. Qed.
  Lemma PF_scon : PF de_scon.
  Proof. unfold de_scon. pff. Qed.

  Section Root.
    Variable I : IRC F.
    Variables (si : Insn I -> bytes) (di : Rd (Insn I)) (sc : Con I -> bytes) (dc : Rd (Con I)) (oi : Insn I -> Prop) (oc : Con I -> Prop).
    Hypothesis Hi : RT si di oi. Hypothesis Hc : RT sc dc oc. Hypothesis Pi : PF di. Hypothesis Pc : PF dc.
    Definition fit_circuit (c : Circuit I) : Prop :=
      fit_list oi (instructions c) /\ fit_list oc (constraints c) /\ fit_list fit (outputs c) /\ fit (num_inputs c).
    Definition fit_root (rc : RootCircuit I) : Prop :=
      fit (num_public_inputs rc) /\ fit (expected_num_output_zeroes rc) /\ fit_list (fun p => fit (fst p) /\ fit_circuit (snd p)) (circuits rc).
    Lemma rt_circuit : RT (ser_circuit I si sc) (de_circuit I di dc) fit_circuit.
    Proof.
      intros [i k o n] rest [H1 [H2 [H3 H4]]]. unfold de_circuit, ser_circuit. cbn [instructions constraints outputs num_inputs] in *. rewrite <- !app_assoc.
      unfold rbind at 1. rewrite (rt_list _ _ _ Hi) by auto. unfold rbind at 1. rewrite (rt_list _ _ _ Hc) by auto.
      unfold rbind at 1. rewrite (rt_list _ _ _ rt_usize) by auto. unfold rbind at 1. rewrite rt_usize by auto. auto.
    Qed.
    Lemma PF_circuit : PF (de_circuit I di dc).
    Proof. unfold de_circuit. pff. Qed.
    Lemma PF_root config : PF (de_root I di dc config).
    Proof. unfold de_root. repeat first [apply PF_map, PF_circuit | apply PF_usize | apply PF_ret | apply PF_fail | apply PF_if | apply PF_bind; [|intros ?]]. Qed.
    Lemma rt_root config entries rc rest : fit config -> fit_root rc -> NoDup (keys (circuits rc)) -> Permutation entries (circuits rc) ->
      de_root I di dc config (ser_root I si sc config entries rc ++ rest) =
        Some ({| num_public_inputs := num_public_inputs rc; expected_num_output_zeroes := expected_num_output_zeroes rc; circuits := entries |}, rest).
    Proof.
      intros Hf [H1 [H2 [H3 H4]]] Hnd Hp. unfold de_root, ser_root. rewrite <- !app_assoc. unfold rbind at 1. rewrite rt_usize by auto. rewrite Nat.eqb_refl. cbn [negb].
      unfold rbind at 1. rewrite rt_usize by auto. unfold rbind at 1. rewrite rt_usize by auto. unfold rbind at 1.
      rewrite (rt_map _ _ _ rt_circuit). auto. split; [|split].
      - apply (Permutation_NoDup (l := keys (circuits rc))); auto. apply Permutation_map. symmetry; auto.
      - rewrite (Permutation_length Hp); auto.
      - apply (Permutation_Forall (x := circuits rc)); auto. symmetry; auto.
    Qed.
    Lemma root_header config l rc r : Forall (fun b => (b < 256)%N) l -> de_root I di dc config l = Some (rc, r) ->
      exists t, l = ser_usize config ++ t.
    Proof.
      intros Hb H. unfold de_root in H. unfold rbind at 1 in H. unfold de_usize, rbind at 1 in H. destruct (de_u64 l) as [[m l1]|] eqn:E; [|discriminate].
      apply dec_inv in E; auto. subst l. unfold ret at 1 in H. destruct (Nat.eqb_spec (N.to_nat m) config) as [<-|]; [|discriminate].
      exists l1. unfold ser_usize. rewrite N2Nat.id. auto.
    Qed.
  End Root.

  Lemma rt_mapping : RT ser_mapping de_mapping (fun m => fit (next_size m) /\ fit_list fit (mapping m)).
  Proof.
    intros [n l] rest [H1 H2]. unfold de_mapping, ser_mapping. cbn [next_size mapping] in *. rewrite <- app_assoc. unfold rbind at 1. rewrite rt_usize by auto.
    unfold rbind at 1. rewrite (rt_list _ _ _ rt_usize) by auto. auto.
  Qed.
  Lemma PF_mapping : PF de_mapping. Proof. unfold de_mapping. pff. Qed.

  (* ------------------------------------------------------------ witnesses *)
  Section Wit.
    Variable P : nat.
    Hypothesis HP : 0 < P.
    (* as built by the solver or by deserialisation *)
    Definition wit_ok (x : @Witness F) : Prop :=
      match values x with
      | Scalar vs => length vs = num_witnesses x * (nin x + npub x)
      | SimdV vs => length vs = num_blocks P (num_witnesses x) * (nin x + npub x)
      end.
    Definition fit_wit (x : @Witness F) : Prop := fit (num_witnesses x) /\ fit (nin x) /\ fit (npub x).
    Lemma flat_map_len {A B} (f : A -> list B) m l : Forall (fun a => length (f a) = m) l -> length (flat_map f l) = length l * m.
    Proof. induction 1; cbn; auto. rewrite app_length. lia. Qed.
    Lemma nth_error_ext_eq {A} (l l' : list A) : (forall i, nth_error l i = nth_error l' i) -> l = l'.
    Proof.
      revert l'; induction l as [|a l IH]; intros [|b l'] H; auto; try (specialize (H 0); discriminate).
      pose proof (H 0) as H0. cbn in H0. injection H0 as ->. f_equal. apply IH. intros i. apply (H (S i)).
    Qed.
    Lemma wit_items x : wit_ok x -> exists vs, (match values x with
                 | Scalar vs => Some vs
                 | SimdV _ => let* it := iter_scalar P x in Some (flat_map (fun p => fst p ++ snd p) it)
                 end) = Some vs /\ length vs = num_witnesses x * (nin x + npub x) /\
        iter_scalar P {| num_witnesses := num_witnesses x; nin := nin x; npub := npub x; values := Scalar vs |} = iter_scalar P x /\ iter_scalar P x <> None.
    Proof.
      unfold wit_ok. destruct (values x) as [vs|vs] eqn:Ev; intros Hl.
      - exists vs. split; auto. split; auto. split. destruct x; cbn in *; subst; auto. unfold iter_scalar. rewrite (sc_items_scalar P x vs Ev) by lia. discriminate.
      - assert (Hit : iter_scalar P x = Some (map (fun i => item_of (skipn ((i / P) * (nin x + npub x)) vs) (nin x) (npub x) (i mod P)) (seq 0 (num_witnesses x)))).
        { apply (sc_items_simd P x vs Ev HP). 2: left; apply Nat.mod_0_l; lia. intros i Hi. rewrite Hl. pose proof (num_blocks_bound P (num_witnesses x) i HP). nia. }
        rewrite Hit. cbn [obind]. eexists. split; [reflexivity|]. set (m := nin x + npub x) in *. set (n := num_witnesses x) in *.
        set (items := map (fun i => item_of (skipn ((i / P) * m) vs) (nin x) (npub x) (i mod P)) (seq 0 n)).
        assert (Hi : Forall (fun p => length (fst p) = nin x /\ length (snd p) = npub x) items).
        { apply Forall_map, Forall_forall. intros i Hi. apply in_seq in Hi. unfold item_of. cbn [fst snd]. rewrite !map_length, !firstn_length, !skipn_length.
          pose proof (num_blocks_bound P n i HP ltac:(lia)) as Hb. unfold m in *. nia. }
        assert (Hli : length items = n) by (unfold items; rewrite map_length, seq_length; auto).
        clearbody items. set (fl := flat_map (fun p : list F * list F => fst p ++ snd p) items).
        assert (Hc : Forall (fun b => length b = m) (map (fun p : list F * list F => fst p ++ snd p) items)).
        { apply Forall_map. eapply Forall_impl; [|exact Hi]. intros p [E1 E2]. rewrite app_length, E1, E2. auto. }
        assert (Hfl : fl = concat (map (fun p : list F * list F => fst p ++ snd p) items)) by (unfold fl; apply flat_map_concat_map).
        assert (Hlf : length fl = n * m) by (rewrite Hfl, (concat_len _ m Hc), map_length, Hli; auto).
        split; [exact Hlf|]. split; [|discriminate].
        unfold iter_scalar. cbn [num_witnesses].
        rewrite (sc_items_scalar P {| num_witnesses := n; nin := nin x; npub := npub x; values := Scalar fl |} fl eq_refl) by (cbn [nin npub]; fold m; lia). cbn [nin npub]. f_equal.
        apply nth_error_ext_eq. intros i.
        destruct (Nat.lt_ge_cases i n) as [Hlt|Hge].
        + erewrite map_nth_error by (apply nth_error_seq; auto). cbn [Nat.add]. fold m.
          destruct (nth_error items i) as [p|] eqn:Ep; [|apply nth_error_None in Ep; lia]. f_equal.
          rewrite Forall_forall in Hi. destruct (Hi p (nth_error_In _ _ Ep)) as [E1 E2].
          assert (Hsk : exists t, skipn (i * m) fl = (fst p ++ snd p) ++ t).
          { rewrite Hfl, (skipn_concat _ m Hc) by (rewrite map_length; lia). destruct (skipn_nth (map (fun p : list F * list F => fst p ++ snd p) items) i) as [t Ht]; [rewrite map_length; lia|].
            exists t. rewrite Ht. f_equal. apply nth_error_nth. erewrite map_nth_error; [reflexivity|auto]. }
          destruct Hsk as [t Ht]. rewrite (Nat.add_comm (i * m)), <- skipn_skipn, Ht, <- app_assoc. destruct p as [a b]. cbn [fst snd] in *. f_equal.
          * rewrite <- E1, firstn_app, Nat.sub_diag, firstn_all. cbn. apply app_nil_r.
          * rewrite <- E1, skipn_app, Nat.sub_diag, skipn_all. cbn [skipn app]. rewrite <- E2, firstn_app, Nat.sub_diag, firstn_all. cbn. apply app_nil_r.
        + transitivity (@None (list F * list F)); [|symmetry]; apply nth_error_None; rewrite ?map_length, ?seq_length; lia.
    Qed.
    Lemma rt_witness x : wit_ok x -> fit_wit x -> (use_simd P (num_witnesses x) = true -> 0 < nin x + npub x) ->
      exists b, ser_witness w P x = Some b /\ forall rest, exists x', de_witness w P (b ++ rest) = Some (x', rest) /\
        num_witnesses x' = num_witnesses x /\ nin x' = nin x /\ npub x' = npub x /\
        iter_scalar P x <> None /\ iter_scalar P x' = iter_scalar P x /\
        match values x' with SimdV _ => use_simd P (num_witnesses x) = true | Scalar vs => use_simd P (num_witnesses x) = false /\ match values x with Scalar vs0 => vs = vs0 | _ => True end end /\
        (use_simd P (num_witnesses x) = true -> forall vs, values x = Scalar vs -> convert_to_simd P x = Some x').
    Proof.
      intros Hok [H1 [H2 H3]] Hpos. destruct (wit_items x Hok) as [vs [E1 [E2 [E3 E4]]]].
      unfold ser_witness. rewrite E1. cbn [obind]. eexists. split; [reflexivity|]. intros rest. unfold de_witness. rewrite <- !app_assoc.
      unfold rbind at 1. rewrite rt_usize by auto. unfold rbind at 1. rewrite rt_usize by auto. unfold rbind at 1. rewrite rt_usize by auto.
      unfold rbind at 1. pose proof (fmod_pos F). rewrite rt_u256 by lia. rewrite Z.eqb_refl. cbn [negb].
      unfold rbind at 1. rewrite <- E2. rewrite (rt_n ser_f de_f (fun _ => True)) by (auto using rt_f; apply Forall_forall; auto).
      set (y := {| num_witnesses := num_witnesses x; nin := nin x; npub := npub x; values := Scalar vs |}) in *.
      destruct (use_simd P (num_witnesses x)) eqn:Eu.
      - destruct (convert_spec P y vs eq_refl HP (Hpos eq_refl) E2) as [y' [C1 [C2 [C3 [C4 [C5 [_ [vs' [C6 _]]]]]]]]]. rewrite C1. exists y'. split; [reflexivity|].
        split; auto. split; auto. split; auto. split; auto. split; [congruence|]. rewrite C6. split; auto.
        intros _ vs0 Hv. rewrite Hv in E1. injection E1 as <-. rewrite <- C1. f_equal. unfold y. destruct x; cbn in *; subst; auto.
      - exists y. split; [reflexivity|]. split; auto. split; auto. split; auto. split; auto. split; auto. cbn [y values]. split; [|discriminate].
        split; auto. destruct (values x); auto. congruence.
    Qed.
    Lemma PF_witness : PF (de_witness (F := F) w P).
    Proof.
      unfold de_witness. do 4 (apply PF_bind; [pff|intros ?]). apply PF_if; [apply PF_fail|]. apply PF_bind; [pff|]. intros vs. cbv zeta.
      apply PF_if; [|apply PF_ret]. match goal with |- PF (match ?o with _ => _ end) => destruct o end; [apply PF_ret|apply PF_fail].
    Qed.
    (* the modulus follows the three counts *)
    Lemma witness_header l x r : Forall (fun b => (b < 256)%N) l -> de_witness (F := F) w P l = Some (x, r) ->
      exists t, l = ser_usize (num_witnesses x) ++ ser_usize (nin x) ++ ser_usize (npub x) ++ ser_u256 (fmod F) ++ t.
    Proof.
      intros Hb H. unfold de_witness in H.
      unfold rbind at 1 in H. unfold de_usize at 1, rbind at 1 in H. destruct (de_u64 l) as [[n l1]|] eqn:En; [|discriminate]. apply dec_inv in En; auto. unfold ret at 1 in H.
      assert (Hb1 : Forall (fun b => (b < 256)%N) l1) by (rewrite En in Hb; apply Forall_app in Hb; tauto).
      unfold rbind at 1 in H. unfold de_usize at 1, rbind at 1 in H. destruct (de_u64 l1) as [[a l2]|] eqn:Ea; [|discriminate]. apply dec_inv in Ea; auto. unfold ret at 1 in H.
      assert (Hb2 : Forall (fun b => (b < 256)%N) l2) by (rewrite Ea in Hb1; apply Forall_app in Hb1; tauto).
      unfold rbind at 1 in H. unfold de_usize at 1, rbind at 1 in H. destruct (de_u64 l2) as [[b l3]|] eqn:Eb; [|discriminate]. apply dec_inv in Eb; auto. unfold ret at 1 in H.
      assert (Hb3 : Forall (fun b => (b < 256)%N) l3) by (rewrite Eb in Hb2; apply Forall_app in Hb2; tauto).
      unfold rbind at 1 in H. unfold de_u256 at 1, rbind at 1 in H. destruct (dec 32 l3) as [[m l4]|] eqn:Em; [|discriminate]. apply dec_inv in Em; auto. unfold ret at 1 in H.
      destruct (Z.eqb_spec (Z.of_N m) (fmod F)) as [Ez|]; [|discriminate]. cbn [negb] in H.
      unfold rbind at 1 in H. destruct (de_n _ de_f l4) as [[vs l5]|]; [|discriminate]. cbv zeta in H.
      assert (Hx : num_witnesses x = N.to_nat n /\ nin x = N.to_nat a /\ npub x = N.to_nat b).
      { destruct (use_simd P (N.to_nat n)).
        - match goal with H : (match ?o with _ => _ end) _ = _ |- _ => destruct o as [y|] eqn:Ey; [|discriminate] end. unfold ret in H. injection H as -> _. unfold convert_to_simd in Ey. cbn [values] in Ey.
          destruct (omap _ _) in Ey; [|discriminate]. cbn [obind] in Ey. injection Ey as <-. auto.
        - unfold ret in H. injection H as <- _. auto. }
      destruct Hx as [-> [-> ->]]. exists l4. unfold ser_usize. rewrite !N2Nat.id. unfold ser_u64, ser_u256. rewrite <- Ez, N2Z.id. rewrite <- Em, <- Eb, <- Ea. exact En.
    Qed.
  End Wit.
End SF.
