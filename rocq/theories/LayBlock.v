(* The aligned block around a set of positions holds all of them, so the slots a call sees can always be copied out. *)
From Verif Require Import Prelude Field Zp Sorting Expr Topo Ir IrInst InputMapping Layered Layering.
Open Scope nat_scope.

Lemma smear_step x y n : (forall i, Nat.testbit y i = existsb (fun j => Nat.testbit x (i + j)) (seq 0 n)) ->
  forall i, Nat.testbit (Nat.lor y (Nat.shiftr y n)) i = existsb (fun j => Nat.testbit x (i + j)) (seq 0 (n + n)).
Proof.
  intros H i. rewrite Nat.lor_spec, Nat.shiftr_spec', !H, seq_app, existsb_app. f_equal. cbn [Nat.add].
  assert (G : forall a m, existsb (fun j => Nat.testbit x (i + n + j)) (seq a m) = existsb (fun j => Nat.testbit x (i + j)) (seq (n + a) m)); [|rewrite (G 0 n), Nat.add_0_r; auto].
  intros a m. revert a. induction m as [|m IH]; intros a; auto. cbn [seq existsb]. rewrite IH. replace (S (n + a)) with (n + S a) by lia. f_equal. f_equal. lia.
Qed.
Lemma smear64_bits x i : Nat.testbit (smear64 x) i = existsb (fun j => Nat.testbit x (i + j)) (seq 0 64).
Proof.
  unfold smear64. cbv zeta. change 64 with (32 + 32). apply smear_step. change 32 with (16 + 16). apply smear_step. change 16 with (8 + 8). apply smear_step. change 8 with (4 + 4). apply smear_step.
  change 4 with (2 + 2). apply smear_step. change 2 with (1 + 1). apply smear_step. intros j. cbn [seq existsb]. rewrite Nat.add_0_r, orb_false_r. auto.
Qed.
Theorem smear64_smear x : Nat.log2 x < 64 -> smear64 x = smear x.
Proof.
  intros Hx. apply Nat.bits_inj. intros i. rewrite smear64_bits. unfold smear. destruct (Nat.eqb_spec x 0) as [->|Hn].
  - rewrite Nat.bits_0. apply not_true_iff_false. rewrite existsb_exists. intros [j [_ Hj]]. rewrite Nat.bits_0 in Hj. discriminate.
  - destruct (Nat.lt_ge_cases i (S (Nat.log2 x))) as [Hlt|Hge].
    + rewrite Nat.ones_spec_low by auto. apply existsb_exists. exists (Nat.log2 x - i). split; [apply in_seq; lia|]. replace (i + (Nat.log2 x - i)) with (Nat.log2 x) by lia. apply Nat.bit_log2. auto.
    + rewrite Nat.ones_spec_high by auto. apply not_true_iff_false. rewrite existsb_exists. intros [j [_ Hj]]. rewrite Nat.bits_above_log2 in Hj by lia. discriminate.
Qed.
Lemma fold_min_le t : forall p, (forall x, In x t -> fold_left Nat.min t p <= x) /\ fold_left Nat.min t p <= p.
Proof. induction t as [|y t IH]; intros p; cbn [fold_left]; [split; [intros ? []|auto]|]. destruct (IH (Nat.min p y)) as [A B]. split; [intros x [<-|Hx]; [lia|auto]|lia]. Qed.
Lemma fold_max_ge t : forall p, (forall x, In x t -> x <= fold_left Nat.max t p) /\ p <= fold_left Nat.max t p.
Proof. induction t as [|y t IH]; intros p; cbn [fold_left]; [split; [intros ? []|auto]|]. destruct (IH (Nat.max p y)) as [A B]. split; [intros x [<-|Hx]; [lia|auto]|lia]. Qed.
Theorem block_holds ps p : In p ps -> fst (block ps) <= p < fst (block ps) + snd (block ps).
Proof.
  unfold block. destruct ps as [|p0 t]; [intros []|]. intros Hin. destruct (fold_min_le t p0) as [L1 L2]. destruct (fold_max_ge t p0) as [R1 R2].
  set (l := fold_left Nat.min t p0) in *. set (r := fold_left Nat.max t p0) in *. assert (Hl : l <= p <= r) by (destruct Hin as [<-|Hin]; auto). clear L1 L2 R1 R2 Hin. cbv zeta. unfold smear.
  destruct (Nat.eqb_spec (Nat.lxor l r) 0) as [E|E].
  - apply Nat.lxor_eq in E. rewrite E in *. cbn. rewrite Nat.ldiff_0_r. lia.
  - set (b := Nat.log2 (Nat.lxor l r)).
    assert (Hx : Nat.lxor (Nat.ones (S b)) (Nat.shiftr (Nat.ones (S b)) 1) = 2 ^ b).
    { apply Nat.bits_inj. intros i. rewrite Nat.lxor_spec, Nat.shiftr_spec', Nat.pow2_bits_eqb. destruct (Nat.eqb_spec b i) as [->|Hn].
      - rewrite Nat.ones_spec_low by lia. rewrite Nat.ones_spec_high by lia. auto.
      - destruct (Nat.lt_ge_cases i b); [rewrite !Nat.ones_spec_low by lia|rewrite !Nat.ones_spec_high by lia]; auto. }
    rewrite Hx. pose proof (Nat.pow_nonzero 2 b ltac:(lia)) as Hp. destruct (Nat.eqb_spec (2 ^ b) 0) as [|_]; [contradiction|]. cbn [fst snd]. change (2 * 2 ^ b) with (2 ^ S b).
    replace (2 ^ S b - 1) with (Nat.ones (S b)) by (rewrite Nat.ones_equiv; lia). rewrite Nat.ldiff_ones_r, Nat.shiftl_mul_pow2, Nat.shiftr_div_pow2.
    assert (Hd : l / 2 ^ S b = r / 2 ^ S b).
    { rewrite <- !Nat.shiftr_div_pow2. apply Nat.lxor_eq. rewrite <- Nat.shiftr_lxor. apply Nat.shiftr_eq_0. fold b. lia. }
    pose proof (Nat.pow_nonzero 2 (S b) ltac:(lia)) as Hp2. pose proof (Nat.div_mod l (2 ^ S b) Hp2). pose proof (Nat.div_mod r (2 ^ S b) Hp2). pose proof (Nat.mod_upper_bound r (2 ^ S b) Hp2). rewrite <- Hd in *. rewrite (Nat.mul_comm (l / 2 ^ S b)). clear Hd Hx E. generalize dependent (2 ^ S b). intros. nia.
Qed.
Lemma query_total pos vs fs svars cid lid : exists r, query pos vs fs svars cid lid = Some r.
Proof.
  unfold query. destruct vs as [|v vs]; [eauto|]. set (ps := map _ _). pose proof (block_holds (flat_map (fun o => match o with Some p => [p] | None => [] end) ps)) as Hb. destruct (block _) as [off n]. cbn [fst snd] in Hb.
  assert (G : forall (l : list (option nat * nat)) (pl : list (option nat)), length pl = n -> (forall p f, In (Some p, f) l -> off <= p < off + n) -> exists r, ofold (fun pl p => match p with (Some p, f) => let* _ := guard (off <=? p) in vset pl (p - off) (Some f) | (None, _) => Some pl end) l pl = Some r).
  { induction l as [|[[p|] f] l IH]; intros pl Hl Hp; cbn [ofold]; [eauto| |cbn [obind]; apply IH; auto; intros q g Hq; apply (Hp q g); right; auto].
    pose proof (Hp p f (or_introl eq_refl)) as H. unfold guard. rewrite (proj2 (Nat.leb_le off p)) by lia. cbn [obind]. unfold vset. rewrite (proj2 (Nat.ltb_lt (p - off) (length pl))) by lia. cbn [obind]. apply IH; [rewrite upd_length; auto|]. intros q g Hq. apply (Hp q g). right; auto. }
  destruct (G (combine ps fs) (repeat None n)) as [r Hr]; [apply repeat_length| |].
  - intros p f Hp. apply in_combine_l in Hp. apply (Hb p). apply in_flat_map. exists (Some p). split; auto. left; auto.
  - setoid_rewrite Hr. cbn [obind]. eauto.
Qed.
