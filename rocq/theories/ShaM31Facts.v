(* The gadgets of ShaM31.v compute the functions of ShaSpec.v, over any field of more than 2^30 elements. *)
From Verif Require Import Prelude Field Expr Hints Ir IrInst ApiSpec Gadget ShaSpec ShaGf2 ShaGf2Facts ShaGf2Sem ShaM31.
Open Scope nat_scope.

(* ------------------------------------------------------------ bits, least significant first *)
Lemma rev_be l : be (rev l) = le l. Proof. rewrite be_le, rev_involutive. auto. Qed.
Lemma le_map2 (f : bool -> bool -> bool) (g : Z -> Z -> Z) : f false false = false -> (forall x y i, Z.testbit (g x y) i = f (Z.testbit x i) (Z.testbit y i)) ->
  forall a b, length a = length b -> le (map2 f a b) = g (le a) (le b).
Proof. intros Hf Hg a b L. rewrite <- !rev_be, <- map2_rev by auto. apply be_map2; auto. rewrite !rev_length. auto. Qed.
Lemma le_not l : le (map negb l) = (2 ^ Z.of_nat (length l) - 1 - le l)%Z.
Proof. rewrite <- rev_be, <- map_rev, be_not, rev_length, rev_be. auto. Qed.
Lemma le_rotr l n : length l = 32 -> n <= 32 -> le (rotate_right_le l n) = rotr (Z.of_nat n) (le l).
Proof.
  intros L Hn. rewrite <- !rev_be, <- be_rotr by (rewrite ?rev_length; auto). f_equal. unfold rotate_right_le, rotate_right.
  rewrite rev_app_distr, skipn_rev', firstn_rev', rev_involutive. reflexivity.
Qed.
Lemma le_shr l n : length l = 32 -> n <= 32 -> le (skipn n l ++ repeat false n) = shr (Z.of_nat n) (le l).
Proof.
  intros L Hn. rewrite <- !rev_be, <- be_shr by (rewrite ?rev_length; auto). f_equal.
  rewrite rev_app_distr. rewrite firstn_rev', rev_involutive. f_equal. clear.
  induction n as [|n IH]; [reflexivity|]. cbn [repeat]. rewrite <- IH at 2. clear IH.
  assert (E : rev (repeat false n) = repeat false n). { clear. induction n as [|n IH]; [reflexivity|]. cbn [repeat rev]. rewrite IH. clear. induction n as [|n IH]; [reflexivity|]. cbn. f_equal. exact IH. }
  rewrite E. cbn [rev]. rewrite E. clear. induction n as [|n IH]; [reflexivity|]. cbn. f_equal. exact IH.
Qed.
Lemma le_split l n : n <= length l -> le l = (le (firstn n l) + 2 ^ Z.of_nat n * le (skipn n l))%Z.
Proof. intros H. rewrite <- (firstn_skipn n l) at 1. rewrite le_app, firstn_length. rewrite Nat.min_l by auto. auto. Qed.
Lemma le_firstn l n : n <= length l -> le (firstn n l) = (le l mod 2 ^ Z.of_nat n)%Z.
Proof.
  intros H. rewrite (le_split l n H). rewrite Z.mul_comm, Z_mod_plus_full. symmetry. apply Z.mod_small. pose proof (le_range (firstn n l)) as R.
  rewrite firstn_length, Nat.min_l in R by auto. exact R.
Qed.
Lemma le_skipn l n : n <= length l -> le (skipn n l) = (le l / 2 ^ Z.of_nat n)%Z.
Proof.
  intros H. rewrite (le_split l n H). pose proof (le_range (firstn n l)) as R. rewrite firstn_length, Nat.min_l in R by auto.
  rewrite Z.mul_comm, Z.div_add by lia. rewrite Z.div_small by auto. lia.
Qed.

Section Facts.
  Context {F : Fld}.
  Hypothesis Hp : (2 ^ 30 < fmod F)%Z.
  Add Field Ff : (fth F).
  Notation ib := (@ib F). Notation ibs := (@ibs F).
  Lemma b_bool b : boolean F (fbool b) = true.
  Proof. pose proof (f1_neq_f0 F) as N. unfold boolean. destruct b; cbn [fbool]; apply orb_true_iff; [right|left]; apply feqb_spec; auto. Qed.
  Lemma b_is0 b : negb (is0 F (fbool b)) = b.
  Proof. pose proof (f1_neq_f0 F) as N. destruct (is0 F (fbool b)) eqn:E; destruct b; cbn [fbool negb] in *; auto; [apply is0_spec in E; congruence|]. assert (E2 : is0 F f0 = true) by (apply is0_spec; auto). congruence. Qed.
  Lemma ok_bool hv op x y a b : ib hv x a -> ib hv y b -> ok hv (a_bin (BBool op) (AV x) (AV y)) (fun hv' z => ib hv' z (bool_fun op a b)).
  Proof. intros A B. unfold ib. eapply ok_bin; cbn; [exact A|exact B|]. rewrite !b_bool, !b_is0. reflexivity. Qed.
  Lemma ok_bxor hv x y a b : ib hv x a -> ib hv y b -> ok hv (a_xor x y) (fun hv' z => ib hv' z (xorb a b)).
  Proof. apply (ok_bool hv BXor). Qed.
  Lemma ok_band hv x y a b : ib hv x a -> ib hv y b -> ok hv (a_and x y) (fun hv' z => ib hv' z (andb a b)).
  Proof. apply (ok_bool hv BAnd). Qed.
  Lemma ok_bnot hv x a : ib hv x a -> ok hv (a_bin (BBool BXor) (AV x) (k 1)) (fun hv' z => ib hv' z (negb a)).
  Proof. intros A. unfold ib. eapply ok_bin; cbn; [exact A|reflexivity|]. change 1%Z with (Z.b2z true). rewrite fb_k, !b_bool, !b_is0. cbn. rewrite xorb_true_r. reflexivity. Qed.
  (* the variable is the integer *)
  Definition V (hv : list F) (x : nat) (z : Z) : Prop := is hv x (ofZ z).
  Lemma V_ext hv hv' x z : ext hv hv' -> V hv x z -> V hv' x z. Proof. apply is_ext. Qed.
  Lemma V_b hv x b : ib hv x b -> V hv x (Z.b2z b). Proof. unfold ib, V. rewrite fb_k. auto. Qed.
  Lemma ok_vconst hv z : ok hv (a_const z) (fun hv' x => V hv' x z). Proof. apply ok_const. Qed.
  Lemma ok_vadd hv x y a b : V hv x a -> V hv y b -> ok hv (a_add x y) (fun hv' z => V hv' z (a + b)).
  Proof. intros A B. unfold V. rewrite ofZ_add. apply ok_add; auto. Qed.
  Lemma ok_vsub hv x y a b : V hv x a -> V hv y b -> ok hv (a_sub x y) (fun hv' z => V hv' z (a - b)).
  Proof. intros A B. unfold V. assert (E : (ofZ (a - b) : F) = fsub (ofZ a) (ofZ b)) by (unfold Z.sub; rewrite ofZ_add, ofZ_opp; ring). rewrite E. apply ok_sub; auto. Qed.
  Lemma ok_vmulk hv x a c : V hv x a -> ok hv (a_bin BMul (AV x) (k c)) (fun hv' z => V hv' z (a * c)).
  Proof. intros A. unfold V. rewrite ofZ_mul. eapply ok_bin; cbn; [exact A|reflexivity|reflexivity]. Qed.
  Lemma ok_kmulv hv x a c : V hv x a -> ok hv (a_bin BMul (k c) (AV x)) (fun hv' z => V hv' z (c * a)).
  Proof. intros A. unfold V. rewrite ofZ_mul. eapply ok_bin; cbn; [reflexivity|exact A|reflexivity]. Qed.
  Lemma ok_vbits hv x z n : V hv x z -> (0 <= z < 2 ^ Z.of_nat n)%Z -> n <= 30 -> ok hv (a_tobin x n) (fun hv' zs => ibs hv' zs (le_bits n z)).
  Proof.
    intros A R Hn. assert (Z.pow 2 (Z.of_nat n) <= 2 ^ 30)%Z by (apply Z.pow_le_mono_r; lia).
    assert (E : toZ (ofZ z : F) = z) by (apply toZ_ofZ_small; lia).
    eapply ok_imp; [apply (ok_tobin hv x (ofZ z) n); [exact A|rewrite E; lia]|]. cbv beta. intros h xs X Q. rewrite E in Q. apply ibs_iss. unfold le_bits. rewrite map_map. exact Q.
  Qed.

  (* a word given by its bits; by a pair of variables; by a pair that has not been reduced, the sum of n words *)
  Definition B (hv : list F) (w : list nat) (v : Z) : Prop := exists bs, ibs hv w bs /\ length bs = 32 /\ le bs = v.
  Definition T (hv : list F) (p : nat * nat) (v : Z) : Prop := (0 <= v < 2 ^ 32)%Z /\ V hv (fst p) (v mod 2 ^ 26) /\ V hv (snd p) (v / 2 ^ 26).
  Definition L (n : Z) (hv : list F) (p : nat * nat) (v : Z) : Prop :=
    exists lo hi, V hv (fst p) lo /\ V hv (snd p) hi /\ (0 <= lo <= n * (2 ^ 26 - 1))%Z /\ (0 <= hi <= n * 63)%Z /\ (lo + 2 ^ 26 * hi = v)%Z.
  Definition Bs (hv : list F) := Forall2 (B hv).
  Definition Ts (hv : list F) := Forall2 (T hv).
  Lemma B_ext hv hv' w v : ext hv hv' -> B hv w v -> B hv' w v. Proof. intros X (bs & A & R). exists bs. eauto using ibs_ext. Qed.
  Lemma T_ext hv hv' w v : ext hv hv' -> T hv w v -> T hv' w v. Proof. intros X (R & A & D). repeat split; try lia; eapply V_ext; eauto. Qed.
  Lemma L_ext n hv hv' w v : ext hv hv' -> L n hv w v -> L n hv' w v. Proof. intros X (lo & hi & A & D & R). exists lo, hi. split; [|split; [|exact R]]; eapply V_ext; eauto. Qed.
  Lemma Bs_ext hv hv' w v : ext hv hv' -> Bs hv w v -> Bs hv' w v. Proof. intros X H. induction H; constructor; eauto using B_ext. Qed.
  Lemma Ts_ext hv hv' w v : ext hv hv' -> Ts hv w v -> Ts hv' w v. Proof. intros X H. induction H; constructor; eauto using T_ext. Qed.
  Lemma B_len hv w v : B hv w v -> length w = 32. Proof. intros (bs & A & R & _). rewrite <- R. eapply ibs_length; eauto. Qed.
  Lemma B_range hv w v : B hv w v -> (0 <= v < 2 ^ 32)%Z. Proof. intros (bs & A & R & <-). pose proof (le_range bs) as Q. rewrite R in Q. exact Q. Qed.
  Lemma T_L hv p v : T hv p v -> L 1 hv p v.
  Proof.
    intros (R & A & D). exists (v mod 2 ^ 26)%Z, (v / 2 ^ 26)%Z. split; [exact A|]. split; [exact D|]. pose proof (Z.div_mod v (2 ^ 26) ltac:(lia)) as E. pose proof (Z.mod_pos_bound v (2 ^ 26) ltac:(lia)) as M.
    assert (0 <= v / 2 ^ 26 < 64)%Z by (split; [apply Z.div_pos; lia|apply Z.div_lt_upper_bound; lia]). lia.
  Qed.
  Ltac up := repeat match goal with
    | X : ext ?a ?b, H : ib ?a _ _ |- _ => apply (ib_ext _ _ _ _ X) in H
    | X : ext ?a ?b, H : ibs ?a _ _ |- _ => apply (ibs_ext _ _ _ _ X) in H
    | X : ext ?a ?b, H : V ?a _ _ |- _ => apply (V_ext _ _ _ _ X) in H
    | X : ext ?a ?b, H : B ?a _ _ |- _ => apply (B_ext _ _ _ _ X) in H
    | X : ext ?a ?b, H : T ?a _ _ |- _ => apply (T_ext _ _ _ _ X) in H
    | X : ext ?a ?b, H : L _ ?a _ _ |- _ => apply (L_ext _ _ _ _ _ X) in H
    | X : ext ?a ?b, H : Bs ?a _ _ |- _ => apply (Bs_ext _ _ _ _ X) in H
    | X : ext ?a ?b, H : Ts ?a _ _ |- _ => apply (Ts_ext _ _ _ _ X) in H
    | X : ext ?a ?b |- _ => clear X a || clear X end.
  Ltac step L := eapply ok_bind; [eapply L; eassumption|let hv := fresh "hv" in let x := fresh "x" in let X := fresh "X" in let H := fresh "H" in cbv beta; intros hv x X H; up].

  Lemma ok_from_loop bits : forall hv bs i res r, ibs hv bits bs -> V hv res r -> ok hv (from_binary_loop i bits res) (fun hv' x => V hv' x (r + 2 ^ Z.of_nat i * le bs)).
  Proof.
    induction bits as [|b bits IH]; intros hv bs i res r A R; inversion A as [|b0 v l vs Hb Hl]; subst; cbn [from_binary_loop le].
    - apply ok_ret. rewrite Z.mul_0_r, Z.add_0_r. exact R.
    - fold (ibs hv bits vs) in Hl. apply V_b in Hb. eapply ok_bind; [apply (ok_kmulv _ _ _ (pow2 i) Hb)|]. cbv beta. intros h1 cur X1 Hc. up.
      step ok_vadd. eapply ok_imp; [apply (IH _ vs (S i)); eassumption|]. cbv beta. intros h2 x2 X2 H2. unfold pow2 in H2. rewrite Nat2Z.inj_succ, Z.pow_succ_r in H2 by lia.
      replace (r + 2 ^ Z.of_nat i * (Z.b2z v + 2 * le vs))%Z with (r + 2 ^ Z.of_nat i * Z.b2z v + 2 * 2 ^ Z.of_nat i * le vs)%Z by ring. exact H2.
  Qed.
  Lemma ok_from hv bits bs : ibs hv bits bs -> ok hv (from_binary bits) (fun hv' x => V hv' x (le bs)).
  Proof.
    intros A. unfold from_binary. eapply ok_bind; [apply ok_vconst|]. cbv beta. intros h r X H. up. eapply ok_imp; [eapply ok_from_loop; eassumption|].
    cbv beta. intros h2 x X2 Q. replace (0 + 2 ^ Z.of_nat 0 * le bs)%Z with (le bs) in Q by (change (2 ^ Z.of_nat 0)%Z with 1%Z; lia). exact Q.
  Qed.
  Lemma ibs_firstn hv n xs bs : ibs hv xs bs -> ibs hv (firstn n xs) (firstn n bs). Proof. apply Forall2_firstn. Qed.
  Lemma ibs_skipn hv n xs bs : ibs hv xs bs -> ibs hv (skipn n xs) (skipn n bs). Proof. apply Forall2_skipn. Qed.
  Lemma ok_pack hv w v : B hv w v -> ok hv (bit_array_to_m31_26 w) (fun hv' p => T hv' p v).
  Proof.
    intros H. pose proof (B_len _ _ _ H) as Lw. pose proof (B_range _ _ _ H) as R. destruct H as (bs & A & Lb & <-). unfold bit_array_to_m31_26. rewrite Lw. cbn [Nat.leb Nat.ltb orb].
    eapply ok_bind; [apply ok_from, ibs_firstn, A|]. cbv beta. intros h1 lo X1 H1. up. eapply ok_bind; [apply ok_from, ibs_skipn, A|]. cbv beta. intros h2 hi X2 H2. up.
    apply ok_ret. split; [exact R|]. cbn [fst snd]. rewrite le_firstn in H1 by lia. rewrite le_skipn in H2 by lia. auto.
  Qed.
  Lemma ok_nored n m hv p q v u : L n hv p v -> L m hv q u -> ok hv (add_no_reduce p q) (fun hv' r => L (n + m) hv' r (v + u)).
  Proof.
    intros (lo & hi & A1 & A2 & A3 & A4 & <-) (lo' & hi' & B1 & B2 & B3 & B4 & <-). unfold add_no_reduce. eapply ok_bind; [apply ok_vconst|]. cbv beta. intros h z X _. up.
    step ok_vadd. step ok_vadd. apply ok_ret. exists (lo + lo')%Z, (hi + hi')%Z. cbn [fst snd]. repeat split; auto; lia.
  Qed.
  Lemma ok_unpack n hv p v ov : L n hv p v -> (n <= 16)%Z -> (n <= 2 ^ Z.of_nat (S ov))%Z -> ov <= 20 ->
    ok hv (m31_26_to_bit_array_seperate p ov) (fun hv' w => B hv' (firstn 32 w) (w32 v)).
  Proof.
    intros (lo & hi & A1 & A2 & A3 & A4 & <-) Hn Hov Ho. unfold m31_26_to_bit_array_seperate.
    eapply ok_bind; [apply (ok_vbits _ _ _ 30 A1); [change (Z.of_nat 30) with 30%Z; lia|lia]|]. cbv beta. intros h1 b30 X1 H1. up.
    eapply ok_bind; [apply ok_from, (ibs_skipn _ 26 _ _ H1)|]. cbv beta. intros h2 c X2 H2. up. step ok_vadd.
    assert (E30 : le (le_bits 30 lo) = lo) by (rewrite le_le_bits; apply Z.mod_small; change (Z.of_nat 30) with 30%Z; lia).
    assert (L30 : length (le_bits 30 lo) = 30) by apply le_bits_length.
    rewrite le_skipn, E30 in H by (rewrite L30; lia). change (Z.of_nat 26) with 26%Z in H.
    pose proof (Z.div_mod lo (2 ^ 26) ltac:(lia)) as Ed. pose proof (Z.mod_pos_bound lo (2 ^ 26) ltac:(lia)) as Em.
    assert (Ec : (0 <= lo / 2 ^ 26 <= n - 1 \/ (lo / 2 ^ 26 = 0 /\ n <= 0))%Z).
    { destruct (Z.le_gt_cases n 0) as [C|C]; [right; assert (lo = 0)%Z by lia; subst lo; split; [reflexivity|lia]|left]. split; [apply Z.div_pos; lia|]. assert (lo / 2 ^ 26 < n)%Z by (apply Z.div_lt_upper_bound; lia). lia. }
    assert (Eh : (0 <= hi + lo / 2 ^ 26 < 2 ^ Z.of_nat (6 + ov + 1))%Z).
    { replace (6 + ov + 1) with (S ov + 6) by lia. rewrite Nat2Z.inj_add, Z.pow_add_r by lia. change (2 ^ Z.of_nat 6)%Z with 64%Z. assert (0 < 2 ^ Z.of_nat (S ov))%Z by (apply Z.pow_pos_nonneg; lia). nia. }
    eapply ok_bind; [apply (ok_vbits _ _ _ (6 + ov + 1) H); [exact Eh|lia]|]. cbv beta. intros h4 hb X4 H4. up. apply ok_ret.
    exists (firstn 32 (firstn 26 (le_bits 30 lo) ++ le_bits (6 + ov + 1) (hi + lo / 2 ^ 26))).
    assert (L26 : length (firstn 26 (le_bits 30 lo)) = 26) by (rewrite firstn_length, L30; reflexivity).
    split; [apply ibs_firstn; apply Forall2_app; [apply ibs_firstn; exact H1|exact H4]|].
    split; [rewrite firstn_length, app_length, L26, le_bits_length; lia|].
    rewrite le_firstn by (rewrite app_length, L26, le_bits_length; lia). rewrite le_app, L26, le_firstn, E30, le_le_bits by (rewrite L30; lia). rewrite (Z.mod_small _ _ Eh).
    unfold w32. change (Z.of_nat 32) with 32%Z. change (Z.of_nat 26) with 26%Z. f_equal. lia.
  Qed.
  (* ------------------------------------------------------------ the functions of bits *)
  Lemma ok_rs hv w v n : n <= 32 -> B hv w v -> ok hv (right_shift w n) (fun hv' c => B hv' c (shr (Z.of_nat n) v)).
  Proof.
    intros Hn H. unfold right_shift. rewrite (B_len _ _ _ H). cbn [Nat.eqb]. destruct H as (bs & A & Lb & <-).
    eapply ok_bind. { eapply (ok_gmap (fun _ : nat => a_const 0) (fun _ (i j : nat) => i = j) (fun hv => ib hv) (fun _ => false)) with (xs := seq 0 n); auto. apply ib_ext. intros; apply ok_k0. induction (seq 0 n); constructor; auto. }
    cbv beta. intros h zs X Hz. rewrite map_const in Hz. up. apply ok_ret. exists (skipn n bs ++ repeat false n). split; [|split].
    - apply Forall2_app; [apply ibs_skipn; exact A|exact Hz].
    - rewrite app_length, skipn_length, repeat_length. lia.
    - apply le_shr; auto.
  Qed.
  Lemma B_rotr hv w v n : n <= 32 -> B hv w v -> B hv (rotate_right_le w n) (rotr (Z.of_nat n) v).
  Proof.
    intros Hn (bs & A & Lb & <-). exists (rotate_right_le bs n). split; [|split; [|apply le_rotr; auto]].
    - apply Forall2_app; [apply ibs_skipn|apply ibs_firstn]; exact A.
    - unfold rotate_right_le. rewrite app_length, skipn_length, firstn_length. lia.
  Qed.
  Fixpoint map3 (f : bool -> bool -> bool -> bool) (a b c : list bool) : list bool := match a, b, c with x :: a, y :: b, z :: c => f x y z :: map3 f a b c | _, _, _ => [] end.
  Lemma map3_eq (f : bool -> bool -> bool -> bool) : forall a b c, map (fun p => f (fst (fst p)) (snd (fst p)) (snd p)) (combine (combine a b) c) = map3 f a b c.
  Proof. induction a as [|x a IH]; intros [|y b] [|z c]; cbn; auto. f_equal. auto. Qed.
  Lemma map3_length f : forall a b c, length a = length b -> length a = length c -> length (map3 f a b c) = length a.
  Proof. induction a as [|x a IH]; intros [|y b] [|z c]; cbn; intros; try discriminate; auto. Qed.
  Lemma ibs_combine3 hv : forall a b c x y z, ibs hv a x -> ibs hv b y -> ibs hv c z ->
    Forall2 (fun p q => ib hv (fst (fst p)) (fst (fst q)) /\ ib hv (snd (fst p)) (snd (fst q)) /\ ib hv (snd p) (snd q)) (combine (combine a b) c) (combine (combine x y) z).
  Proof. intros a. induction a as [|h a IH]; intros b c x y z A Bb C; inversion A; subst; [constructor|]. inversion Bb; subst; [constructor|]. inversion C; subst; constructor; auto. Qed.
  Lemma ok_bw3 (m : nat * nat * nat -> G F nat) f : (forall hv p x y z, ib hv (fst (fst p)) x -> ib hv (snd (fst p)) y -> ib hv (snd p) z -> ok hv (m p) (fun hv' r => ib hv' r (f x y z))) ->
    forall hv a b c x y z, ibs hv a x -> ibs hv b y -> ibs hv c z -> ok hv (gmap m (combine (combine a b) c)) (fun hv' r => ibs hv' r (map3 f x y z)).
  Proof.
    intros Hm hv a b c x y z A Bb C. eapply ok_imp.
    - eapply (ok_gmap m (fun hv p q => ib hv (fst (fst p)) (fst (fst q)) /\ ib hv (snd (fst p)) (snd (fst q)) /\ ib hv (snd p) (snd q)) ib (fun q => f (fst (fst q)) (snd (fst q)) (snd q))).
      + intros h h' p q X (P & Q & R). repeat split; eapply ib_ext; eauto.
      + apply ib_ext.
      + intros h p q (P & Q & R). apply Hm; auto.
      + eapply ibs_combine3; eauto.
    - cbv beta. intros h r X H. rewrite map3_eq in H. exact H.
  Qed.
  Lemma map3_2 f (g h : bool -> bool -> bool) : (forall x y z, f x y z = g (h x y) z) -> forall a b c, map3 f a b c = map2 g (map2 h a b) c.
  Proof. intros E. induction a as [|x a IH]; intros [|y b] [|z c]; cbn; auto. rewrite E, IH. reflexivity. Qed.
  Lemma le_xor a b : length a = length b -> le (map2 xorb a b) = Z.lxor (le a) (le b). Proof. apply le_map2; auto. intros; apply Z.lxor_spec. Qed.
  Lemma le_and a b : length a = length b -> le (map2 andb a b) = Z.land (le a) (le b). Proof. apply le_map2; auto. intros; apply Z.land_spec. Qed.
  Lemma ok_xor3' hv a b c x y z : B hv a x -> B hv b y -> B hv c z -> ok hv (xor3 a b c) (fun hv' r => B hv' r (Z.lxor (Z.lxor x y) z)).
  Proof.
    intros (xs & A1 & A2 & <-) (ys & B1 & B2 & <-) (zs & C1 & C2 & <-). eapply ok_imp; [eapply (ok_bw3 _ (fun x y z => xorb (xorb x y) z)); [|exact A1|exact B1|exact C1]|].
    - intros h p u v w P Q R. step ok_bxor. apply ok_bxor; auto.
    - cbv beta. intros h r X H. eexists. split; [exact H|]. split; [rewrite map3_length; lia|]. rewrite (map3_2 _ xorb xorb) by auto. rewrite !le_xor; rewrite ?map2_length; lia.
  Qed.
  Lemma len3_ok hv a b c x y z : B hv a x -> B hv b y -> B hv c z -> len3 a b c = true.
  Proof. intros A1 B1 C1. unfold len3. rewrite (B_len _ _ _ A1), (B_len _ _ _ B1), (B_len _ _ _ C1). reflexivity. Qed.
  Lemma ok_ch' hv a b c x y z : B hv a x -> B hv b y -> B hv c z -> ok hv (ch_le a b c) (fun hv' r => B hv' r (Ch x y z)).
  Proof.
    intros H1 H2 H3. unfold ch_le. rewrite (len3_ok _ _ _ _ _ _ _ H1 H2 H3). destruct H1 as (xs & A1 & A2 & <-), H2 as (ys & B1 & B2 & <-), H3 as (zs & C1 & C2 & <-).
    eapply ok_imp; [eapply (ok_bw3 _ (fun x y z => xorb (andb x y) (andb (negb x) z))); [|exact A1|exact B1|exact C1]|].
    - intros h [[p q] r] u v w P Q R. cbn [fst snd] in *. step ok_band. step ok_bnot. step ok_band. apply ok_bxor; auto.
    - cbv beta. intros h r X H. eexists. split; [exact H|]. split; [rewrite map3_length; lia|].
      assert (E : map3 (fun x y z => xorb (andb x y) (andb (negb x) z)) xs ys zs = map2 xorb (map2 andb xs ys) (map2 andb (map negb xs) zs)).
      { clear. revert ys zs. induction xs as [|x xs IH]; intros [|y ys] [|z zs]; cbn; auto. rewrite IH. reflexivity. }
      rewrite E. rewrite le_xor, !le_and, le_not, A2; rewrite ?map2_length, ?map_length; try lia; try reflexivity. all: rewrite ?map2_length, ?map_length; try lia. all: rewrite ?map2_length, ?map_length; lia.
  Qed.
  Lemma ok_maj' hv a b c x y z : B hv a x -> B hv b y -> B hv c z -> ok hv (maj_le a b c) (fun hv' r => B hv' r (Maj x y z)).
  Proof.
    intros H1 H2 H3. unfold maj_le. rewrite (len3_ok _ _ _ _ _ _ _ H1 H2 H3). destruct H1 as (xs & A1 & A2 & <-), H2 as (ys & B1 & B2 & <-), H3 as (zs & C1 & C2 & <-).
    eapply ok_imp; [eapply (ok_bw3 _ (fun x y z => xorb (andb y z) (xorb (andb x y) (andb x z)))); [|exact A1|exact B1|exact C1]|].
    - intros h [[p q] r] u v w P Q R. cbn [fst snd] in *. step ok_band. step ok_band. step ok_band. step ok_bxor. apply ok_bxor; auto.
    - cbv beta. intros h r X H. eexists. split; [exact H|]. split; [rewrite map3_length; lia|].
      assert (E : map3 (fun x y z => xorb (andb y z) (xorb (andb x y) (andb x z))) xs ys zs = map2 xorb (map2 xorb (map2 andb xs ys) (map2 andb xs zs)) (map2 andb ys zs)).
      { clear. revert ys zs. induction xs as [|x xs IH]; intros [|y ys] [|z zs]; cbn; auto. rewrite IH. f_equal. destruct x, y, z; reflexivity. }
      rewrite E. rewrite !le_xor, !le_and; rewrite ?map2_length; try lia; try reflexivity. all: rewrite ?map2_length, ?map_length; try lia. all: rewrite ?map2_length, ?map_length; lia.
  Qed.
  Ltac w32 A := rewrite (B_len _ _ _ A); cbn [Nat.eqb].
  Lemma ok_bsig0' hv a x : B hv a x -> ok hv (cap_sigma0 a) (fun hv' r => B hv' r (bsig0 x)).
  Proof. intros A. unfold cap_sigma0. w32 A. apply ok_xor3'; apply (B_rotr hv a x); auto; lia. Qed.
  Lemma ok_bsig1' hv a x : B hv a x -> ok hv (cap_sigma1 a) (fun hv' r => B hv' r (bsig1 x)).
  Proof. intros A. unfold cap_sigma1. w32 A. apply ok_xor3'; apply (B_rotr hv a x); auto; lia. Qed.
  Lemma ok_ssig0' hv a x : B hv a x -> ok hv (sigma0 a) (fun hv' r => B hv' r (ssig0 x)).
  Proof. intros A. unfold sigma0. w32 A. eapply ok_bind; [apply (ok_rs hv a x 3); auto; lia|]. cbv beta. intros h s X Hs. up. apply ok_xor3'; [apply (B_rotr h a x)|apply (B_rotr h a x)|]; auto; lia. Qed.
  Lemma ok_ssig1' hv a x : B hv a x -> ok hv (sigma1 a) (fun hv' r => B hv' r (ssig1 x)).
  Proof. intros A. unfold sigma1. w32 A. eapply ok_bind; [apply (ok_rs hv a x 10); auto; lia|]. cbv beta. intros h s X Hs. up. apply ok_xor3'; [apply (B_rotr h a x)|apply (B_rotr h a x)|]; auto; lia. Qed.
  (* ------------------------------------------------------------ the reduced sum *)
  Lemma ibs_nth hv xs bs i d e : ibs hv xs bs -> i < length xs -> ib hv (nth i xs d) (nth i bs e).
  Proof. intros A. revert i. induction A; intros i Hi; cbn in Hi; [lia|]. destruct i; cbn; auto. apply IHA. lia. Qed.
  Lemma top_bit n z : (0 <= z < 2 ^ Z.of_nat (S n))%Z -> Z.b2z (nth n (le_bits (S n) z) false) = (z / 2 ^ Z.of_nat n)%Z.
  Proof.
    intros R. rewrite nth_le_bits. destruct (Nat.ltb_spec n (S n)); [|lia]. cbn [andb]. rewrite Z.testbit_spec' by lia. apply Z.mod_small.
    rewrite Nat2Z.inj_succ, Z.pow_succ_r in R by lia. split; [apply Z.div_pos; lia|apply Z.div_lt_upper_bound; lia].
  Qed.
  Lemma ok_sha_add hv p q v u : T hv p v -> T hv q u -> ok hv (sha_m31_26_add p q 26) (fun hv' r => T hv' r (w32 (v + u))).
  Proof.
    intros (R1 & A1 & A2) (R2 & B1 & B2). unfold sha_m31_26_add.
    assert (Q1 : (0 <= v / 2 ^ 26 < 64)%Z) by (split; [apply Z.div_pos; lia|apply Z.div_lt_upper_bound; lia]).
    assert (Q2 : (0 <= u / 2 ^ 26 < 64)%Z) by (split; [apply Z.div_pos; lia|apply Z.div_lt_upper_bound; lia]).
    pose proof (Z.div_mod v (2 ^ 26) ltac:(lia)) as E1. pose proof (Z.mod_pos_bound v (2 ^ 26) ltac:(lia)) as M1.
    pose proof (Z.div_mod u (2 ^ 26) ltac:(lia)) as E2. pose proof (Z.mod_pos_bound u (2 ^ 26) ltac:(lia)) as M2.
    set (vl := (v mod 2 ^ 26)%Z) in *. set (vh := (v / 2 ^ 26)%Z) in *. set (ul := (u mod 2 ^ 26)%Z) in *. set (uh := (u / 2 ^ 26)%Z) in *.
    eapply ok_bind; [apply ok_vconst|]. cbv beta. intros h1 z1 X1 _. up. eapply ok_bind; [apply ok_vconst|]. cbv beta. intros h2 z2 X2 Hz. up.
    step ok_vadd. step ok_vadd. rewrite Z.add_0_r in H0. clear H Hz.
    eapply ok_bind; [apply (ok_vbits _ _ _ (26 + 1) H0); [change (Z.of_nat (26 + 1)) with 27%Z; lia|lia]|]. cbv beta. intros h3 bs X3 Hbs. up.
    cbv zeta. pose proof (ibs_nth _ _ _ 26 0 false Hbs) as Hc. rewrite (ibs_length _ _ _ Hbs), le_bits_length in Hc. specialize (Hc ltac:(lia)). apply V_b in Hc.
    change (26 + 1) with 27 in Hc. rewrite (top_bit 26) in Hc by (change (Z.of_nat 27) with 27%Z; lia). change (Z.of_nat 26) with 26%Z in Hc. set (c := ((vl + ul) / 2 ^ 26)%Z) in *.
    pose proof (Z.div_mod (vl + ul) (2 ^ 26) ltac:(lia)) as E3. pose proof (Z.mod_pos_bound (vl + ul) (2 ^ 26) ltac:(lia)) as M3. fold c in E3.
    assert (Qc : (0 <= c <= 1)%Z) by lia.
    eapply ok_bind; [apply (ok_vmulk _ _ _ (pow2 26) Hc)|]. cbv beta. intros h4 t1 X4 Ht. up. step ok_vsub. step ok_vadd. step ok_vadd.
    eapply ok_bind; [apply (ok_vbits _ _ _ 7 H2); [change (Z.of_nat 7) with 7%Z; lia|lia]|]. cbv beta. intros h5 bs2 X5 Hbs2. up.
    pose proof (ibs_nth _ _ _ 6 0 false Hbs2) as Hd. rewrite (ibs_length _ _ _ Hbs2), le_bits_length in Hd. specialize (Hd ltac:(lia)). apply V_b in Hd.
    rewrite (top_bit 6) in Hd by (change (Z.of_nat 7) with 7%Z; lia). change (Z.of_nat 6) with 6%Z in Hd. set (d := ((vh + uh + c) / 2 ^ 6)%Z) in *.
    pose proof (Z.div_mod (vh + uh + c) (2 ^ 6) ltac:(lia)) as E4. pose proof (Z.mod_pos_bound (vh + uh + c) (2 ^ 6) ltac:(lia)) as M4. fold d in E4.
    assert (Qd : (0 <= d <= 1)%Z) by lia.
    eapply ok_bind; [apply (ok_vmulk _ _ _ (pow2 6) Hd)|]. cbv beta. intros h6 t2 X6 Ht2. up. step ok_vsub. apply ok_ret.
    unfold pow2 in *. change (Z.of_nat 26) with 26%Z in *. change (Z.of_nat 6) with 6%Z in *.
    assert (Ew : w32 (v + u) = ((vl + ul - c * 2 ^ 26) + 2 ^ 26 * (vh + uh + c - d * 2 ^ 6))%Z).
    { unfold w32. symmetry. apply (Z.mod_unique_pos _ _ d); [|lia]. lia. }
    split; [rewrite Ew; lia|]. cbn [fst snd]. rewrite Ew.
    assert (Ed : (((vl + ul - c * 2 ^ 26) + 2 ^ 26 * (vh + uh + c - d * 2 ^ 6)) mod 2 ^ 26 = vl + ul - c * 2 ^ 26)%Z) by (symmetry; apply (Z.mod_unique_pos _ _ (vh + uh + c - d * 2 ^ 6)); lia).
    assert (Eq : (((vl + ul - c * 2 ^ 26) + 2 ^ 26 * (vh + uh + c - d * 2 ^ 6)) / 2 ^ 26 = vh + uh + c - d * 2 ^ 6)%Z) by (symmetry; apply (Z.div_unique_pos _ _ _ (vl + ul - c * 2 ^ 26)); lia).
    rewrite Ed, Eq. auto.
  Qed.
  (* ------------------------------------------------------------ bytes *)
  Lemma ok_idiv hv x z b : V hv x z -> (0 <= z < 2 ^ 30)%Z -> b <= 30 -> ok hv (idiv_mod_bit x b) (fun hv' r => V hv' (fst r) (z / 2 ^ Z.of_nat b) /\ V hv' (snd r) (z mod 2 ^ Z.of_nat b)).
  Proof.
    intros A R Hb. unfold idiv_mod_bit. eapply ok_bind; [apply (ok_vbits _ _ _ 30 A); auto|]. cbv beta. intros h bs X H. up.
    destruct (Nat.ltb_spec 30 b); [lia|]. assert (E30 : le (le_bits 30 z) = z) by (rewrite le_le_bits; apply Z.mod_small; auto).
    eapply ok_bind; [apply ok_from, ibs_skipn, H|]. cbv beta. intros h2 q X2 Hq. up. eapply ok_bind; [apply ok_from, ibs_firstn, H|]. cbv beta. intros h3 r X3 Hr. up.
    apply ok_ret. cbn [fst snd]. rewrite le_skipn, E30 in Hq by (rewrite le_bits_length; lia). rewrite le_firstn, E30 in Hr by (rewrite le_bits_length; lia). auto.
  Qed.
  Definition word_bytes (w : Z) : list Z := map (fun i => (w / 2 ^ i) mod 256)%Z [24; 16; 8; 0]%Z.
  Lemma ok_put hv p v : T hv p v -> ok hv (m31_26_array_put_uint32 p) (fun hv' r => Forall2 (V hv') r (word_bytes v)).
  Proof.
    intros (R & A1 & A2). unfold m31_26_array_put_uint32. pose proof (Z.mod_pos_bound v (2 ^ 26) ltac:(lia)) as M. pose proof (Z.div_mod v (2 ^ 26) ltac:(lia)) as E.
    set (l := (v mod 2 ^ 26)%Z) in *. set (hh := (v / 2 ^ 26)%Z) in *.
    assert (D : forall z, (0 <= z < 2 ^ 30 -> 0 <= z / 2 ^ 8 < 2 ^ 30)%Z) by (intros z Hz; split; [apply Z.div_pos; lia|apply Z.div_lt_upper_bound; lia]).
    eapply ok_bind; [apply (ok_idiv _ _ _ 8 A1); lia|]. cbv beta. intros h1 p3 X1 [H1 H1']. change (Z.of_nat 8) with 8%Z in *. up.
    eapply ok_bind; [apply (ok_idiv _ _ _ 8 H1); [apply D; lia|lia]|]. cbv beta. intros h2 p2 X2 [H2 H2']. change (Z.of_nat 8) with 8%Z in *. up.
    eapply ok_bind; [apply (ok_idiv _ _ _ 8 H2); [apply D, D; lia|lia]|]. cbv beta. intros h3 p1 X3 [H3 H3']. change (Z.of_nat 8) with 8%Z in *. up.
    eapply ok_bind; [apply (ok_vmulk _ _ _ 4 A2)|]. cbv beta. intros h4 sh X4 H4. up. step ok_vadd. apply ok_ret. unfold word_bytes. cbn [map].
    assert (L1 : (l / 2 ^ 8 / 2 ^ 8 / 2 ^ 8 = l / 2 ^ 24)%Z) by (rewrite !Z.div_div by lia; reflexivity).
    assert (B0 : (l / 2 ^ 8 / 2 ^ 8 / 2 ^ 8 + hh * 4 = (v / 2 ^ 24) mod 256)%Z).
    { rewrite L1, E. assert (E2 : ((2 ^ 26 * hh + l) / 2 ^ 24 = hh * 4 + l / 2 ^ 24)%Z) by (replace (2 ^ 26 * hh + l)%Z with ((hh * 4) * 2 ^ 24 + l)%Z by lia; apply Z.div_add_l; lia).
      rewrite E2. symmetry. rewrite Z.mod_small; [lia|]. assert (0 <= l / 2 ^ 24 < 4)%Z by (split; [apply Z.div_pos; lia|apply Z.div_lt_upper_bound; lia]). lia. }
    assert (BI : forall i, (0 <= i <= 16 -> (l / 2 ^ i) mod 2 ^ 8 = (v / 2 ^ i) mod 256)%Z).
    { intros i Hi. rewrite E. assert (E2 : (2 ^ 26 = 2 ^ (18 - i) * 256 * 2 ^ i)%Z) by (change 256%Z with (2 ^ 8)%Z; rewrite <- !Z.pow_add_r by lia; f_equal; lia).
      replace (2 ^ 26 * hh + l)%Z with ((2 ^ (18 - i) * hh * 256) * 2 ^ i + l)%Z by (rewrite E2 at 1; ring). rewrite Z.div_add_l by (apply Z.pow_nonzero; lia).
      rewrite Z.add_comm, Z_mod_plus_full. reflexivity. }
    assert (D8 : (l / 2 ^ 8 / 2 ^ 8 = l / 2 ^ 16)%Z) by (rewrite !Z.div_div by lia; reflexivity).
    rewrite B0 in H. rewrite D8 in H3'. rewrite BI in H2', H3' by lia.
    assert (H1'' : (l mod 2 ^ 8 = (v / 2 ^ 0) mod 256)%Z) by (rewrite <- BI by lia; change (2 ^ 0)%Z with 1%Z; rewrite Z.div_1_r; reflexivity).
    rewrite H1'' in H1'. repeat (constructor; [assumption|]). constructor.
  Qed.
  Definition byte (z : Z) : Prop := (0 <= z < 256)%Z.
  Lemma ok_b2b hv l : forall vs, Forall2 (V hv) l vs -> Forall byte vs -> l <> [] -> ok hv (bytes_to_bits l) (fun hv' r => ibs hv' r (rev (bytes_bits vs))).
  Proof.
    intros vs A Hb N. destruct A as [|x v l vs Hx A]; [congruence|]. inversion Hb as [|v0 vs0 Hv Hvs]; subst. unfold bytes_to_bits.
    eapply ok_bind; [apply (ok_vbits _ _ _ 8 Hx); [exact Hv|lia]|]. cbv beta. intros h1 r X1 H1.
    assert (A1 : Forall2 (V h1) l vs) by (eapply f2_impl; [|exact A]; intros; eapply V_ext; eauto).
    eapply ok_imp. 
    - eapply (ok_gfold (fun ret v => bs <-- a_tobin v 8;; gret (bs ++ ret)) (fun hv a x => V hv a x /\ byte x) (fun hv s y => ibs hv s (rev (bytes_bits y))) (fun y x => y ++ [x])) with (xs := vs) (y := [v]).
      + intros h h' a y X [P Q]. split; auto. eapply V_ext; eauto.
      + intros h s y a z Hs [P Q]. eapply ok_bind; [apply (ok_vbits _ _ _ 8 P); [exact Q|lia]|]. cbv beta. intros h2 bs X2 H2. up. apply ok_ret.
        unfold bytes_bits. rewrite map_app, concat_app, rev_app_distr. cbn [map concat]. rewrite app_nil_r, be_bits_le, rev_involutive. apply Forall2_app; [exact H2|exact Hs].
      + clear - A1 Hvs. revert Hvs. induction A1; intros Hvs; constructor; inversion Hvs; subst; auto.
      + unfold bytes_bits. cbn [map concat]. rewrite app_nil_r, be_bits_le, rev_involutive. exact H1.
    - cbv beta. intros h r' X Hr. assert (E : forall us ws : list Z, fold_left (fun y x => y ++ [x]) us ws = ws ++ us) by (induction us as [|u us IH]; intros ws; cbn; [rewrite app_nil_r; auto|rewrite IH, <- app_assoc; auto]).
      rewrite E in Hr. exact Hr.
  Qed.
End Facts.
