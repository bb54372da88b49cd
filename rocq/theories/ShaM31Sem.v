(* SHA-256 over a prime field: one block, padding, the whole hash. *)
From Verif Require Import Prelude Field Expr Hints Ir IrInst ApiSpec Gadget ShaSpec ShaGf2 ShaGf2Facts ShaGf2Sem ShaM31 ShaM31Facts.
Open Scope nat_scope.

Section Sem.
  Context {F : Fld}.
  Hypothesis Hp : (2 ^ 30 < fmod F)%Z.
  Notation ib := (@ib F). Notation ibs := (@ibs F). Notation V := (@V F). Notation B := (@B F). Notation T := (@T F). Notation Bs := (@Bs F). Notation Ts := (@Ts F). Notation L := (@L F).
  Ltac up := repeat match goal with
    | X : ext ?a ?b, H : ShaGf2Facts.ib ?a _ _ |- _ => apply (ib_ext _ _ _ _ X) in H
    | X : ext ?a ?b, H : ShaGf2Facts.ibs ?a _ _ |- _ => apply (ibs_ext _ _ _ _ X) in H
    | X : ext ?a ?b, H : ShaM31Facts.V ?a _ _ |- _ => apply (V_ext _ _ _ _ X) in H
    | X : ext ?a ?b, H : ShaM31Facts.B ?a _ _ |- _ => apply (B_ext _ _ _ _ X) in H
    | X : ext ?a ?b, H : ShaM31Facts.T ?a _ _ |- _ => apply (T_ext _ _ _ _ X) in H
    | X : ext ?a ?b, H : ShaM31Facts.L _ ?a _ _ |- _ => apply (L_ext _ _ _ _ _ X) in H
    | X : ext ?a ?b, H : ShaM31Facts.Bs ?a _ _ |- _ => apply (Bs_ext _ _ _ _ X) in H
    | X : ext ?a ?b, H : ShaM31Facts.Ts ?a _ _ |- _ => apply (Ts_ext _ _ _ _ X) in H
    | X : ext ?a ?b |- _ => clear X a || clear X end.
  Ltac next h x X H := cbv beta; intros h x X H; up.

  Lemma Bs_nth hv : forall a x i, Bs hv a x -> i < length a -> B hv (nth i a []) (nth i x 0%Z).
  Proof. intros a x i A. revert i. induction A; intros i Hi; cbn in Hi; [lia|]. destruct i; cbn; auto. apply IHA. lia. Qed.
  Lemma ok_sched31 n : forall i hv w ws, Bs hv w ws -> length w = i -> 16 <= i ->
    ok hv (gfold sched_step31 (seq i n) w) (fun hv' w' => Bs hv' w' (fold_left W_next (seq i n) ws)).
  Proof.
    induction n as [|n IH]; intros i hv w ws A Lw Hi; cbn [seq gfold fold_left].
    - apply ok_ret. auto.
    - eapply ok_bind with (P := fun hv' w' => Bs hv' w' (W_next ws i) /\ length w' = S i).
      + unfold sched_step31. assert (N : forall j, j < i -> B hv (nth j w []) (nth j ws 0%Z)) by (intros j Hj; apply Bs_nth; auto; lia).
        pose proof (N (i - 2) ltac:(lia)) as A2. pose proof (N (i - 7) ltac:(lia)) as A7. pose proof (N (i - 15) ltac:(lia)) as A15. pose proof (N (i - 16) ltac:(lia)) as A16. clear N.
        eapply ok_bind; [apply (ok_ssig1' _ _ _ A2)|]. next h1 x1 X1 H1. eapply ok_bind; [apply (ok_pack _ _ _ H1)|]. next h2 x2 X2 H2.
        eapply ok_bind; [apply (ok_pack _ _ _ A7)|]. next h3 x3 X3 H3.
        eapply ok_bind; [apply (ok_ssig0' _ _ _ A15)|]. next h4 x4 X4 H4. eapply ok_bind; [apply (ok_pack _ _ _ H4)|]. next h5 x5 X5 H5.
        eapply ok_bind; [apply (ok_pack _ _ _ A16)|]. next h6 x6 X6 H6.
        eapply ok_bind; [eapply ok_nored; apply T_L; [exact H2|exact H3]|]. next h7 x7 X7 H7. eapply ok_bind; [eapply ok_nored; apply T_L; [exact H5|exact H6]|]. next h8 x8 X8 H8.
        eapply ok_bind; [eapply ok_nored; [exact H7|exact H8]|]. next h9 x9 X9 H9. eapply ok_bind; [apply (ok_unpack Hp _ _ _ _ 2 H9); try lia; discriminate|]. next h10 x10 X10 H10.
        apply ok_ret. split; [|rewrite app_length; cbn [length]; unfold bword in *; lia]. apply Forall2_app; [exact A|]. constructor; [|constructor]. rewrite Z.add_assoc in H10. exact H10.
      + cbv beta. intros h w' X [A' L']. apply IH; auto.
  Qed.
  Definition R8 (hv : list F) (s : RS) (v : Z * Z * Z * Z * Z * Z * Z * Z) : Prop :=
    let '(a, b, c, d, e, f, g, h) := v in Ts hv (r_w s) [a; b; c; d; e; f; g; h] /\ Bs hv (r_b s) [a; b; c; e; f; g].
  Lemma f2_cons {A C} (R : A -> C -> Prop) l y ys : Forall2 R l (y :: ys) -> exists x xs, l = x :: xs /\ R x y /\ Forall2 R xs ys.
  Proof. intros H. inversion H; subst. eauto. Qed.
  Lemma f2_nil {A C} (R : A -> C -> Prop) l : Forall2 R l [] -> l = []. Proof. intros H. inversion H; auto. Qed.
  Ltac un H := let x := fresh "x" in let xs := fresh "xs" in let E := fresh "E" in let Q := fresh "Q" in let H' := fresh "H" in
    apply f2_cons in H; destruct H as (x & xs & E & Q & H'); subst; first [un H' | apply f2_nil in H'; subst].
  Lemma ok_start hv w a b c d e f g h : Ts hv w [a; b; c; d; e; f; g; h] -> ok hv (start w) (fun hv' s => R8 hv' s (a, b, c, d, e, f, g, h) /\ r_w s = w).
  Proof.
    intros A. pose proof A as A'. unfold ShaM31Facts.Ts in A. un A. unfold start.
    assert (RR : forall v, (0 <= v < 2 ^ 32 -> w32 v = v)%Z) by (intros; apply w32_small; auto).
    eapply ok_bind.
    - eapply (ok_gmap _ (fun hv => T hv) (fun hv => B hv) (fun z => w32 z)) with (xs := [a; b; c; e; f; g]).
      + apply T_ext. + apply B_ext.
      + intros hh p v Hv. eapply ok_bind; [apply (ok_unpack Hp _ _ _ _ 0 (T_L _ _ _ Hv)); try lia; discriminate|]. next h1 bits X1 H1. apply ok_ret. exact H1.
      + repeat (constructor; [assumption|]). constructor.
    - next h1 bs X1 H1. apply ok_ret. cbn [r_w r_b]. split; [|reflexivity]. split; [exact A'|]. cbn [map] in H1.
      repeat match goal with X : ShaM31Facts.T _ _ ?v |- _ => let R := fresh "R" in pose proof (proj1 X) as R; rewrite ?(RR v R) in H1; clear X end. exact H1.
  Qed.
  Definition RKK (hv : list F) (p : list nat * list nat) (q : Z * Z) : Prop := B hv (fst p) (fst q) /\ B hv (snd p) (snd q).
  Lemma ok_round31 hv s v p q : R8 hv s v -> RKK hv p q -> ok hv (round31 s p) (fun hv' s' => R8 hv' s' (round v q)).
  Proof.
    destruct v as [[[[[[[a b] c] d] e] f] g] h], p as [kb w], q as [kk ww], s as [rw rb]. unfold R8, RKK. cbn [r_w r_b fst snd]. intros [A A'] [HK HW].
    unfold ShaM31Facts.Ts in A. unfold ShaM31Facts.Bs in A'. un A. un A'. unfold round31. cbn [r_w r_b].
    rename x into pa, x0 into pb, x1 into pc, x2 into pd, x3 into pe, x4 into pf, x5 into pg, x6 into ph, x7 into ba, x8 into bb, x9 into bc, x10 into be_, x11 into bf, x12 into bg.
    eapply ok_bind; [apply ok_vconst|]. next h0 z0 X0 Hz. clear Hz.
    eapply ok_bind; [eapply ok_bsig1'; eassumption|]. next h1 x1 X1 H1. eapply ok_bind; [apply (ok_pack _ _ _ H1)|]. next h2 x2 X2 H2.
    eapply ok_bind; [eapply ok_ch'; [| |]; [exact Q10|exact Q11|exact Q12]|]. next h3 x3 X3 H3. eapply ok_bind; [apply (ok_pack _ _ _ H3)|]. next h4 x4 X4 H4.
    eapply ok_bind; [apply (ok_pack _ _ _ HK)|]. next h5 x5 X5 H5. eapply ok_bind; [apply (ok_pack _ _ _ HW)|]. next h6 x6 X6 H6.
    eapply ok_bind; [eapply ok_nored; apply T_L; [exact Q6|exact H2]|]. next h7 x7 X7 H7. eapply ok_bind; [eapply ok_nored; apply T_L; [exact H4|exact H5]|]. next h8 x8 X8 H8.
    eapply ok_bind; [eapply ok_nored; [exact H7|exact H8]|]. next h9 x9 X9 H9. eapply ok_bind; [eapply ok_nored; [exact H9|apply T_L; exact H6]|]. next h10 t1 X10 Ht1.
    eapply ok_bind; [eapply ok_bsig0'; eassumption|]. next h11 x11 X11 H11. eapply ok_bind; [apply (ok_pack _ _ _ H11)|]. next h12 x12 X12 H12.
    eapply ok_bind; [eapply ok_maj'; [exact Q7|exact Q8|exact Q9]|]. next h13 x13 X13 H13. eapply ok_bind; [apply (ok_pack _ _ _ H13)|]. next h14 x14 X14 H14.
    eapply ok_bind; [eapply ok_nored; apply T_L; [exact H12|exact H14]|]. next h15 t2 X15 Ht2.
    eapply ok_bind; [eapply ok_nored; [exact Ht1|exact Ht2]|]. next h16 na X16 Hna. eapply ok_bind; [apply (ok_unpack Hp _ _ _ _ 4 Hna); try lia; discriminate|]. next h17 nab X17 Hnab. cbv zeta.
    eapply ok_bind; [eapply ok_nored; [apply T_L; exact Q2|exact Ht1]|]. next h18 ne X18 Hne. eapply ok_bind; [apply (ok_unpack Hp _ _ _ _ 4 Hne); try lia; discriminate|]. next h19 neb X19 Hneb.
    eapply ok_bind; [apply (ok_pack _ _ _ Hnab)|]. next h20 a' X20 Ha. eapply ok_bind; [apply (ok_pack _ _ _ Hneb)|]. next h21 e' X21 He.
    apply ok_ret. unfold round. cbn [r_w r_b fst snd].
    assert (E1 : w32 (h + bsig1 e + (Ch e f g + kk) + ww + (bsig0 a + Maj a b c)) = w32 (w32 (h + bsig1 e + Ch e f g + kk + ww) + w32 (bsig0 a + Maj a b c))) by (rewrite w32_add, w32_add_r; f_equal; lia).
    assert (E2 : w32 (d + (h + bsig1 e + (Ch e f g + kk) + ww)) = w32 (d + w32 (h + bsig1 e + Ch e f g + kk + ww))) by (rewrite w32_add_r; f_equal; lia).
    rewrite E1 in Ha, Hnab. rewrite E2 in He, Hneb. split; repeat (constructor; [assumption|]); constructor.
  Qed.
  Lemma R8_ext hv hv' s v : ext hv hv' -> R8 hv s v -> R8 hv' s v.
  Proof. destruct v as [[[[[[[a b] c] d] e] f] g] h]. intros X [P Q]. split; [eapply Ts_ext|eapply Bs_ext]; eauto. Qed.
  Lemma RKK_ext hv hv' s v : ext hv hv' -> RKK hv s v -> RKK hv' s v. Proof. intros X [P Q]. split; eapply B_ext; eauto. Qed.
  Lemma RKK_combine hv : forall k ks w ws, Bs hv k ks -> Bs hv w ws -> Forall2 (RKK hv) (combine k w) (combine ks ws).
  Proof. intros k ks w ws A. revert w ws. induction A; intros w ws C; cbn; [constructor|]. destruct C; constructor; auto. split; auto. Qed.
  Lemma ok_rounds hv s v k ks w ws : R8 hv s v -> Bs hv k ks -> Bs hv w ws -> ok hv (gfold round31 (combine k w) s) (fun hv' s' => R8 hv' s' (fold_left round (combine ks ws) v)).
  Proof.
    intros A C D. apply (ok_gfold round31 RKK R8 round); auto. apply RKK_ext. intros; apply ok_round31; auto. apply RKK_combine; auto.
  Qed.
  Lemma ok_add_state hv h w vs us : Ts hv h vs -> Ts hv w us -> ok hv (add_state h w) (fun hv' r => Ts hv' r (map2 (fun x y => w32 (x + y)) vs us)).
  Proof.
    intros A C. unfold add_state. eapply ok_imp.
    - eapply (ok_gmap (fun p => sha_m31_26_add (fst p) (snd p) 26) (fun hv p q => T hv (fst p) (fst q) /\ T hv (snd p) (snd q)) (fun hv => T hv) (fun q => w32 (fst q + snd q))).
      + intros h1 h2 p q X [P Q]. split; eapply T_ext; eauto. + apply T_ext. + intros h1 p q [P Q]. apply ok_sha_add; auto.
      + instantiate (1 := combine vs us). revert w us C. induction A; intros w us C; cbn; [constructor|]. destruct C; constructor; auto.
    - cbv beta. intros h1 r X H. rewrite (map_combine (fun x y => w32 (x + y))) in H. exact H.
  Qed.
  (* ------------------------------------------------------------ one chunk *)
  Lemma fa_firstn (A : Type) (P : A -> Prop) n (l : list A) : Forall P l -> Forall P (firstn n l).
  Proof. intros H. revert n. induction H; intros [|n]; cbn [firstn]; auto. Qed.
  Definition chunk_words (m : list Z) : list Z := map (fun b => be (bytes_bits b)) (cut 4 16 m).
  Definition Vs (hv : list F) := Forall2 (V hv).
  Lemma Vs_ext hv hv' w v : ext hv hv' -> Vs hv w v -> Vs hv' w v. Proof. intros X H. induction H; constructor; eauto using V_ext. Qed.
  Lemma bytes_bits_length l : length (bytes_bits l) = 8 * length l.
  Proof. unfold bytes_bits. induction l as [|x l IH]; cbn [map concat length]; auto. rewrite app_length, be_bits_length, IH. lia. Qed.
  Lemma ok_chunk_words n : forall hv p bs, Vs hv p bs -> Forall byte bs -> length bs = 4 * n -> ok hv (gmap bytes_to_bits (cut 4 n p)) (fun hv' w => Bs hv' w (map (fun b => be (bytes_bits b)) (cut 4 n bs))).
  Proof.
    intros hv p bs A Hb Ln. eapply (ok_gmap _ (fun hv l vs => Vs hv l vs /\ Forall byte vs /\ length vs = 4) (fun hv => B hv) (fun b => be (bytes_bits b))).
    - intros h h' a x X (P & Q & R). split; auto. eapply Vs_ext; eauto.
    - apply B_ext.
    - intros h a x (P & Q & R). eapply ok_imp; [apply (ok_b2b Hp h a x); auto; intros ->; inversion P; subst; discriminate|]. cbv beta. intros h2 w X H. exists (rev (bytes_bits x)).
      split; [exact H|]. split; [rewrite rev_length, bytes_bits_length, R; reflexivity|]. rewrite be_le. reflexivity.
    - revert p bs A Hb Ln. induction n as [|n IH]; intros p bs A Hb Ln; cbn [cut]; constructor.
      + split; [apply Forall2_firstn; exact A|]. split; [apply fa_firstn; auto|]. rewrite firstn_length. lia.
      + apply IH; [apply Forall2_skipn; auto| |rewrite skipn_length; lia]. rewrite <- (firstn_skipn 4 bs) in Hb. apply Forall_app in Hb. tauto.
  Qed.
  Lemma compress_rounds h m a b c d e f g x : h = [a; b; c; d; e; f; g; x] ->
    compress h m = map2 (fun x y => w32 (x + y)) h (let '(a', b', c', d', e', f', g', h') := fold_left round (combine K (schedule m)) (a, b, c, d, e, f, g, x) in [a'; b'; c'; d'; e'; f'; g'; h']).
  Proof.
    intros ->. unfold compress. destruct (fold_left round _ _) as [[[[[[[va vb] vc] vd] ve] vf] vg] vh]. cbn [map2].
    rewrite !(Z.add_comm _ a), !(Z.add_comm _ b), !(Z.add_comm _ c), !(Z.add_comm _ d), !(Z.add_comm _ e), !(Z.add_comm _ f), !(Z.add_comm _ g), !(Z.add_comm _ x). reflexivity.
  Qed.
  Lemma ok_sched16 hv w l : Bs hv w l -> length w = 16 -> ok hv (gfold sched_step31 (seq 16 48) w) (fun hv' r => Bs hv' r (schedule l)).
  Proof. intros A C. apply (ok_sched31 48 16 _ _ _ A C). lia. Qed.
  Opaque K schedule.
  Lemma ok_block d hv h hs p bs : Bs hv (d_kbits d) K -> Ts hv h hs -> length hs = 8 -> Vs hv p bs -> Forall byte bs -> length bs = 64 ->
    ok hv (block d h p) (fun hv' r => Ts hv' r (compress hs (chunk_words bs))).
  Proof.
    intros HK HH L8 A Hb L64. destruct hs as [|a [|b [|c [|dd [|e [|f [|g [|x [|]]]]]]]]]; try discriminate L8. unfold block.
    eapply ok_bind; [apply (ok_chunk_words 16 _ _ _ A); auto|]. fold (chunk_words bs). next h1 w X1 Hw.
    assert (Lw : length w = 16). { apply f2_length in Hw. rewrite Hw. unfold chunk_words. rewrite map_length. apply cut_length. }
    eapply ok_bind; [apply (ok_sched16 _ _ _ Hw Lw)|]. next h2 w2 X2 Hw2.
    eapply ok_bind; [apply (ok_start _ _ _ _ _ _ _ _ _ _ HH)|]. next h3 s X3 Hs. destruct Hs as [Hs _].
    eapply ok_bind; [apply (ok_rounds _ _ _ _ _ _ _ Hs HK Hw2)|]. next h4 s4 X4 Hs4.
    rewrite (compress_rounds _ _ a b c dd e f g x eq_refl). destruct (fold_left round _ _) as [[[[[[[va vb] vc] vd] ve] vf] vg] vh]. destruct Hs4 as [Hs4 _].
    apply ok_add_state; auto.
  Qed.
  (* the object *)
  Definition D (hv : list F) (d : MyDigest) (h : list Z) : Prop := Ts hv (d_h d) h /\ length h = 8 /\ Bs hv (d_kbits d) K.
  Lemma D_ext hv hv' d h : ext hv hv' -> D hv d h -> D hv' d h. Proof. intros X (A & C & E). split; [eapply Ts_ext; eauto|]. split; auto. eapply Bs_ext; eauto. Qed.
  Lemma ok_chunk_write hv d h p bs : D hv d h -> Vs hv p bs -> Forall byte bs -> length bs = 64 -> ok hv (chunk_write d p) (fun hv' d' => D hv' d' (compress h (chunk_words bs))).
  Proof.
    intros (A & C & E) P Hb L64. unfold chunk_write. rewrite (f2_length _ _ _ P), L64. cbn [Nat.eqb]. eapply ok_bind; [eapply ok_block; eauto|]. next h1 r X1 H1.
    apply ok_ret. split; [exact H1|]. split; [apply compress_length; auto|exact E].
  Qed.
  Lemma INIT_H0 : INIT = H0. Proof. vm_compute. reflexivity. Qed.
  Transparent K.
  Lemma K_K : K_ = K. Proof. vm_compute. reflexivity. Qed.
  Opaque K.
  Lemma land_mask z n : (0 <= n)%Z -> Z.land z (Z.ones n) = (z mod 2 ^ n)%Z. Proof. intros. apply Z.land_ones. auto. Qed.
  Lemma ok_init hv : ok hv init_h (fun hv' h => Ts hv' h H0).
  Proof.
    unfold init_h. assert (R : Forall2 (fun z z' : Z => z = z' /\ (0 <= z < 2 ^ 32)%Z) INIT INIT) by (unfold INIT; repeat constructor; discriminate).
    eapply ok_imp; [eapply (ok_gmap _ (fun _ z z' => z = z' /\ (0 <= z < 2 ^ 32)%Z) (fun hv => T hv) (fun z => z)); [auto|apply T_ext| |exact R]|].
    - intros h z z' [<- Rz]. eapply ok_bind; [apply ok_vconst|]. next h1 lo X1 H1. eapply ok_bind; [apply ok_vconst|]. next h2 hi X2 H2. apply ok_ret. split; [exact Rz|]. cbn [fst snd].
      change 0x03FFFFFF%Z with (Z.ones 26) in H1. rewrite Z.land_ones in H1 by lia. rewrite Z.shiftr_div_pow2 in H2 by lia. auto.
    - cbv beta. intros h r X H. rewrite map_id in H. rewrite <- INIT_H0. exact H.
  Qed.
  Lemma ok_kbits hv : ok hv (gmap (fun z => gmap (fun j => a_const (Z.land (Z.shiftr z (Z.of_nat j)) 1)) (seq 0 32)) K_) (fun hv' kb => Bs hv' kb K).
  Proof.
    assert (R : Forall2 (fun z z' : Z => z = z' /\ (0 <= z < 2 ^ 32)%Z) K_ K_) by (unfold K_; repeat (constructor; [split; [reflexivity|split; [discriminate|reflexivity]]|]); constructor).
    eapply ok_imp; [eapply (ok_gmap _ (fun _ z z' => z = z' /\ (0 <= z < 2 ^ 32)%Z) (fun hv => B hv) (fun z => z)); [auto|apply B_ext| |exact R]|].
    - intros h z z' [<- Rz]. eapply ok_imp; [eapply (ok_gmap _ (fun _ (i j : nat) => i = j) (fun hv => ib hv) (fun i => Z.testbit z (Z.of_nat i))) with (xs := seq 0 32); auto|].
      + apply ib_ext. + intros h1 a j ->. rewrite land1 by lia. apply ok_k. + induction (seq 0 32); constructor; auto.
      + cbv beta. intros h1 xs X H. exists (le_bits 32 z). split; [exact H|]. split; [apply le_bits_length|]. rewrite le_le_bits. apply Z.mod_small. exact Rz.
    - cbv beta. intros h r X H. rewrite map_id in H. rewrite <- K_K. exact H.
  Qed.
  Lemma ok_new hv : ok hv digest_new (fun hv' d => D hv' d H0).
  Proof.
    unfold digest_new. eapply ok_bind; [apply ok_vconst|]. next h1 z1 X1 Hz1. eapply ok_bind; [apply ok_init|]. next h2 h X2 Hh. eapply ok_bind; [apply ok_vconst|]. next h3 z3 X3 Hz3.
    eapply ok_bind; [apply ok_kbits|]. next h4 kb X4 Hkb. apply ok_ret. split; [exact Hh|]. split; [reflexivity|exact Hkb].
  Qed.
  Lemma ok_consts (hv : list F) (z : Z) n : ok hv (gmap (fun _ : nat => a_const z) (seq 0 n)) (fun _ _ => True).
  Proof.
    eapply ok_imp; [eapply (ok_gmap _ (fun _ (i j : nat) => i = j) (fun hv x (y : unit) => True) (fun _ => tt)) with (xs := seq 0 n); auto|].
    - intros. eapply ok_imp; [apply ok_vconst|]. auto. - induction (seq 0 n); constructor; auto. - auto.
  Qed.
  Lemma ok_reset hv d h : D hv d h -> ok hv (digest_reset d) (fun hv' d' => D hv' d' H0).
  Proof.
    intros (A & C & E). unfold digest_reset. eapply ok_bind; [apply ok_consts|]. next h1 z1 X1 Hz1. eapply ok_bind; [apply ok_init|]. next h2 hh X2 Hh. apply ok_ret. split; [exact Hh|]. split; [reflexivity|exact E].
  Qed.
  Lemma ok_sum hv d h : D hv d h -> ok hv (return_sum d) (fun hv' r => Vs hv' r (concat (map word_bytes h))).
  Proof.
    intros (A & C & E). unfold return_sum. eapply ok_bind; [apply ok_vconst|]. next h1 z1 X1 Hz1. eapply ok_bind.
    - eapply (ok_gmap _ (fun hv => T hv) (fun hv => Vs hv) word_bytes); [apply T_ext|apply Vs_ext| |exact A]. intros. apply ok_put; auto.
    - next h2 r X2 Hr. apply ok_ret. clear - Hr. induction Hr; cbn [concat]; [constructor|]. apply Forall2_app; auto.
  Qed.
  Ltac up ::= repeat match goal with
    | X : ext ?a ?b, H : ShaGf2Facts.ib ?a _ _ |- _ => apply (ib_ext _ _ _ _ X) in H
    | X : ext ?a ?b, H : ShaGf2Facts.ibs ?a _ _ |- _ => apply (ibs_ext _ _ _ _ X) in H
    | X : ext ?a ?b, H : ShaM31Facts.V ?a _ _ |- _ => apply (V_ext _ _ _ _ X) in H
    | X : ext ?a ?b, H : ShaM31Facts.B ?a _ _ |- _ => apply (B_ext _ _ _ _ X) in H
    | X : ext ?a ?b, H : ShaM31Facts.T ?a _ _ |- _ => apply (T_ext _ _ _ _ X) in H
    | X : ext ?a ?b, H : ShaM31Facts.L _ ?a _ _ |- _ => apply (L_ext _ _ _ _ _ X) in H
    | X : ext ?a ?b, H : ShaM31Facts.Bs ?a _ _ |- _ => apply (Bs_ext _ _ _ _ X) in H
    | X : ext ?a ?b, H : ShaM31Facts.Ts ?a _ _ |- _ => apply (Ts_ext _ _ _ _ X) in H
    | X : ext ?a ?b, H : Vs ?a _ _ |- _ => apply (Vs_ext _ _ _ _ X) in H
    | X : ext ?a ?b, H : D ?a _ _ |- _ => apply (D_ext _ _ _ _ X) in H
    | X : ext ?a ?b |- _ => clear X a || clear X end.
  (* ------------------------------------------------------------ bytes and padding *)
  Lemma firstn_bytes c l : firstn (8 * c) (bytes_bits l) = bytes_bits (firstn c l).
  Proof.
    revert c. induction l as [|x l IH]; intros c; [cbn; rewrite !firstn_nil; reflexivity|]. destruct c as [|c]; [reflexivity|]. cbn [firstn]. unfold bytes_bits. cbn [map concat].
    rewrite firstn_app, be_bits_length. rewrite firstn_all2 by (rewrite be_bits_length; lia). f_equal. replace (8 * S c - 8) with (8 * c) by lia. apply IH.
  Qed.
  Lemma skipn_bytes c l : skipn (8 * c) (bytes_bits l) = bytes_bits (skipn c l).
  Proof.
    revert c. induction l as [|x l IH]; intros c; [cbn; rewrite !skipn_nil; reflexivity|]. destruct c as [|c]; [reflexivity|]. cbn [skipn]. unfold bytes_bits. cbn [map concat].
    rewrite skipn_app, be_bits_length. rewrite skipn_all2 by (rewrite be_bits_length; lia). replace (8 * S c - 8) with (8 * c) by lia. apply IH.
  Qed.
  Lemma cut_bytes c n : forall l, cut (8 * c) n (bytes_bits l) = map bytes_bits (cut c n l).
  Proof. induction n as [|n IH]; intros l; [reflexivity|]. cbn [cut map]. rewrite firstn_bytes, skipn_bytes, IH. reflexivity. Qed.
  Lemma blocks_bytes l : blocks (bytes_bits l) = map chunk_words (cut 64 (length l / 64) l).
  Proof.
    unfold blocks. rewrite bytes_bits_length. replace (8 * length l / 512) with (length l / 64) by (change 512 with (8 * 64); rewrite Nat.div_mul_cancel_l; lia).
    change 512 with (8 * 64). rewrite cut_bytes, map_map. apply map_ext. intros b. change 32 with (8 * 4). rewrite cut_bytes, map_map. reflexivity.
  Qed.
  Definition padding (n : nat) : list Z :=
    let len := if 55 <? n mod 64 then 128 - n mod 64 else 64 - n mod 64 in
    firstn (len - 8) ([128%Z] ++ repeat 0%Z (len - 1)) ++ map (fun i => Z.land (Z.shiftr (Z.of_nat (n * 8)) (8 * Z.of_nat (7 - i))) 255) (seq 0 8).
  Lemma bytes_app a b : bytes_bits (a ++ b) = bytes_bits a ++ bytes_bits b.
  Proof. unfold bytes_bits. rewrite map_app, concat_app. auto. Qed.
  Lemma bytes_zero n : bytes_bits (repeat 0%Z n) = repeat false (8 * n).
  Proof. induction n as [|n IH]; [reflexivity|]. replace (8 * S n) with (8 + 8 * n) by lia. rewrite repeat_app, <- IH. reflexivity. Qed.
  Lemma testbit_byte z i j : (0 <= i)%Z -> (0 <= j)%Z -> Z.testbit (Z.land (Z.shiftr z j) 255) i = (i <? 8)%Z && Z.testbit z (i + j).
  Proof.
    intros Hi Hj. change 255%Z with (Z.ones 8). rewrite Z.land_spec, Z.shiftr_spec by auto. destruct (Z.ltb_spec i 8) as [C|C].
    - rewrite Z.ones_spec_low by lia. rewrite andb_true_r. reflexivity.
    - rewrite Z.ones_spec_high by lia. apply andb_false_r.
  Qed.
  Lemma len_bytes z : bytes_bits (map (fun i => Z.land (Z.shiftr z (8 * Z.of_nat (7 - i))) 255) (seq 0 8)) = be_bits 64 z.
  Proof.
    assert (TB : forall i j, (0 <= i < 8)%Z -> (0 <= j)%Z -> Z.testbit (Z.land (Z.shiftr z j) 255) i = Z.testbit z (i + j)).
    { intros i j Hi Hj. rewrite testbit_byte by lia. destruct (Z.ltb_spec i 8); [reflexivity|lia]. }
    unfold bytes_bits. cbn [seq map concat]. unfold be_bits. cbn [seq map app Nat.sub]. rewrite !TB by lia.
    repeat (apply f_equal2; [apply (f_equal (Z.testbit z)); reflexivity|]). reflexivity.
  Qed.
  Lemma pad_bytes l : pad (bytes_bits l) = bytes_bits (l ++ padding (length l)).
  Proof.
    unfold pad, padding. rewrite bytes_app. f_equal. rewrite bytes_bits_length, bytes_app, len_bytes. rewrite (Nat.mul_comm (length l) 8). rewrite app_assoc. f_equal.
    set (n := length l). pose proof (Nat.div_mod n 64 ltac:(lia)) as E. pose proof (Nat.mod_upper_bound n 64 ltac:(lia)) as M. set (r := n mod 64) in *. set (q := n / 64) in *.
    assert (Z0 : exists m, zeros (8 * n) = 7 + 8 * m /\ (if 55 <? r then 128 - r else 64 - r) = m + 9).
    { unfold zeros. destruct (Nat.ltb_spec 55 r) as [C|C].
      - exists (119 - r). split; [|lia]. replace (447 - Z.of_nat (8 * n))%Z with (959 - 8 * Z.of_nat r + (- Z.of_nat q - 1) * 512)%Z by lia. rewrite Z_mod_plus_full, Z.mod_small by lia. lia.
      - exists (55 - r). split; [|lia]. replace (447 - Z.of_nat (8 * n))%Z with (447 - 8 * Z.of_nat r + (- Z.of_nat q) * 512)%Z by lia. rewrite Z_mod_plus_full, Z.mod_small by lia. lia. }
    destruct Z0 as (m & -> & ->). replace (m + 9 - 8) with (S m) by lia. replace (m + 9 - 1) with (m + 8) by lia. cbn [app firstn]. rewrite (@repeat_app Z 0%Z m 8), firstn_app, firstn_all2 by (rewrite repeat_length; lia).
    rewrite repeat_length, Nat.sub_diag. cbn [firstn]. rewrite app_nil_r. change (128%Z :: repeat 0%Z m) with ([128%Z] ++ repeat 0%Z m). rewrite bytes_app, bytes_zero, repeat_app. reflexivity.
  Qed.
  Lemma padding_byte n : Forall byte (padding n).
  Proof.
    unfold padding. cbv zeta. apply Forall_app. split.
    - apply fa_firstn. constructor; [unfold byte; lia|]. apply Forall_forall. intros x Hx. apply repeat_spec in Hx. subst. unfold byte. lia.
    - apply Forall_forall. intros x Hx. apply in_map_iff in Hx. destruct Hx as (i & <- & _). change 255%Z with (Z.ones 8). rewrite Z.land_ones by lia. apply Z.mod_pos_bound. lia.
  Qed.
  Lemma ok_var_pad (hv : list F) n : ok hv (var_pad n) (fun hv' p => Vs hv' p (padding n)).
  Proof.
    unfold var_pad. eapply ok_bind; [apply ok_vconst|]. next h1 z X1 Hz. eapply ok_bind; [apply ok_vconst|]. next h2 p0 X2 Hp0. cbv zeta.
    eapply ok_bind.
    { eapply (ok_gmap _ (fun _ (i j : nat) => i = j) (fun hv => V hv) (fun i => Z.land (Z.shiftr (Z.of_nat (n * 8)) (8 * Z.of_nat (7 - i))) 255)) with (xs := seq 0 8).
      - auto.
      - apply V_ext.
      - intros h a j ->. apply ok_vconst.
      - induction (seq 0 8); constructor; auto. }
    next h3 nb X3 Hnb. apply ok_ret. unfold padding. apply Forall2_app; [|exact Hnb]. apply Forall2_firstn. constructor; [exact Hp0|].
    induction ((if 55 <? n mod 64 then 128 - n mod 64 else 64 - n mod 64) - 1) as [|i IH]; cbn [repeat]; constructor; auto.
  Qed.
  Lemma padded_length n : (n + length (padding n)) mod 64 = 0.
  Proof.
    unfold padding. cbv zeta. rewrite app_length, map_length, seq_length, firstn_length, app_length, repeat_length. cbn [length].
    pose proof (Nat.div_mod n 64 ltac:(lia)) as E. pose proof (Nat.mod_upper_bound n 64 ltac:(lia)) as M. set (r := n mod 64) in *. set (q := n / 64) in *.
    destruct (Nat.ltb_spec 55 r) as [C|C]; rewrite Nat.min_l by lia.
    - replace (n + (128 - r - 8 + 8)) with ((q + 2) * 64) by lia. apply Nat.mod_mul. lia.
    - replace (n + (64 - r - 8 + 8)) with ((q + 1) * 64) by lia. apply Nat.mod_mul. lia.
  Qed.
  Definition digest_bytes (l : list Z) : list Z := concat (map word_bytes (sha256 (bytes_bits l))).
  Lemma ok_chunks hv data bs d h : D hv d h -> Vs hv data bs -> Forall byte bs -> ok hv (gfold chunk_write (cut 64 (length data / 64) data) d) (fun hv' d' => D hv' d' (fold_left compress (blocks (bytes_bits bs)) h)).
  Proof.
    intros A P Hb. rewrite blocks_bytes, fold_left_map, (f2_length _ _ _ P).
    apply (ok_gfold chunk_write (fun hv a x => Vs hv a x /\ Forall byte x /\ length x = 64) (fun hv d h => D hv d h) (fun c a => compress c (chunk_words a))); auto.
    - intros h1 h2 a x X (P1 & Q & R). split; auto. eapply Vs_ext; eauto.
    - intros h1 s y a x S (P1 & Q & R). apply ok_chunk_write; auto.
    - assert (E : 64 * (length bs / 64) <= length bs) by (apply Nat.mul_div_le; lia). revert E P Hb. generalize (length bs / 64). intros n. revert data bs.
      induction n as [|n IH]; intros data bs E P Hb; cbn [cut]; constructor.
      + split; [apply Forall2_firstn; exact P|]. split; [apply fa_firstn; auto|]. rewrite firstn_length. lia.
      + apply IH; [rewrite skipn_length; lia|apply Forall2_skipn; exact P|]. rewrite <- (firstn_skipn 64 bs) in Hb. apply Forall_app in Hb. tauto.
  Qed.
  Lemma ok_var_bytes hv data l : Vs hv data l -> Forall byte l -> ok hv (sha256_var_bytes data) (fun hv' r => Vs hv' r (digest_bytes l)).
  Proof.
    intros P Hb. unfold sha256_var_bytes. eapply ok_bind; [apply ok_var_pad|]. next h1 pd X1 Hpd. cbv zeta. rewrite (f2_length _ _ _ P) in Hpd.
    eapply ok_bind; [apply ok_new|]. next h2 d X2 Hd. eapply ok_bind; [apply (ok_reset _ _ _ Hd)|]. next h3 d3 X3 Hd3.
    assert (PP : Vs h3 (data ++ pd) (l ++ padding (length l))). { apply Forall2_app; auto. }
    eapply ok_bind; [apply (ok_chunks _ _ _ _ _ Hd3 PP); apply Forall_app; split; [auto|apply padding_byte]|]. next h4 d4 X4 Hd4.
    rewrite <- pad_bytes in Hd4. apply ok_sum in Hd4. exact Hd4.
  Qed.
  Lemma ok_37 hv data l : Vs hv data l -> Forall byte l -> length l = 37 -> ok hv (sha256_37bytes data) (fun hv' r => Vs hv' r (digest_bytes l)).
  Proof.
    intros P Hb Ll. unfold sha256_37bytes. rewrite (f2_length _ _ _ P), Ll. cbn [Nat.eqb].
    eapply ok_bind; [apply ok_vconst|]. next h1 z X1 Hz. eapply ok_bind; [apply ok_vconst|]. next h2 p0 X2 Hp0. eapply ok_bind; [apply ok_vconst|]. next h3 p25 X3 Hp25. eapply ok_bind; [apply ok_vconst|]. next h4 p26 X4 Hp26.
    eapply ok_bind; [apply ok_new|]. next h5 d X5 Hd.
    assert (PP : Vs h5 (data ++ [p0] ++ repeat z 24 ++ [p25; p26]) (l ++ padding 37)).
    { apply Forall2_app. { exact P. } change (padding 37) with ([128] ++ repeat 0 24 ++ [1; 40])%Z.
      cbn [repeat app]. repeat (constructor; [assumption|]). constructor. }
    eapply ok_bind; [apply (ok_chunk_write _ _ _ _ _ Hd PP); [apply Forall_app; split; [auto|apply padding_byte]|rewrite app_length, Ll; reflexivity]|]. next h6 d6 X6 Hd6.
    assert (E : compress H0 (chunk_words (l ++ padding 37)) = sha256 (bytes_bits l)).
    { unfold sha256. rewrite pad_bytes, blocks_bytes, Ll. rewrite app_length, Ll. change (length (padding 37)) with 27. change ((37 + 27) / 64) with 1. cbn [cut map fold_left].
      rewrite firstn_all2; [reflexivity|]. rewrite app_length, Ll. cbn [Nat.add]. change (length (padding 37)) with 27. lia. }
    rewrite E in Hd6. apply ok_sum in Hd6. exact Hd6.
  Qed.
End Sem.
