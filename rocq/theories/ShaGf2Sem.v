(* The rest of SHA-256 over GF(2): sums of many words, one block, the whole hash. *)
From Verif Require Import Prelude Field Expr Hints Ir IrInst ApiSpec Gadget ShaSpec ShaGf2 ShaGf2Facts.
Open Scope nat_scope.

Definition zsum (l : list Z) : Z := fold_right Z.add 0%Z l.
Lemma zsum_app a b : zsum (a ++ b) = (zsum a + zsum b)%Z. Proof. induction a as [|x a IH]; cbn; [reflexivity|]. change (fold_right Z.add 0%Z (a ++ b)) with (zsum (a ++ b)). rewrite IH. change (fold_right Z.add 0%Z a) with (zsum a). lia. Qed.
Lemma w32_add x y : w32 (w32 x + y) = w32 (x + y). Proof. unfold w32. apply Zplus_mod_idemp_l. Qed.
Lemma w32_add_r x y : w32 (x + w32 y) = w32 (x + y). Proof. unfold w32. apply Zplus_mod_idemp_r. Qed.
Lemma w32_small x : (0 <= x < 2 ^ 32)%Z -> w32 x = x. Proof. apply Z.mod_small. Qed.
Lemma w32_idem x : w32 (w32 x) = w32 x. Proof. apply Zmod_mod. Qed.
Lemma w32_sum2 a : forall b, length a = length b -> w32 (zsum (map2 (fun x y => w32 (x + y)) a b)) = w32 (zsum a + zsum b).
Proof.
  induction a as [|x a IH]; intros [|y b] L; cbn in L; try discriminate; [reflexivity|]. cbn [map2]. unfold zsum in *. cbn [fold_right].
  rewrite w32_add. rewrite <- w32_add_r. rewrite (IH b) by lia. rewrite w32_add_r. f_equal. lia.
Qed.
Lemma odd_mod n : Nat.odd n = (n mod 2 =? 1). Proof. pose proof (Nat.bit0_mod n) as H. rewrite Nat.bit0_odd in H. destruct (Nat.odd n); cbn [Nat.b2n] in H; rewrite <- H; reflexivity. Qed.
Lemma halves {A} (d : A) (l : list A) : l = firstn (length l / 2) l ++ firstn (length l / 2) (skipn (length l / 2) l) ++ (if Nat.odd (length l) then [nth (length l - 1) l d] else []).
Proof.
  set (h := length l / 2). pose proof (Nat.div_mod (length l) 2 ltac:(lia)) as E. fold h in E. pose proof (Nat.mod_upper_bound (length l) 2 ltac:(lia)) as B.
  rewrite <- (firstn_skipn h l) at 1. f_equal. rewrite <- (firstn_skipn h (skipn h l)) at 1. f_equal.
  assert (L2 : length (skipn h (skipn h l)) = length l mod 2) by (rewrite !skipn_length; lia).
  rewrite odd_mod. destruct (skipn h (skipn h l)) as [|x [|y r]] eqn:S; cbn [length] in L2; try lia.
  - rewrite <- L2. reflexivity.
  - rewrite <- L2. cbn [Nat.eqb]. f_equal. assert (N : nth 0 (skipn h (skipn h l)) d = x) by (rewrite S; reflexivity). rewrite !nth_skipn in N. rewrite <- N. f_equal. lia.
Qed.

Section Sem.
  Context {F : Fld}.
  Hypothesis H2 : fmod F = 2%Z.
  Notation W := (@W F). Notation Ws := (@Ws F).
  Ltac up := repeat match goal with
    | X : ext ?a ?b, H : ib ?a _ _ |- _ => apply (ib_ext _ _ _ _ X) in H
    | X : ext ?a ?b, H : ibs ?a _ _ |- _ => apply (ibs_ext _ _ _ _ X) in H
    | X : ext ?a ?b, H : W ?a _ _ |- _ => apply (W_ext _ _ _ _ X) in H
    | X : ext ?a ?b, H : Ws ?a _ _ |- _ => apply (Ws_ext _ _ _ _ X) in H
    | X : ext ?a ?b |- _ => clear X a || clear X end.
  Ltac step L := eapply ok_bind; [eapply (L F H2); eassumption|let hv := fresh "hv" in let x := fresh "x" in let X := fresh "X" in let H := fresh "H" in cbv beta; intros hv x X H; up].

  Lemma Ws_combine hv : forall a b x y, Ws hv a x -> Ws hv b y -> length a = length b ->
    Forall2 (fun p q => W hv (fst p) (fst q) /\ W hv (snd p) (snd q)) (combine a b) (combine x y).
  Proof.
    intros a. induction a as [|h a IH]; intros b x y A B L; inversion A; subst; destruct b as [|h' b]; cbn in L; try discriminate; inversion B; subst; cbn; constructor; auto.
  Qed.
  Lemma ok_adds hv a b x y : Ws hv a x -> Ws hv b y -> length a = length b ->
    ok hv (gmap (fun p => w_add (fst p) (snd p)) (combine a b)) (fun hv' c => Ws hv' c (map2 (fun x y => w32 (x + y)) x y)).
  Proof.
    intros A B L. eapply ok_imp.
    - eapply (ok_gmap (fun p => w_add (fst p) (snd p)) (fun hv p q => W hv (fst p) (fst q) /\ W hv (snd p) (snd q)) (fun hv => W hv) (fun q => w32 (fst q + snd q))).
      + intros h h' p q X [P Q]. split; eapply W_ext; eauto.
      + apply W_ext.
      + intros h p q [P Q]. apply (ok_w_add H2); auto.
      + apply Ws_combine; eauto.
    - cbv beta. intros h c X Hc. rewrite (map_combine (fun x y => w32 (x + y))) in Hc. exact Hc.
  Qed.
  Lemma Ws_nth hv : forall a x i, Ws hv a x -> i < length a -> W hv (nth i a []) (nth i x 0%Z).
  Proof. intros a x i A. revert i. induction A; intros i Hi; cbn in Hi; [lia|]. destruct i; cbn; auto. apply IHA. lia. Qed.
  Lemma ok_sum_loop fuel : forall hv vs xs, Ws hv vs xs -> vs <> [] -> length vs <= fuel -> ok hv (sum_all_loop fuel vs) (fun hv' r => W hv' r (w32 (zsum xs))).
  Proof.
    induction fuel as [|fuel IH]; intros hv vs xs A N L; [destruct vs; [congruence|cbn in L; lia]|]. cbn [sum_all_loop]. pose proof (f2_length _ _ _ A) as LA.
    destruct (Nat.ltb_spec 1 (length vs)) as [C|C].
    - pose proof (Nat.div_mod (length vs) 2 ltac:(lia)) as E. pose proof (Nat.mod_upper_bound (length vs) 2 ltac:(lia)) as B.
      set (h := length vs / 2) in *.
      assert (L1 : length (firstn h vs) = h) by (rewrite firstn_length; lia).
      assert (L2 : length (firstn h (skipn h vs)) = h) by (rewrite firstn_length, skipn_length; lia).
      assert (L1x : length (firstn h xs) = h) by (rewrite firstn_length; lia).
      assert (L2x : length (firstn h (skipn h xs)) = h) by (rewrite firstn_length, skipn_length; lia).
      eapply ok_bind; [apply (ok_adds hv _ _ (firstn h xs) (firstn h (skipn h xs)))|].
      { apply Forall2_firstn; auto. } { apply Forall2_firstn, Forall2_skipn; auto. } { lia. }
      cbv beta. intros h1 s X Hs. pose proof (f2_length _ _ _ Hs) as Ls. rewrite map2_length, L1x in Ls by lia.
      set (t := if Nat.odd (length vs) then [nth (length vs - 1) vs []] else []). set (tx := if Nat.odd (length vs) then [nth (length vs - 1) xs 0%Z] else []).
      assert (Ht : Ws h1 t tx).
      { unfold t, tx. destruct (Nat.odd (length vs)); [|constructor]. constructor; [|constructor]. eapply W_ext; [exact X|]. apply Ws_nth; auto. lia. }
      assert (Lt : length t = length vs mod 2).
      { unfold t. rewrite odd_mod. destruct (length vs mod 2) as [|[|r]]; [reflexivity|reflexivity|lia]. }
      eapply ok_imp; [apply (IH h1 (s ++ t) (map2 (fun x y => w32 (x + y)) (firstn h xs) (firstn h (skipn h xs)) ++ tx))|].
      { apply Forall2_app; auto. } { intros E0. apply (f_equal (@length word)) in E0. rewrite app_length in E0. cbn in E0. lia. } { rewrite app_length. lia. }
      cbv beta. intros h2 r X2 Hr. rewrite zsum_app, <- w32_add, w32_sum2, w32_add in Hr by lia.
      rewrite (halves 0%Z xs), <- LA. fold h. fold tx. rewrite !zsum_app, Z.add_assoc. exact Hr.
    - destruct A as [|v x vs xs A AR]; [congruence|]. destruct vs; [|cbn in C; lia]. inversion AR; subst. apply ok_ret.
      unfold zsum. cbn [fold_right]. rewrite Z.add_0_r, w32_small; auto. eapply W_range; eauto.
  Qed.
  Lemma ok_sum_all hv vs xs : Ws hv vs xs -> vs <> [] -> ok hv (sum_all vs) (fun hv' r => W hv' r (w32 (zsum xs))).
  Proof. intros A N. apply ok_sum_loop; auto. Qed.

  (* ------------------------------------------------------------ one block *)
  Lemma ok_sched n : forall i hv w ws, Ws hv w ws -> length w = i -> 16 <= i ->
    ok hv (gfold sched_step (seq i n) w) (fun hv' w' => Ws hv' w' (fold_left W_next (seq i n) ws) /\ length w' = i + n).
  Proof.
    induction n as [|n IH]; intros i hv w ws A L Hi; cbn [seq gfold fold_left].
    - apply ok_ret. rewrite Nat.add_0_r. auto.
    - eapply ok_bind with (P := fun hv' w' => Ws hv' w' (W_next ws i) /\ length w' = S i).
      + unfold sched_step. assert (N : forall j, j < i -> W hv (nth j w []) (nth j ws 0%Z)) by (intros j Hj; apply Ws_nth; auto; lia).
        pose proof (N (i - 2) ltac:(lia)) as A2. pose proof (N (i - 7) ltac:(lia)) as A7. pose proof (N (i - 15) ltac:(lia)) as A15. pose proof (N (i - 16) ltac:(lia)) as A16. clear N.
        step @ok_ssig1. step @ok_w_add. step @ok_ssig0. step @ok_w_add. step @ok_w_add. apply ok_ret. split; [|rewrite app_length; cbn; lia].
        apply Forall2_app; [exact A|]. constructor; [|constructor]. rewrite w32_add, w32_add_r in H4. rewrite !Z.add_assoc in H4. exact H4.
      + cbv beta. intros h w' X [A' L']. replace (i + S n) with (S i + n) by lia. apply IH; auto.
  Qed.
  Lemma ok_schedule hv w ws : Ws hv w ws -> length w = 16 -> ok hv (gfold sched_step (seq 16 48) w) (fun hv' w' => Ws hv' w' (schedule ws)).
  Proof. intros A L. eapply ok_imp; [apply (ok_sched 48 16 hv w ws); auto|]. cbv beta. intros h' w' X [Q _]. exact Q. Qed.
  Definition R8 (hv : list F) (s : st8) (v : Z * Z * Z * Z * Z * Z * Z * Z) : Prop :=
    let '(a, b, c, d, e, f, g, h) := s in let '(a', b', c', d', e', f', g', h') := v in
    W hv a a' /\ W hv b b' /\ W hv c c' /\ W hv d d' /\ W hv e e' /\ W hv f f' /\ W hv g g' /\ W hv h h'.
  Definition RK (hv : list F) (p : Z * word) (q : Z * Z) : Prop := fst p = fst q /\ (0 <= fst p < 2 ^ 32)%Z /\ W hv (snd p) (snd q).
  Lemma ok_round hv s v p q : R8 hv s v -> RK hv p q -> ok hv (round_step s p) (fun hv' s' => R8 hv' s' (round v q)).
  Proof.
    destruct s as [[[[[[[a b] c] d] e] f] g] h], v as [[[[[[[a' b'] c'] d'] e'] f'] g'] h'], p as [kk w], q as [kk' w']. unfold R8, RK. cbn [fst snd].
    intros (A & B & C & D & E & Ff & Gg & Hh) (<- & Kr & Hw). unfold round_step. cbn [fst snd].
    eapply ok_bind; [apply (ok_add_const H2 _ _ _ _ Kr Hw)|]. cbv beta. intros h1 wk X1 Hwk. up.
    step @ok_bsig1. step @ok_ch.
    eapply ok_bind; [apply (ok_sum_all _ [h; x; x0; wk] [h'; bsig1 e'; Ch e' f' g'; w32 (w' + kk)]); [repeat (constructor; [eassumption|]); constructor|discriminate]|].
    cbv beta. intros h2 t1 X2 Ht1. up. step @ok_bsig0. step @ok_maj. step @ok_w_add. step @ok_w_add. step @ok_w_add. apply ok_ret. unfold round. cbn [fst snd].
    assert (Et1 : w32 (zsum [h'; bsig1 e'; Ch e' f' g'; w32 (w' + kk)]) = w32 (h' + bsig1 e' + Ch e' f' g' + kk + w')).
    { unfold zsum. cbn [fold_right]. rewrite Z.add_0_r, !Z.add_assoc, w32_add_r. f_equal. lia. }
    rewrite Et1 in *. repeat split; eassumption.
  Qed.
  Lemma cut_length {A} (c n : nat) : forall l : list A, length (cut c n l) = n.
  Proof. induction n as [|n IH]; intros l; cbn; auto. Qed.
  Lemma ibs_cut (hv : list F) c n : forall xs bs, ibs hv xs bs -> Forall2 (ibs hv) (cut c n xs) (cut c n bs).
  Proof. induction n as [|n IH]; intros xs bs H; cbn; constructor. apply Forall2_firstn; auto. apply IH. apply Forall2_skipn; auto. Qed.
  Lemma Ws_cut (hv : list F) n : forall xs bs, ibs hv xs bs -> length bs = 32 * n -> Ws hv (cut 32 n xs) (map be (cut 32 n bs)).
  Proof.
    induction n as [|n IH]; intros xs bs H L; cbn [cut map]; constructor.
    - exists (firstn 32 bs). split; [apply Forall2_firstn; auto|]. split; auto. rewrite firstn_length. lia.
    - apply IH. apply Forall2_skipn; auto. rewrite skipn_length. lia.
  Qed.
  Lemma K_range : Forall (fun z => 0 <= z < 2 ^ 32)%Z SHA256_K.
  Proof. repeat constructor; cbn; lia. Qed.
  Lemma K_ok : SHA256_K = K. Proof. vm_compute. reflexivity. Qed.
  Lemma INIT_ok : SHA256_INIT_STATE = H0. Proof. vm_compute. reflexivity. Qed.
  Lemma RK_combine hv ks : forall w ws, Forall (fun z => 0 <= z < 2 ^ 32)%Z ks -> Ws hv w ws -> Forall2 (RK hv) (combine ks w) (combine ks ws).
  Proof. induction ks as [|kk ks IH]; intros w ws R A; cbn; [constructor|]. inversion R; subst; cbv beta in *. destruct A; constructor; auto. split; [reflexivity|]. split; assumption. Qed.
  Lemma R8_ext hv hv' s v : ext hv hv' -> R8 hv s v -> R8 hv' s v.
  Proof. destruct s as [[[[[[[a b] c] d] e] f] g] h], v as [[[[[[[a' b'] c'] d'] e'] f'] g'] h']. intros X (A & B & C & D & E & Ff & Gg & Hh). repeat split; eapply W_ext; eauto. Qed.
  Opaque K SHA256_K schedule.
  Lemma ok_compress (hv : list F) st sv inp ib_ : Ws hv st sv -> length sv = 8 -> ibs hv inp ib_ -> length ib_ = 512 ->
    ok hv (sha256_compress st inp) (fun hv' st' => Ws hv' st' (compress sv (map be (cut 32 16 ib_))) /\ length (compress sv (map be (cut 32 16 ib_))) = 8).
  Proof.
    intros A L I LI. destruct sv as [|a' [|b' [|c' [|d' [|e' [|f' [|g' [|h' [|]]]]]]]]]; try discriminate L. clear L.
    inversion A as [|a ? s ? Wa A1]; subst. inversion A1 as [|b ? s2 ? Wb A2]; subst. inversion A2 as [|c ? s3 ? Wc A3]; subst. inversion A3 as [|d ? s4 ? Wd A4]; subst.
    inversion A4 as [|e ? s5 ? We A5]; subst. inversion A5 as [|f ? s6 ? Wf A6]; subst. inversion A6 as [|g ? s7 ? Wg A7]; subst. inversion A7 as [|h ? s8 ? Wh A8]; subst. inversion A8; subst. clear A1 A2 A3 A4 A5 A6 A7 A8.
    unfold sha256_compress, compress. eapply ok_bind; [apply ok_k0|]. cbv beta. intros hv0 z0 X0 _. up.
    eapply ok_bind; [apply (ok_schedule _ _ (map be (cut 32 16 ib_))); [apply Ws_cut; auto|apply cut_length]|]. cbv beta. intros h1 w X1 Hw.
    fold (Ws hv0) in *. up.
    eapply ok_bind; [apply (ok_gfold round_step RK R8 round) with (xs := combine K (schedule (map be (cut 32 16 ib_)))) (y := (a', b', c', d', e', f', g', h'))|].
    { intros hh hh' p q X (P & Q & R). repeat split; auto; try lia. eapply W_ext; eauto. }
    { intros hh s y p q. apply ok_round. }
    { rewrite <- K_ok. apply RK_combine; auto. apply K_range. }
    { repeat split; assumption. }
    cbv beta. intros h2 r X2 Hr. up. destruct r as [[[[[[[ra rb] rc] rd] re] rf] rg] rh].
    destruct (fold_left round _ _) as [[[[[[[va vb] vc] vd] ve] vf] vg] vh]. destruct Hr as (Ra & Rb & Rc & Rd & Re & Rf & Rg & Rh).
    eapply ok_imp; [apply (ok_adds _ [a; b; c; d; e; f; g; h] [ra; rb; rc; rd; re; rf; rg; rh] [a'; b'; c'; d'; e'; f'; g'; h'] [va; vb; vc; vd; ve; vf; vg; vh])|].
    { repeat (constructor; [assumption|]). constructor. } { repeat (constructor; [assumption|]). constructor. } { reflexivity. }
    cbv beta. intros h3 st' X3 Hst. split; [|reflexivity]. cbn [map2] in Hst. rewrite !(Z.add_comm _ a'), !(Z.add_comm _ b'), !(Z.add_comm _ c'), !(Z.add_comm _ d'), !(Z.add_comm _ e'), !(Z.add_comm _ f'), !(Z.add_comm _ g'), !(Z.add_comm _ h').
    exact Hst.
  Qed.
  Transparent K SHA256_K schedule.
  (* ------------------------------------------------------------ the whole hash *)
  Lemma ok_to_bits (hv : list F) n v : ok hv (to_bits n v) (fun hv' xs => ibs hv' xs (be_bits n v)).
  Proof.
    unfold to_bits, be_bits. eapply (ok_gmap _ (fun _ (i j : nat) => i = j) (fun hv => ib hv) (fun i => Z.testbit v (Z.of_nat (n - 1 - i)))); auto.
    - apply ib_ext.
    - intros h a x ->. rewrite land1 by lia. apply ok_k.
    - induction (seq 0 n); constructor; auto.
  Qed.
  Lemma ok_words (hv : list F) l : Forall (fun z => 0 <= z < 2 ^ 32)%Z l -> ok hv (gmap u32_to_bit l) (fun hv' ws => Ws hv' ws l).
  Proof.
    intros R. assert (E : Forall2 (fun z z' : Z => z = z' /\ (0 <= z < 2 ^ 32)%Z) l l) by (induction R; constructor; auto).
    eapply ok_imp; [eapply (ok_gmap _ (fun _ z z' => z = z' /\ (0 <= z < 2 ^ 32)%Z) (fun hv => W hv) (fun z => z)); [auto|apply W_ext| |exact E]|].
    - intros h z z' [<- Rz]. eapply ok_imp; [apply (ok_to_bits h 32 z)|]. cbv beta. intros h' xs X Hx. exists (be_bits 32 z).
      split; [exact Hx|]. split; [apply be_bits_length|]. rewrite be_be_bits. apply Z.mod_small. exact Rz.
    - cbv beta. intros h' ws X Hw. rewrite map_id in Hw. exact Hw.
  Qed.
  Lemma fold_left_map {A B C} (f : C -> B -> C) (g : A -> B) l : forall c, fold_left f (map g l) c = fold_left (fun c a => f c (g a)) l c.
  Proof. induction l as [|a l IH]; intros c; cbn; auto. Qed.
  Lemma cut_all {A} (c n : nat) : forall l : list A, c * n <= length l -> Forall (fun b => length b = c) (cut c n l).
  Proof. induction n as [|n IH]; intros l H; cbn; constructor. rewrite firstn_length. lia. apply IH. rewrite skipn_length. lia. Qed.
  Lemma compress_length h m : length h = 8 -> length (compress h m) = 8.
  Proof.
    destruct h as [|a [|b [|c [|d [|e [|f [|g [|x [|]]]]]]]]]; try discriminate. intros _. unfold compress. destruct (fold_left round _ _) as [[[[[[[va vb] vc] vd] ve] vf] vg] vh]. reflexivity.
  Qed.
  Lemma ok_blocks (hv : list F) data bits st sv : ibs hv data bits -> Ws hv st sv -> length sv = 8 ->
    ok hv (gfold sha256_compress (cut 512 (length data / 512) data) st) (fun hv' st' => Ws hv' st' (fold_left compress (blocks bits) sv) /\ length (fold_left compress (blocks bits) sv) = 8).
  Proof.
    intros A Hs L. unfold blocks. rewrite <- (f2_length _ _ _ A). rewrite fold_left_map.
    apply (ok_gfold sha256_compress (fun hv a x => ibs hv a x /\ length x = 512) (fun hv s y => Ws hv s y /\ length y = 8) (fun c a => compress c (map be (cut 32 16 a)))).
    - intros h h' a x X [P Q]. split; auto. eapply ibs_ext; eauto.
    - intros h s y a x [S1 S2] [P1 P2]. apply ok_compress; auto.
    - pose proof (f2_length _ _ _ A) as LA. assert (C : Forall (fun b => length b = 512) (cut 512 (length data / 512) bits)) by (apply cut_all; rewrite <- LA; apply Nat.mul_div_le; lia).
      pose proof (ibs_cut hv 512 (length data / 512) _ _ A) as B. revert C. induction B as [|x y l l' Hxy Hl IH]; intros C; constructor; inversion C; subst; auto.
    - auto.
  Qed.
  Lemma zeros_pad l : (l + 1) mod 512 <= 448 -> 448 - (l + 1) mod 512 = zeros l.
  Proof.
    intros H. unfold zeros. pose proof (Nat.div_mod (l + 1) 512 ltac:(lia)) as E. set (q := (l + 1) / 512) in *. set (r := (l + 1) mod 512) in *.
    replace (447 - Z.of_nat l)%Z with (448 - Z.of_nat r + (- Z.of_nat q) * 512)%Z by lia. rewrite Z_mod_plus_full, Z.mod_small by lia. lia.
  Qed.
  Lemma H0_range : Forall (fun z => 0 <= z < 2 ^ 32)%Z SHA256_INIT_STATE.
  Proof. repeat constructor; cbn; lia. Qed.
  Lemma map_const {A} (b : A) n : forall s, map (fun _ : nat => b) (seq s n) = repeat b n.
  Proof. induction n as [|n IH]; intros s; cbn; auto. f_equal. apply IH. Qed.
  Lemma ok_concat (hv : list F) st sv : Ws hv st sv -> ibs hv (concat st) (concat (map (be_bits 32) sv)).
  Proof.
    intros A. induction A as [|w v st sv Hw A IH]; cbn [concat map]; [constructor|]. apply Forall2_app; auto. destruct Hw as (bs & B & L & <-). rewrite <- L, be_bits_be. exact B.
  Qed.
  Lemma ok_finalize (hv : list F) self m : ibs hv self m -> (length m + 1) mod 512 <= 448 ->
    ok hv (finalize self) (fun hv' r => ibs hv' (fst r) (pad m) /\ ibs hv' (snd r) (digest_bits m)).
  Proof.
    intros A Hm. unfold finalize. pose proof (f2_length _ _ _ A) as LA. rewrite LA. eapply ok_bind; [apply ok_k1|]. cbv beta. intros h1 one X1 H1. up.
    destruct (Nat.ltb_spec 448 ((length m + 1) mod 512)) as [C|_]; [lia|]. rewrite zeros_pad by auto. cbv zeta.
    eapply ok_bind.
    { eapply (ok_gmap (fun _ : nat => a_const 0) (fun _ (i j : nat) => i = j) (fun hv => ib hv) (fun _ => false)) with (xs := seq 0 (zeros (length m))); auto.
      - apply ib_ext.
      - intros; apply ok_k0.
      - induction (seq 0 (zeros (length m))); constructor; auto. }
    cbv beta. intros h2 zs X2 Hz. rewrite map_const in Hz. change (ibs h2 zs (repeat false (zeros (length m)))) in Hz. up. eapply ok_bind; [apply ok_to_bits|]. cbv beta. intros h3 ln X3 Hl. up.
    assert (D : ibs h3 (self ++ [one] ++ zs ++ ln) (pad m)).
    { unfold pad. apply Forall2_app; [exact A|]. apply Forall2_app; [constructor; [exact H1|constructor]|]. apply Forall2_app; [|exact Hl].
      exact Hz. }
    eapply ok_bind; [apply ok_words, H0_range|]. cbv beta. intros h4 st X4 Hst. up.
    eapply ok_bind; [apply (ok_blocks h4 _ (pad m) st SHA256_INIT_STATE); auto|]. cbv beta. intros h5 st' X5 [Hst' _]. up. apply ok_ret. cbn [fst snd]. split; auto.
    unfold digest_bits, sha256. apply ok_concat. rewrite <- INIT_ok. exact Hst'.
  Qed.
  Lemma finalize_panics (self : list nat) H : 448 < (length self + 1) mod 512 -> finalize (F := F) self H = None.
  Proof. intros L. apply Nat.ltb_lt in L. unfold finalize. cbv zeta. rewrite L. reflexivity. Qed.
End Sem.
