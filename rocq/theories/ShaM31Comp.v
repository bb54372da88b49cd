(* SHA-256 over a prime field: the variant that takes bits and shares the first eight rounds. *)
From Verif Require Import Prelude Field Expr Hints Ir IrInst ApiSpec Gadget ShaSpec ShaGf2 ShaGf2Facts ShaGf2Sem ShaM31 ShaM31Facts ShaM31Sem.
Open Scope nat_scope.

(* 37 bytes as 296 bits the way the circuit takes them: nine words, each with its least significant bit first, and a byte; [unpack] is the message *)
Definition unpack (m : list bool) : list bool := concat (map (@rev bool) (cut 32 9 m)) ++ skipn 288 m.
Definition mbytes (h : list Z) : list Z := concat (map word_bytes h).
(* the words of the padded message; rounds 0 to 7 *)
Definition words37 (m : list bool) : list Z := map be (cut 32 16 (pad (unpack m))).
Definition start8 (m : list bool) := fold_left round (firstn 8 (combine K (words37 m))) (nth 0 H0 0%Z, nth 1 H0 0%Z, nth 2 H0 0%Z, nth 3 H0 0%Z, nth 4 H0 0%Z, nth 5 H0 0%Z, nth 6 H0 0%Z, nth 7 H0 0%Z).
Definition tl8 (v : Z * Z * Z * Z * Z * Z * Z * Z) : list Z := let '(a, b, c, d, e, f, g, h) := v in [a; b; c; d; e; f; g; h].
(* the hash value from the state after eight rounds on the words of m0, and the words 8 to 63 of the message schedule of m *)
Definition mixed (m0 m : list bool) : list Z :=
  map2 (fun x y => w32 (x + y)) H0 (tl8 (fold_left round (skipn 8 (combine K (schedule (words37 m)))) (start8 m0))).

Section Lists.
  Context {A C : Type}.
  Lemma cut_split c n k : forall a b : list A, length a = c * n -> cut c (n + k) (a ++ b) = cut c n a ++ cut c k b.
  Proof.
    induction n as [|n IH]; intros a b L.
    - destruct a as [|x a]; [reflexivity|]. cbn [length] in L. lia.
    - cbn [Nat.add cut]. rewrite firstn_app, skipn_app. replace (c - length a) with 0 by lia. cbn [firstn skipn]. rewrite app_nil_r. cbn [app]. f_equal. apply IH. rewrite skipn_length. lia.
  Qed.
  Lemma combine_split n : forall (a : list A) (b : list C), combine a b = combine (firstn n a) (firstn n b) ++ combine (skipn n a) (skipn n b).
  Proof. induction n as [|n IH]; intros a b; [reflexivity|]. destruct a as [|x a]; [reflexivity|]. destruct b as [|y b]; [cbn; destruct (skipn n a); reflexivity|]. cbn. f_equal. apply IH. Qed.
  Lemma combine_skipn n : forall (a : list A) (b : list C), skipn n (combine a b) = combine (skipn n a) (skipn n b).
  Proof. induction n as [|n IH]; intros a b; [reflexivity|]. destruct a as [|x a]; [reflexivity|]. destruct b as [|y b]; [cbn; destruct (skipn n a); reflexivity|]. cbn. apply IH. Qed.
  Lemma concat_cut c n : forall a : list A, length a = c * n -> concat (cut c n a) = a.
  Proof.
    induction n as [|n IH]; intros a L; cbn [cut concat]; [destruct a; [auto|cbn [length] in L; lia]|]. rewrite IH by (rewrite skipn_length; lia). apply firstn_skipn.
  Qed.
  Lemma cut_concat c : forall l : list (list A), Forall (fun x => length x = c) l -> cut c (length l) (concat l) = l.
  Proof.
    induction 1 as [|x l Hx Hl IH]; [reflexivity|]. cbn [length cut concat]. rewrite firstn_app, skipn_app. subst c. rewrite Nat.sub_diag, firstn_all, skipn_all. cbn [firstn skipn app]. rewrite app_nil_r, IH. reflexivity.
  Qed.
End Lists.
Lemma sched_prefix n : forall i w, exists t, fold_left W_next (seq i n) w = w ++ t.
Proof.
  induction n as [|n IH]; intros i w; cbn [seq fold_left]; [exists []; rewrite app_nil_r; auto|]. destruct (IH (S i) (W_next w i)) as [t ->]. unfold W_next. rewrite <- app_assoc. eauto.
Qed.
Lemma schedule_first w n : n <= length w -> firstn n (schedule w) = firstn n w.
Proof. intros L. unfold schedule. destruct (sched_prefix 48 16 w) as [t ->]. rewrite firstn_app. replace (n - length w) with 0 by lia. cbn [firstn]. apply app_nil_r. Qed.
Lemma K_length : length K = 64. Proof. vm_compute. reflexivity. Qed.
Lemma H0_length : length H0 = 8. Proof. vm_compute. reflexivity. Qed.
Lemma words37_length m : length (words37 m) = 16. Proof. unfold words37. rewrite map_length. apply cut_length. Qed.
Lemma unpack_length m : length m = 296 -> length (unpack m) = 296.
Proof.
  intros L. unfold unpack. rewrite app_length, skipn_length, L. cut (length (concat (map (@rev bool) (cut 32 9 m))) = 288); [lia|].
  pose proof (@cut_all bool 32 9 m ltac:(lia)) as A. pose proof (@cut_length bool 32 9 m) as Lc. 
  assert (Q : forall l : list (list bool), Forall (fun b => length b = 32) l -> length (concat (map (@rev bool) l)) = 32 * length l).
  { induction 1 as [|x l Hx Hl IH]; [reflexivity|]. cbn [map concat length]. rewrite app_length, rev_length, IH, Hx. lia. }
  rewrite Q, Lc; auto.
Qed.
Definition padbits : list bool := [true] ++ repeat false 206 ++ [true; false; false; true; false; true; false; false; false].
Lemma concat_length32 (l : list (list bool)) : Forall (fun b => length b = 32) l -> length (concat l) = 32 * length l.
Proof. induction 1 as [|x l Hx Hl IH]; [reflexivity|]. cbn [concat length]. rewrite app_length, IH, Hx. lia. Qed.
Lemma revs32 (l : list (list bool)) : Forall (fun b => length b = 32) l -> Forall (fun b => length b = 32) (map (@rev bool) l).
Proof. induction 1; cbn [map]; constructor; auto. rewrite rev_length. auto. Qed.
Lemma turn_app {A} (a b : list A) : length a = 288 -> turn (a ++ b) = a ++ reverse_part 192 224 (reverse_part 0 32 b).
Proof.
  intros L. assert (R : forall i j (b : list A), i <= j -> reverse_part (288 + i) (288 + j) (a ++ b) = a ++ reverse_part i j b).
  { intros i j b' Hij. unfold reverse_part. rewrite !firstn_app, !skipn_app, L. replace (288 + i - 288) with i by lia. replace (288 + j - 288) with j by lia. replace (288 + j - (288 + i)) with (j - i) by lia.
    rewrite firstn_all2 by lia. rewrite (skipn_all2 a) by lia. rewrite (skipn_all2 a) by lia. cbn [app]. rewrite <- !app_assoc. reflexivity. }
  unfold turn. rewrite (R 0 32) by lia. rewrite (R 192 224) by lia. reflexivity.
Qed.
Lemma words_turned m : length m = 296 -> words37 m = map le (cut 32 16 (turn (m ++ padbits))).
Proof.
  intros L. unfold words37. assert (Lu := unpack_length m L). unfold pad. rewrite Lu. unfold unpack.
  set (a := firstn 288 m). set (t := skipn 288 m). assert (La : length a = 288) by (unfold a; rewrite firstn_length; lia). assert (Lt : length t = 8) by (unfold t; rewrite skipn_length; lia).
  assert (Em : m = a ++ t) by (unfold a, t; rewrite firstn_skipn; auto).
  assert (C9 : cut 32 9 m = cut 32 9 a). { rewrite Em. rewrite <- (app_nil_r (cut 32 9 a)). apply (cut_split 32 9 0 a t). exact La. }
  rewrite C9. rewrite Em at 1. rewrite <- !app_assoc. rewrite turn_app by exact La. change 16 with (9 + 7). rewrite (cut_split 32 9 7 a) by exact La.
  pose proof (@cut_all bool 32 9 a ltac:(lia)) as Ac. pose proof (@cut_length bool 32 9 a) as Lc. set (c9 := cut 32 9 a) in *.
  pose proof (revs32 _ Ac) as Ar. assert (Lr : length (map (@rev bool) c9) = 9) by (rewrite map_length; auto).
  rewrite (cut_split 32 9 7 (concat (map (@rev bool) c9))); [|rewrite (concat_length32 _ Ar), Lr; reflexivity]. pose proof (cut_concat 32 _ Ar) as CC; rewrite Lr in CC; rewrite CC.
  rewrite !map_app, map_map. f_equal.
  - apply map_ext. intros b. apply rev_be.
  - clearbody t. clear -Lt. do 8 (destruct t as [|? t]; [discriminate Lt|]). destruct t; [|discriminate Lt].
    rewrite (map_ext be (fun l => le (rev l)) be_le). vm_compute. reflexivity.
Qed.
Lemma words_first m : length m = 296 -> firstn 8 (words37 m) = map le (cut 32 8 (firstn 256 m)).
Proof.
  intros L. rewrite words_turned by auto. assert (T : turn (m ++ padbits) = firstn 256 m ++ skipn 256 (turn (m ++ padbits))).
  { assert (Q : firstn 256 (turn (m ++ padbits)) = firstn 256 m).
    { assert (Em : m = firstn 288 m ++ skipn 288 m) by (rewrite firstn_skipn; auto). assert (La : length (firstn 288 m) = 288) by (rewrite firstn_length; lia).
      set (a := firstn 288 m) in *. rewrite Em. rewrite <- app_assoc, turn_app by auto. rewrite !firstn_app, La. change (256 - 288) with 0. rewrite !firstn_O. reflexivity. }
    rewrite <- Q. rewrite firstn_skipn. reflexivity. }
  rewrite T. change 16 with (8 + 8). rewrite (cut_split 32 8 8) by (rewrite firstn_length; lia). rewrite map_app, firstn_app, map_length, cut_length. change (8 - 8) with 0. rewrite firstn_O, app_nil_r. apply firstn_all2. rewrite map_length, cut_length. auto.
Qed.
Lemma sha_37 m : length m = 296 -> sha256 (unpack m) = compress H0 (words37 m).
Proof.
  intros L. unfold sha256, blocks, words37. pose proof (unpack_length m L) as Lu. assert (Lp : length (pad (unpack m)) = 512) by (unfold pad; rewrite !app_length, Lu, repeat_length, be_bits_length; reflexivity).
  rewrite Lp. change (512 / 512) with 1.
  assert (C1 : forall c (l : list bool), length l = c -> cut c 1 l = [l]) by (intros c l <-; cbn [cut]; rewrite firstn_all; reflexivity).
  rewrite C1 by exact Lp. reflexivity.
Qed.
Local Opaque K schedule words37.
Lemma mixed_same m0 m : firstn 256 m0 = firstn 256 m -> length m0 = 296 -> length m = 296 -> mixed m0 m = sha256 (unpack m).
Proof.
  intros E L0 L. rewrite sha_37 by auto. unfold mixed. assert (E8 : firstn 8 (words37 m0) = firstn 8 (words37 m)) by (rewrite !words_first by auto; rewrite E; reflexivity).
  assert (S8 : start8 m0 = start8 m) by (unfold start8; rewrite !combine_firstn, E8; reflexivity). rewrite S8.
  assert (F8 : firstn 8 (combine K (words37 m)) = firstn 8 (combine K (schedule (words37 m)))) by (rewrite !combine_firstn, schedule_first by (rewrite words37_length; lia); reflexivity).
  pose proof H0_length as Lh. unfold start8. rewrite F8. rewrite <- fold_left_app, firstn_skipn.
  destruct H0 as [|a [|b [|c [|d [|e [|f [|g [|h [|]]]]]]]]]; try discriminate Lh. symmetry. exact (compress_rounds [a; b; c; d; e; f; g; h] (words37 m) a b c d e f g h eq_refl).
Qed.

Section Sem.
  Context {F : Fld}.
  Hypothesis Hp : (2 ^ 30 < fmod F)%Z.
  Notation ib := (@ib F). Notation ibs := (@ibs F). Notation V := (@V F). Notation B := (@B F). Notation T := (@T F). Notation Bs := (@Bs F). Notation Ts := (@Ts F). Notation L := (@L F).
  Notation Vs := (@Vs F). Notation D := (@D F).
  Ltac up := repeat match goal with
    | X : ext ?a ?b, H : ShaGf2Facts.ib ?a _ _ |- _ => apply (ib_ext _ _ _ _ X) in H
    | X : ext ?a ?b, H : ShaGf2Facts.ibs ?a _ _ |- _ => apply (ibs_ext _ _ _ _ X) in H
    | X : ext ?a ?b, H : ShaM31Facts.V ?a _ _ |- _ => apply (V_ext _ _ _ _ X) in H
    | X : ext ?a ?b, H : ShaM31Facts.B ?a _ _ |- _ => apply (B_ext _ _ _ _ X) in H
    | X : ext ?a ?b, H : ShaM31Facts.T ?a _ _ |- _ => apply (T_ext _ _ _ _ X) in H
    | X : ext ?a ?b, H : ShaM31Facts.L _ ?a _ _ |- _ => apply (L_ext _ _ _ _ _ X) in H
    | X : ext ?a ?b, H : ShaM31Facts.Bs ?a _ _ |- _ => apply (Bs_ext _ _ _ _ X) in H
    | X : ext ?a ?b, H : ShaM31Facts.Ts ?a _ _ |- _ => apply (Ts_ext _ _ _ _ X) in H
    | X : ext ?a ?b, H : ShaM31Sem.Vs ?a _ _ |- _ => apply (Vs_ext _ _ _ _ X) in H
    | X : ext ?a ?b, H : ShaM31Sem.D ?a _ _ |- _ => apply (D_ext _ _ _ _ X) in H
    | X : ext ?a ?b |- _ => clear X a || clear X end.
  Ltac next h x X H := cbv beta; intros h x X H; up.
  Lemma Bs_cut (hv : list F) n : forall xs bs, ibs hv xs bs -> length bs = 32 * n -> Bs hv (cut 32 n xs) (map le (cut 32 n bs)).
  Proof.
    induction n as [|n IH]; intros xs bs A Ln; cbn [cut map]; constructor.
    - exists (firstn 32 bs). split; [apply Forall2_firstn; exact A|]. split; [rewrite firstn_length; lia|reflexivity].
    - apply IH; [apply Forall2_skipn; exact A|]. rewrite skipn_length. lia.
  Qed.
  Lemma ibs_app (hv : list F) a b x y : ibs hv a x -> ibs hv b y -> ibs hv (a ++ b) (x ++ y). Proof. intros; apply Forall2_app; auto. Qed.
  Lemma ibs_part (hv : list F) i j a x : ibs hv a x -> ibs hv (reverse_part i j a) (reverse_part i j x).
  Proof.
    intros A. unfold reverse_part. apply ibs_app; [apply Forall2_firstn; exact A|]. apply ibs_app; [|apply Forall2_skipn; exact A]. apply ibs_rev. apply Forall2_firstn. apply Forall2_skipn. exact A.
  Qed.
  Lemma Forall2_repeat' {A C} (R : A -> C -> Prop) a c n : R a c -> Forall2 R (repeat a n) (repeat c n).
  Proof. intros H. induction n; cbn [repeat]; constructor; auto. Qed.
  Lemma ok_pre_pad (hv : list F) : ok hv pre_pad (fun hv' p => ibs hv' p padbits).
  Proof.
    unfold pre_pad. eapply ok_bind; [apply (ok_k hv false)|]. next h1 z X1 Hz. eapply ok_bind; [apply (ok_k h1 true)|]. next h2 p0 X2 Hp0. eapply ok_bind; [apply (ok_k h2 true)|]. next h3 p1 X3 Hp1.
    eapply ok_bind; [apply (ok_k h3 true)|]. next h4 p2 X4 Hp2. eapply ok_bind; [apply (ok_k h4 true)|]. next h5 p3 X5 Hp3. apply ok_ret. unfold padbits.
    apply ibs_app; [constructor; [assumption|constructor]|]. apply ibs_app; [|repeat (constructor; [assumption|]); constructor]. apply Forall2_repeat'. exact Hz.
  Qed.
  Lemma turned (hv : list F) data p m : ibs hv data m -> ibs hv p padbits -> length m = 296 -> ibs hv (turn (data ++ p)) (turn (m ++ padbits)) /\ Bs hv (cut 32 16 (turn (data ++ p))) (words37 m) /\ Bs hv (cut 32 8 (turn (data ++ p))) (firstn 8 (words37 m)).
  Proof.
    intros A P Lm. assert (Q : ibs hv (turn (data ++ p)) (turn (m ++ padbits))) by (unfold turn; apply ibs_part, ibs_part, ibs_app; auto). split; auto.
    assert (R : Bs hv (cut 32 16 (turn (data ++ p))) (words37 m)).
    { rewrite words_turned by auto. apply Bs_cut; auto. rewrite <- (firstn_skipn 288 m), <- app_assoc, turn_app by (rewrite firstn_length; lia). unfold reverse_part.
      repeat first [rewrite app_length|rewrite rev_length|rewrite firstn_length|rewrite skipn_length]. rewrite Lm. reflexivity. }
    split; auto. assert (E : forall (A : Type) c a b (l : list A), cut c a l = firstn a (cut c (a + b) l)).
    { clear. intros A c a b. induction a as [|a IH]; intros l; cbn [cut Nat.add firstn]; auto. rewrite <- IH. auto. }
    rewrite (E _ 32 8 8). apply Forall2_firstn. exact R.
  Qed.
  Lemma R8_tl hv s v : R8 hv s v -> Ts hv (r_w s) (tl8 v).
  Proof. destruct v as [[[[[[[a b] c] d] e] f] g] h]. intros [H _]. exact H. Qed.
  Definition first8 (hv : list F) (d : MyDigest) (m0 : list bool) : Prop := Ts hv (d_first8 d) (tl8 (start8 m0)).
  Lemma ok_set8 hv d data p m : D hv d H0 -> ibs hv data m -> ibs hv p padbits -> length m = 296 ->
    ok hv (set_8words_states d (d_h d) (turn (data ++ p))) (fun hv' d' => D hv' d' H0 /\ first8 hv' d' m).
  Proof.
    intros HD A P Lm. destruct (turned hv data p m A P Lm) as (_ & _ & W). pose proof HD as (HH & _ & HK). unfold set_8words_states.
    assert (HH' : Ts hv (d_h d) [nth 0 H0 0%Z; nth 1 H0 0%Z; nth 2 H0 0%Z; nth 3 H0 0%Z; nth 4 H0 0%Z; nth 5 H0 0%Z; nth 6 H0 0%Z; nth 7 H0 0%Z]).
    { pose proof H0_length as Lh. destruct H0 as [|a [|b [|c [|dd [|e [|f [|g [|x [|]]]]]]]]]; try discriminate Lh. exact HH. }
    eapply ok_bind; [apply (ok_start Hp _ _ _ _ _ _ _ _ _ _ HH')|]. next h1 s X1 Hs. destruct Hs as [Hs _].
    eapply ok_bind; [apply (ok_rounds Hp _ _ _ _ _ _ _ Hs HK W)|]. next h2 s2 X2 Hs2. apply ok_ret. split.
    - exact HD.
    - unfold first8. cbn [d_first8]. apply R8_tl in Hs2. unfold start8. rewrite combine_firstn. pose proof K_length as LK. 
      replace (combine (firstn 8 K) (firstn 8 (words37 m))) with (combine K (firstn 8 (words37 m))); [exact Hs2|].
      rewrite (combine_split 8 K (firstn 8 (words37 m))). rewrite firstn_firstn. change (Nat.min 8 8) with 8. rewrite (skipn_all2 (firstn 8 (words37 m))) by (rewrite firstn_length; lia).
      destruct (skipn 8 K); cbn [combine]; apply app_nil_r.
  Qed.
  Lemma ok_comp hv d data p m0 m : D hv d H0 -> first8 hv d m0 -> ibs hv data m -> ibs hv p padbits -> length m = 296 ->
    ok hv (chunk_write_compress d (turn (data ++ p))) (fun hv' d' => D hv' d' (mixed m0 m) /\ first8 hv' d' m0).
  Proof.
    intros (HH & Lh & HK) H8 A P Lm. destruct (turned hv data p m A P Lm) as (Q & W & _). unfold chunk_write_compress.
    assert (Ld : length (turn (data ++ p)) = 512). { rewrite (f2_length _ _ _ Q). rewrite <- (firstn_skipn 288 m), <- app_assoc, turn_app by (rewrite firstn_length; lia). unfold reverse_part.
      repeat first [rewrite app_length|rewrite rev_length|rewrite firstn_length|rewrite skipn_length]. rewrite Lm. reflexivity. }
    rewrite Ld. cbn [Nat.eqb]. unfold block_37bytes_compress. unfold first8 in H8.
    assert (Lw : length (cut 32 16 (turn (data ++ p))) = 16) by apply cut_length.
    assert (BB : ok hv (w <-- gfold sched_step31 (seq 16 48) (cut 32 16 (turn (data ++ p)));; s <-- start (d_first8 d);; s <-- gfold round31 (combine (skipn 8 (d_kbits d)) (skipn 8 w)) s;; add_state (d_h d) (r_w s)) (fun hv' r => Ts hv' r (mixed m0 m))).
    { eapply ok_bind; [apply (ok_sched16 Hp _ _ _ W Lw)|]. next h1 w X1 Hw. assert (H8' : Ts h1 (d_first8 d) (tl8 (start8 m0))) by exact H8.
      unfold mixed. destruct (start8 m0) as [[[[[[[a b] c] dd] e] f] g] x]. cbn [tl8] in H8'.
      eapply ok_bind; [apply (ok_start Hp _ _ _ _ _ _ _ _ _ _ H8')|]. next h2 s X2 Hs. destruct Hs as [Hs _].
      eapply ok_bind; [apply (ok_rounds Hp _ _ _ _ _ _ _ Hs (Forall2_skipn _ 8 _ _ HK) (Forall2_skipn _ 8 _ _ Hw))|]. next h3 s2 X3 Hs2. apply R8_tl in Hs2. rewrite combine_skipn.
      apply (ok_add_state Hp _ _ _ _ _ HH Hs2). }
    eapply ok_bind; [exact BB|].
    next h1 r X1 Hr. apply ok_ret. split; [|exact H8]. split; [exact Hr|]. split; [|exact HK]. unfold mixed.
      destruct (fold_left round (skipn 8 (combine K (schedule (words37 m)))) (start8 m0)) as [[[[[[[a b] c] dd] e] f] g] x]. pose proof H0_length as L0.
      destruct H0 as [|a0 [|b0 [|c0 [|d0 [|e0 [|f0 [|g0 [|x0 [|]]]]]]]]]; try discriminate L0. reflexivity.
  Qed.
  Lemma ok_37_compress hv data m : ibs hv data m -> length m = 296 -> ok hv (sha256_37bytes_compress data) (fun hv' r => Vs hv' r (mbytes (sha256 (unpack m)))).
  Proof.
    intros A Lm. unfold sha256_37bytes_compress. rewrite (f2_length _ _ _ A), Lm. cbn [Nat.eqb]. eapply ok_bind; [apply ok_pre_pad|]. next h1 p X1 P. cbv zeta.
    eapply ok_bind; [apply ok_new|]. next h2 d X2 Hd. eapply ok_bind; [apply (ok_set8 _ _ _ _ _ Hd A P Lm)|]. next h3 d3 X3 Hd3. destruct Hd3 as [Hd3 H8].
    eapply ok_bind; [apply (ok_comp _ _ _ _ _ _ Hd3 H8 A P Lm)|]. next h4 d4 X4 Hd4. destruct Hd4 as [Hd4 _]. rewrite mixed_same in Hd4 by auto. apply (ok_sum Hp) in Hd4. exact Hd4.
  Qed.
  Definition VVs (hv : list F) := Forall2 (Vs hv).
  Lemma first8_ext hv hv' d m : ext hv hv' -> first8 hv d m -> first8 hv' d m. Proof. intros X H. eapply Ts_ext; eauto. Qed.
  Lemma VVs_ext hv hv' a x : ext hv hv' -> VVs hv a x -> VVs hv' a x. Proof. intros X H. induction H; constructor; eauto. eapply Vs_ext; eauto. Qed.
  Lemma ok_reset' hv d h m : D hv d h -> first8 hv d m -> ok hv (digest_reset d) (fun hv' d' => D hv' d' H0 /\ first8 hv' d' m).
  Proof.
    intros HD H8. unfold digest_reset. eapply ok_bind; [apply (ok_consts hv 0 8)|]. cbv beta. intros h1 z1 X1 _. eapply ok_bind; [apply ok_init|]. cbv beta. intros h2 hh X2 Hh. pose proof (D_ext _ _ _ _ X2 (D_ext _ _ _ _ X1 HD)) as (_ & _ & HK). apply ok_ret.
    split; [|exact (first8_ext _ _ _ _ X2 (first8_ext _ _ _ _ X1 H8))]. split; [exact Hh|]. split; [reflexivity|exact HK].
  Qed.
  (* after the first input *)
  Lemma ok_batch_rest m0 : forall inputs ms i hv d outs os, 0 < i -> D hv d H0 -> first8 hv d m0 -> Forall2 (ibs hv) inputs ms -> Forall (fun m => length m = 296) ms -> VVs hv outs os ->
    ok hv (gfold batch_step (combine (seq i (length inputs)) inputs) (d, outs)) (fun hv' r => VVs hv' (snd r) (os ++ map (fun m => mbytes (mixed m0 m)) ms)).
  Proof.
    induction inputs as [|x inputs IH]; intros ms i hv d outs os Hi HD H8 A Lm O; inversion A as [|x1 m inputs1 ms1 Hx A']; subst.
    - cbn [length seq combine gfold map]. apply ok_ret. cbn [snd]. rewrite app_nil_r. exact O.
    - inversion Lm as [|m1 ms2 Lm1 Lms]; subst. cbn [length seq combine gfold map]. eapply ok_bind with (P := fun hv' s => D hv' (fst s) H0 /\ first8 hv' (fst s) m0 /\ VVs hv' (snd s) (os ++ [mbytes (mixed m0 m)])).
      + unfold batch_step. eapply ok_bind; [apply ok_pre_pad|]. cbv beta. intros h1 p X1 P.
        assert (Hx1 : ibs h1 x m) by (eapply ibs_ext; eauto). rewrite (f2_length _ _ _ Hx1), Lm1. cbn [Nat.eqb]. cbv zeta. destruct (Nat.eqb_spec i 0); [lia|].
        eapply ok_bind with (P := fun hv' d' => d' = d); [apply ok_ret; reflexivity|]. cbv beta. intros h1' d1 X1' ->.
        eapply ok_bind; [apply (ok_comp _ d x p m0 m); eauto using D_ext, first8_ext, ibs_ext|]. cbv beta. intros h2 d2 X2 [Hd2 H82].
        eapply ok_bind; [apply (ok_sum Hp _ _ _ Hd2)|]. cbv beta. intros h3 out X3 Ho. eapply ok_bind; [apply (ok_reset' _ _ _ m0 (D_ext _ _ _ _ X3 Hd2)); eapply first8_ext; eauto|]. cbv beta. intros h4 d4 X4 Hd4.
        apply ok_ret. cbn [fst snd]. split; [exact (proj1 Hd4)|]. split; [exact (proj2 Hd4)|]. apply Forall2_app; [eapply VVs_ext; [|exact O]; eauto using ext_trans|]. constructor; [|constructor]. eapply Vs_ext; eauto.
      + cbv beta. intros h1 [d1 outs1] X1 (Hd1 & H81 & O1). cbn [fst snd] in *. replace (os ++ mbytes (mixed m0 m) :: map (fun m => mbytes (mixed m0 m)) ms1) with ((os ++ [mbytes (mixed m0 m)]) ++ map (fun m => mbytes (mixed m0 m)) ms1) by (rewrite <- app_assoc; reflexivity).
        apply IH; auto. clear -A' X1. induction A'; constructor; eauto using ibs_ext.
  Qed.
  Lemma ok_batch hv inputs m0 ms : Forall2 (ibs hv) inputs (m0 :: ms) -> Forall (fun m => length m = 296) (m0 :: ms) -> ok hv (sha256_37bytes_256batch_compress inputs) (fun hv' r => VVs hv' r (map (fun m => mbytes (mixed m0 m)) (m0 :: ms))).
  Proof.
    intros A Lm. unfold sha256_37bytes_256batch_compress. inversion A as [|x m1 inputs1 ms1 Hx A']; subst. inversion Lm as [|m2 ms2 Lm0 Lms]; subst.
    eapply ok_bind; [apply ok_new|]. cbv beta. intros h0 d0 X0 Hd0. eapply ok_bind with (P := fun hv' r => VVs hv' (snd r) (map (fun m => mbytes (mixed m0 m)) (m0 :: ms))).
    2: { cbv beta. intros h r X R. apply ok_ret. exact R. }
    cbn [length seq combine gfold map]. eapply ok_bind with (P := fun hv' s => D hv' (fst s) H0 /\ first8 hv' (fst s) m0 /\ VVs hv' (snd s) [mbytes (mixed m0 m0)]).
    - unfold batch_step. eapply ok_bind; [apply ok_pre_pad|]. cbv beta. intros h1 p X1 P. assert (Hx1 : ibs h1 x m0) by (eapply ibs_ext; [|exact Hx]; eauto using ext_trans). rewrite (f2_length _ _ _ Hx1), Lm0. cbn [Nat.eqb]. cbv zeta.
      eapply ok_bind; [apply (ok_set8 _ _ _ _ _ (D_ext _ _ _ _ X1 Hd0) Hx1 P Lm0)|]. cbv beta. intros h2 d2 X2 [Hd2 H82].
      eapply ok_bind; [apply (ok_comp _ d2 x p m0 m0); eauto using ibs_ext|]. cbv beta. intros h3 d3 X3 [Hd3 H83].
      eapply ok_bind; [apply (ok_sum Hp _ _ _ Hd3)|]. cbv beta. intros h4 out X4 Ho. eapply ok_bind; [apply (ok_reset' _ _ _ m0 (D_ext _ _ _ _ X4 Hd3)); eapply first8_ext; eauto|]. cbv beta. intros h5 d5 X5 Hd5.
      apply ok_ret. cbn [fst snd]. split; [exact (proj1 Hd5)|]. split; [exact (proj2 Hd5)|]. constructor; [|constructor]. eapply Vs_ext; eauto.
    - cbv beta. intros h1 [d1 outs1] X1 (Hd1 & H81 & O1). cbn [fst snd] in *. apply (ok_batch_rest m0 inputs1 ms 1 h1 d1 outs1 [mbytes (mixed m0 m0)]); auto. clear -A' X1 X0. induction A'; constructor; eauto using ibs_ext, ext_trans.
  Qed.
End Sem.
