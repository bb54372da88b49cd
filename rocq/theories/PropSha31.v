(* C46: the SHA-256 circuits over a prime field with 2^30 < p of circuit-std-rs.  The specification of SHA-256 is ShaSpec.v (FIPS 180-4), that of API
   programs is ApiSpec.v. *)
From Verif Require Import Prelude Field Zp Expr Hints Ir IrFacts IrInst Sim ApiSpec Frontend ApiFacts FrontFacts FrontSim DebugFacts FrontProg PropIr PropFront.
From Verif Require Import Gadget ShaSpec ShaGf2 ShaGf2Facts ShaGf2Sem GadgetRec PropSha ShaM31 ShaM31Facts ShaM31Sem ShaM31Comp.
From Coq Require Import NArith.
Open Scope nat_scope.

(* the digest as bytes: every word, the most significant byte first *)
Definition hash_bytes (m : list bool) : list Z := concat (map word_bytes (sha256 m)).
(* the program that returns all the digests of a batch; the program that checks digests *)
Definition batch_prog {F : Fld} (n : nat) (inputs : list (list nat)) : option (Prog F) :=
  gprog n (r <-- sha256_37bytes_256batch_compress inputs;; gret (concat r)).

Lemma batch_prog_eq {F : Fld} n inputs : batch_prog (F := F) n inputs = gprog n (r <-- sha256_37bytes_256batch_compress inputs;; gret (concat r)).
Proof. unfold batch_prog. exact eq_refl. Qed.

Section Proofs.
  Context {F : Fld}.
  Hypothesis Hp : (2 ^ 30 < fmod F)%Z.
  Notation G := (G F).
  Lemma Vs_iss (hv : list F) xs vs : Vs hv xs vs <-> iss hv xs (map ofZ vs).
  Proof.
    split; intros H. induction H; constructor; auto. revert vs H. induction xs as [|x xs IH]; intros [|b bs] H; inversion H; subst; constructor; auto. apply IH; auto.
  Qed.
  Lemma ok_calls {A} (hv : list F) (m : G A) P : ok hv m P -> exists ops a, m (length hv) = Some (ops, a).
  Proof. intros (h & a & R & _). unfold grun in R. destruct (m (length hv)) as [[ops a']|]; [eauto|discriminate]. Qed.
  Lemma ok_result {A} (hv : list F) (m : G A) (P : A -> Prop) ops a : ok hv m (fun _ a => P a) -> m (length hv) = Some (ops, a) -> P a.
  Proof. intros (h & a' & R & _ & Q) E. unfold grun in R. rewrite E in R. cbn [obind fst snd] in R. destruct (exec hv ops); cbn [obind] in R; [|discriminate]. injection R as _ <-. exact Q. Qed.
  Lemma ok_gprog (hv : list F) (m : G (list nat)) P n : ok hv m P -> length hv = n -> exists p, gprog n m = Some p.
  Proof. intros H L. destruct (ok_calls _ _ _ H) as (ops & a & E). unfold gprog. rewrite L in E. rewrite E. cbn. eauto. Qed.
  Lemma zeros_V n xs : Forall (fun x => x < n) xs -> Vs (repeat (ofZ 0 : F) n) xs (repeat 0%Z (length xs)).
  Proof.
    intros A. induction A as [|x xs Hx A IH]; cbn; constructor; auto. unfold V, is. destruct (nth_error (repeat (ofZ 0) n) x) as [v|] eqn:E.
    - apply nth_error_In, repeat_spec in E. subst. reflexivity.
    - apply nth_error_None in E. rewrite repeat_length in E. lia.
  Qed.
  Lemma zeros_b n xs : Forall (fun x => x < n) xs -> ibs (repeat (f0 : F) n) xs (repeat false (length xs)).
  Proof. intros A. apply ibs_iss, zeros_iss. auto. Qed.
  Lemma zeros_byte n : Forall byte (repeat 0%Z n). Proof. apply Forall_forall. intros x Hx. apply repeat_spec in Hx. subst. unfold byte. lia. Qed.
  (* checks *)
  Lemma checked_calls n (m : G (list nat)) e p : gprog n (r <-- m;; _ <-- asserts_eq (combine r e);; gret r) = Some p ->
    exists ops a, m n = Some (ops, a) /\ p = {| p_body := map SOp ops ++ map SOp (map (fun p => OAssertEq (AV (fst p)) (AV (snd p))) (combine a e)); p_outs := a |}.
  Proof.
    unfold gprog, gbind. destruct (m n) as [[ops a]|]; [|discriminate]. unfold asserts_eq, gbind. destruct (asserts_calls (F := F) (combine a e) (n + ops_outs ops)) as [us ->]. cbn. rewrite !app_nil_r. intros H. injection H as <-.
    exists ops, a. rewrite map_app. auto.
  Qed.
  Lemma checked_main fns (E : Env F) npub n (m : G (list nat)) e p ins vs us : gprog (n + npub) (r <-- m;; _ <-- asserts_eq (combine r e);; gret r) = Some p ->
    length ins = n -> ok (ins ++ map (e_pub E) (seq 0 npub)) m (fun hv xs => iss hv xs vs) -> iss (ins ++ map (e_pub E) (seq 0 npub)) e us -> length vs = length us ->
    forall outs b, main fns E npub p ins outs b <-> outs = vs /\ b = if list_eq_dec (f_dec F) vs us then true else false.
  Proof.
    intros Hg Li Ho He Lv outs b. destruct (checked_calls _ _ _ _ Hg) as (ops & a & E1 & ->). destruct Ho as (hv' & a' & R & X & Q).
    unfold grun in R. rewrite app_length, map_length, seq_length, Li, E1 in R. cbn [obind fst snd] in R. destruct (exec _ ops) as [h1|] eqn:Ex; cbn [obind] in R; [|discriminate]. injection R as -> ->.
    pose proof (iss_ext _ _ _ _ X He) as He'. assert (Le : length a' = length e) by (rewrite (f2_length _ _ _ Q), (f2_length _ _ _ He'); auto). pose proof (proj2 (omap_nth_iss _ _ _) Q) as Qo.
    unfold main. split.
    - intros H. inversion H as [p0 ins0 hh b0 outs0 Hs Hout]; subst. cbn [p_body p_outs] in *. apply stmts_app in Hs. destruct Hs as (h2 & b1 & b2 & S1 & S2 & ->).
      eapply exec_stmts in S1; [|exact Ex]. destruct S1 as [-> ->]. eapply asserts_run in S2; eauto. destruct S2 as [-> ->]. rewrite Qo in Hout. injection Hout as <-. auto.
    - intros [-> ->]. econstructor; cbn [p_body p_outs]; [|exact Qo]. apply stmts_app. exists hv', true. eexists. split; [eapply exec_stmts; eauto|]. split; [eapply asserts_run; eauto|]. reflexivity.
  Qed.
  (* calls made *)
  Definition gcalls {A} (m : G A) (o : Op (Arg F)) : Prop := forall H ops a, m H = Some (ops, a) -> In o ops.
  Lemma gcalls_l {A B} (m : G A) (f : A -> G B) o : gcalls m o -> gcalls (gbind m f) o.
  Proof. intros C H ops b E. unfold gbind in E. destruct (m H) as [[o1 a]|] eqn:E1; [|discriminate]. destruct (f a _) as [[o2 b']|]; [|discriminate]. injection E as <- <-. apply in_or_app. left. eapply C; eauto. Qed.
  Lemma gcalls_r' {A B} (m : G A) (f : A -> G B) o : (forall H ops a, m H = Some (ops, a) -> gcalls (f a) o) -> gcalls (gbind m f) o.
  Proof. intros C H ops b E. unfold gbind in E. destruct (m H) as [[o1 a]|] eqn:E1; [|discriminate]. destruct (f a _) as [[o2 b']|] eqn:E2; [|discriminate]. injection E as <- <-. apply in_or_app. right. eapply C; eauto. Qed.
  Lemma gcalls_r {A B} (m : G A) (f : A -> G B) o : (forall a, gcalls (f a) o) -> gcalls (gbind m f) o.
  Proof. intros C. apply gcalls_r'. intros. apply C. Qed.
  Lemma gcalls_panic {A} o : gcalls (@gpanic F A) o. Proof. intros H ops a E. discriminate. Qed.
  Lemma gcalls_gmap {A B} (f : A -> G B) l a o : In a l -> gcalls (f a) o -> gcalls (gmap f l) o.
  Proof. intros I C. induction l as [|x l IH]; [destruct I|]. cbn [gmap]. destruct I as [->|I]; [apply gcalls_l; auto|apply gcalls_r; intros b; apply gcalls_l; auto]. Qed.
  Lemma gcalls_gfold {A S} (f : S -> A -> G S) l a o : In a l -> (forall s, gcalls (f s a) o) -> forall s, gcalls (gfold f l s) o.
  Proof. intros I C. induction l as [|x l IH]; intros s; [destruct I|]. cbn [gfold]. destruct I as [->|I]; [apply gcalls_l; auto|apply gcalls_r; intros b; apply IH; auto]. Qed.
  Lemma gcalls_calln o : gcalls (calln o) o. Proof. intros H ops a E. injection E as <- <-. left; auto. Qed.
  Lemma gcalls_b2b l x : In x l -> gcalls (bytes_to_bits l) (OToBin (AV x) 8).
  Proof.
    intros I. destruct l as [|v l]; [destruct I|]. cbn [bytes_to_bits]. destruct I as [->|I]; [apply gcalls_l, gcalls_calln|]. apply gcalls_r. intros r. eapply gcalls_gfold; eauto. intros s. cbv beta. apply gcalls_l, gcalls_calln.
  Qed.
  Lemma cut_in {A} c n : forall (l : list A) x, length l = c * n -> In x l -> exists b, In b (cut c n l) /\ In x b.
  Proof.
    induction n as [|n IH]; intros l x L I; [destruct l; [destruct I|cbn in L; lia]|]. cbn [cut]. rewrite <- (firstn_skipn c l) in I. apply in_app_or in I. destruct I as [I|I].
    - exists (firstn c l). split; [left; auto|auto].
    - destruct (IH (skipn c l) x) as (b & B1 & B2); [rewrite skipn_length; lia|auto|]. exists b. split; [right; auto|auto].
  Qed.
  Lemma gcalls_chunk d p x : In x p -> gcalls (chunk_write d p) (OToBin (AV x) 8).
  Proof.
    intros I. unfold chunk_write. destruct (Nat.eqb_spec (length p) 64) as [L|L]; [|apply gcalls_panic]. apply gcalls_l. unfold block. apply gcalls_l. destruct (cut_in 4 16 p x L I) as (b & B1 & B2).
    eapply gcalls_gmap; eauto. apply gcalls_b2b; auto.
  Qed.
  Lemma pad_len n H ops a : var_pad (F := F) n H = Some (ops, a) -> length a = length (padding n).
  Proof.
    intros E. apply (ok_result (repeat f0 H) (var_pad n) (fun a => length a = length (padding n)) ops); [|rewrite repeat_length; exact E].
    eapply ok_imp; [apply ok_var_pad|]. cbv beta. intros h r X Q. eapply f2_length; exact Q.
  Qed.
  Lemma gcalls_var xs x : In x xs -> gcalls (sha256_var_bytes xs) (OToBin (AV x) 8).
  Proof.
    intros I. unfold sha256_var_bytes. apply gcalls_r'. intros H ops a E. apply pad_len in E. cbv zeta. apply gcalls_r. intros d. apply gcalls_r. intros d'. apply gcalls_l.
    destruct (cut_in 64 (length (xs ++ a) / 64) (xs ++ a) x) as (b & B1 & B2).
    - rewrite app_length, E. pose proof (padded_length (length xs)) as M. apply Nat.div_exact in M; [exact M|lia].
    - apply in_or_app. auto.
    - eapply gcalls_gfold; eauto. intros s. apply gcalls_chunk. auto.
  Qed.
  Lemma gcalls_37 xs x : In x xs -> gcalls (sha256_37bytes xs) (OToBin (AV x) 8).
  Proof.
    intros I. unfold sha256_37bytes. destruct (_ =? _); [|apply gcalls_panic]. do 5 (apply gcalls_r; intros ?). apply gcalls_l. apply gcalls_chunk. apply in_or_app. auto.
  Qed.
  (* a run means that the bits of the value exist *)
  Lemma stmts_tobin fns (E : Env F) x n ops : forall hv hv' b v, In (OToBin (AV x) n) ops -> nth_error hv x = Some v -> stmts fns E (map SOp ops) hv hv' b -> (toZ v < 2 ^ Z.of_nat n)%Z.
  Proof.
    induction ops as [|o ops IH]; intros hv hv' b v I Hx S; [destruct I|]. cbn [map] in S. inversion S as [|o0 o' ss h0 outs b0 h1 b1 Ho Ha Hr|]; subst. destruct I as [->|I].
    - cbn [op_map arg_val] in Ho. rewrite Hx in Ho. cbn [obind] in Ho. injection Ho as <-. cbn [api_sem api_fun] in Ha. destruct (Z.ltb_spec (toZ v) (2 ^ Z.of_nat n)); [auto|discriminate].
    - eapply IH; [exact I| |exact Hr]. rewrite nth_error_app1; auto. apply nth_error_Some. congruence.
  Qed.
  Lemma main_tobin fns (E : Env F) npub n (m : G (list nat)) p ins outs b x k v : gprog n m = Some p -> gcalls m (OToBin (AV x) k) -> nth_error (ins ++ map (e_pub E) (seq 0 npub)) x = Some v ->
    main fns E npub p ins outs b -> (toZ v < 2 ^ Z.of_nat k)%Z.
  Proof.
    intros Hg C Hx H. unfold gprog in Hg. destruct (m n) as [[ops a]|] eqn:Em; cbn [obind fst snd] in Hg; [|discriminate]. injection Hg as <-. inversion H as [p0 ins0 hh b0 outs0 Hs Ho]; subst. cbn [p_body p_outs] in *.
    eapply stmts_tobin; eauto.
  Qed.
  (* recording *)
  Lemma gall_comp : (forall l, gall (F := F) simple_op (sha256_37bytes l)) /\ (forall l, gall (F := F) simple_op (sha256_var_bytes l)) /\ (forall l, gall (F := F) simple_op (sha256_37bytes_compress l)) /\ (forall l, gall (F := F) simple_op (sha256_37bytes_256batch_compress l)).
  Proof.
    assert (C : forall z, gall (F := F) simple_op (a_const z)) by (intros; apply gall_call1; auto).
    assert (B : forall b x y, gall (F := F) simple_op (a_bin b x y)) by (intros; apply gall_call1; auto).
    assert (X : forall x y, gall (F := F) simple_op (a_add x y)) by (intros; apply B).
    assert (S' : forall x y, gall (F := F) simple_op (a_sub x y)) by (intros; apply B).
    assert (XX : forall x y, gall (F := F) simple_op (a_xor x y)) by (intros; apply B).
    assert (AA : forall x y, gall (F := F) simple_op (a_and x y)) by (intros; apply B).
    assert (TB : forall x n, gall (F := F) simple_op (a_tobin x n)) by (intros; apply gall_calln; auto).
    Local Ltac g := repeat first
      [match goal with |- gall _ (gret _) => apply gall_ret | |- gall _ gpanic => apply gall_panic | |- gall _ (gbind _ _) => apply gall_bind; [|intros ?] | |- gall _ (gmap _ _) => apply gall_gmap; intros ?
         | |- gall _ (gfold _ _ _) => apply gall_gfold; intros ? ? | |- gall _ (if ?c then _ else _) => destruct c | |- gall _ (match ?x with pair _ _ => _ end) => destruct x end
      |match goal with H : forall _, _ |- _ => simple apply H | H : gall _ _ |- _ => exact H end].
    assert (BB : forall v, gall (F := F) simple_op (bytes_to_bits v)) by (intros v; destruct v; unfold bytes_to_bits; g).
    assert (SR : forall a k, gall (F := F) simple_op (ShaM31.right_shift a k)) by (intros; unfold ShaM31.right_shift; g).
    assert (X3 : forall a b c, gall (F := F) simple_op (xor3 a b c)) by (intros; unfold xor3; g).
    assert (G0 : forall a, gall (F := F) simple_op (sigma0 a)) by (intros; unfold sigma0; g).
    assert (G1 : forall a, gall (F := F) simple_op (sigma1 a)) by (intros; unfold sigma1; g).
    assert (G2 : forall a, gall (F := F) simple_op (cap_sigma0 a)) by (intros; unfold cap_sigma0; g).
    assert (G3 : forall a, gall (F := F) simple_op (cap_sigma1 a)) by (intros; unfold cap_sigma1; g).
    assert (CH : forall a b c, gall (F := F) simple_op (ch_le a b c)) by (intros; unfold ch_le; g).
    assert (MJ : forall a b c, gall (F := F) simple_op (maj_le a b c)) by (intros; unfold maj_le; g).
    assert (AN : forall a b, gall (F := F) simple_op (add_no_reduce a b)) by (intros; unfold add_no_reduce; g).
    assert (SA : forall a b n, gall (F := F) simple_op (sha_m31_26_add a b n)) by (intros; unfold sha_m31_26_add; cbv zeta; g).
    assert (FL : forall l i r, gall (F := F) simple_op (from_binary_loop i l r)) by (induction l as [|x l IH]; intros i r; cbn [from_binary_loop]; g).
    assert (FB : forall l, gall (F := F) simple_op (from_binary l)) by (intros; unfold from_binary; g).
    assert (PK : forall l, gall (F := F) simple_op (bit_array_to_m31_26 l)) by (intros; unfold bit_array_to_m31_26; g).
    assert (UP : forall l n, gall (F := F) simple_op (m31_26_to_bit_array_seperate l n)) by (intros; unfold m31_26_to_bit_array_seperate; g).
    assert (ID : forall a n, gall (F := F) simple_op (idiv_mod_bit a n)) by (intros; unfold idiv_mod_bit; g).
    assert (PU : forall a, gall (F := F) simple_op (m31_26_array_put_uint32 a)) by (intros; unfold m31_26_array_put_uint32; g).
    assert (IN : gall (F := F) simple_op init_h) by (unfold init_h; g).
    assert (DN : gall (F := F) simple_op digest_new) by (unfold digest_new; g).
    assert (DR : forall d, gall (F := F) simple_op (digest_reset d)) by (intros; unfold digest_reset; g).
    assert (SS : forall w t, gall (F := F) simple_op (sched_step31 w t)) by (intros; unfold sched_step31; g).
    assert (ST : forall w, gall (F := F) simple_op (start w)). { intros w. unfold start. do 9 (destruct w as [|? w]; [g|]). g. }
    assert (RD : forall s p, gall (F := F) simple_op (round31 s p)).
    { intros s p. unfold round31. destruct p. repeat match goal with |- context [match ?x with nil => _ | cons _ _ => _ end] => destruct x end; cbv zeta; g. }
    assert (AS : forall h w, gall (F := F) simple_op (add_state h w)) by (intros; unfold add_state; g).
    assert (BL : forall d h p, gall (F := F) simple_op (block d h p)) by (intros; unfold block; g).
    assert (CW : forall d p, gall (F := F) simple_op (chunk_write d p)) by (intros; unfold chunk_write; g).
    assert (B3 : forall d h p, gall (F := F) simple_op (block_37bytes_compress d h p)) by (intros; unfold block_37bytes_compress; g).
    assert (CC : forall d p, gall (F := F) simple_op (chunk_write_compress d p)) by (intros; unfold chunk_write_compress; g).
    assert (S8 : forall d h p, gall (F := F) simple_op (set_8words_states d h p)) by (intros; unfold set_8words_states; g).
    assert (RS : forall d, gall (F := F) simple_op (return_sum d)) by (intros; unfold return_sum; g).
    assert (PP : gall (F := F) simple_op pre_pad) by (unfold pre_pad; g).
    assert (VP : forall n, gall (F := F) simple_op (var_pad n)) by (intros; unfold var_pad; cbv zeta; g).
    split; [|split; [|split]]; intros l.
    - unfold sha256_37bytes. g.
    - unfold sha256_var_bytes. g.
    - unfold sha256_37bytes_compress. cbv zeta. g.
    - unfold sha256_37bytes_256batch_compress, batch_step. cbv zeta. g.
  Qed.
End Proofs.

(* ======================= C46 ======================= *)
(* the digest as bytes, and the words as FIPS 180-4 writes them: the same bits *)
Theorem C46_bytes : forall m, Forall byte (hash_bytes m) /\ bytes_bits (hash_bytes m) = digest_bits m /\ length (hash_bytes m) = 32.
Proof.
  intros m. unfold hash_bytes, digest_bits. assert (L8 : length (sha256 m) = 8).
  { unfold sha256. assert (Q : forall ms h, length h = 8 -> length (fold_left compress ms h) = 8) by (induction ms as [|x ms IH]; intros h Hh; cbn [fold_left]; auto; apply IH, compress_length; auto). apply Q. apply H0_length. }
  assert (A : forall l, Forall byte (concat (map word_bytes l))).
  { induction l as [|w l IH]; cbn [map concat]; [constructor|]. apply Forall_app. split; auto. unfold word_bytes. cbn [map]. repeat (constructor; [unfold byte; apply Z.mod_pos_bound; lia|]). constructor. }
  assert (B : forall l, bytes_bits (concat (map word_bytes l)) = concat (map (be_bits 32) l)).
  { induction l as [|w l IH]; cbn [map concat]; [reflexivity|]. rewrite bytes_app, IH. f_equal. unfold word_bytes, bytes_bits. cbn [map concat].
    assert (TB : forall i k, (0 <= i < 8)%Z -> (0 <= k)%Z -> Z.testbit ((w / 2 ^ k) mod 256) i = Z.testbit w (i + k)).
    { intros i k0 Hi Hk. change 256%Z with (2 ^ 8)%Z. rewrite Z.mod_pow2_bits_low by lia. rewrite Z.div_pow2_bits by lia. reflexivity. }
    change 1%Z with (2 ^ 0)%Z. unfold be_bits. cbn [seq map app Nat.sub]. rewrite !TB by lia. repeat (apply f_equal2; [apply (f_equal (Z.testbit w)); reflexivity|]). reflexivity. }
  split; [apply A|]. split; [apply B|]. destruct (sha256 m) as [|a [|b [|c [|d [|e [|f [|g [|h [|]]]]]]]]]; try discriminate L8. reflexivity.
Qed.
Print Assumptions C46_bytes.
(* any number of bytes, in whatever program variables: the program can be written, and its only run returns the digest; no assertion fails, no
   division by zero, no error *)
Theorem C46_hash : forall F n npub (xs : list nat), (2 ^ 30 < fmod F)%Z -> Forall (fun x => x < n + npub) xs ->
  exists p : Prog F, gprog (n + npub) (sha256_var_bytes xs) = Some p /\
  forall fns (E : Env F) ins l, length ins = n -> omap (nth_error (ins ++ map (e_pub E) (seq 0 npub))) xs = Some (map ofZ l) -> Forall byte l ->
  forall outs b, main fns E npub p ins outs b <-> outs = map ofZ (hash_bytes (bytes_bits l)) /\ b = true.
Proof.
  intros F n npub xs Hp A. destruct (ok_gprog _ _ _ (n + npub) (ok_var_bytes Hp _ _ _ (zeros_V (n + npub) xs A) (zeros_byte _))) as [p Hg]; [apply repeat_length|].
  exists p. split; auto. intros fns E ins l Li Hm Hb. apply omap_nth_iss in Hm. eapply ok_main; eauto. eapply ok_imp; [apply (ok_var_bytes Hp); [apply Vs_iss; exact Hm|auto]|]. cbv beta. intros h r X Q. apply Vs_iss. exact Q.
Qed.
Print Assumptions C46_hash.
Theorem C46_37 : forall F n npub (xs : list nat), (2 ^ 30 < fmod F)%Z -> Forall (fun x => x < n + npub) xs -> length xs = 37 ->
  exists p : Prog F, gprog (n + npub) (sha256_37bytes xs) = Some p /\
  forall fns (E : Env F) ins l, length ins = n -> omap (nth_error (ins ++ map (e_pub E) (seq 0 npub))) xs = Some (map ofZ l) -> Forall byte l ->
  forall outs b, main fns E npub p ins outs b <-> outs = map ofZ (hash_bytes (bytes_bits l)) /\ b = true.
Proof.
  intros F n npub xs Hp A L37. destruct (ok_gprog _ _ _ (n + npub) (ok_37 Hp _ _ _ (zeros_V (n + npub) xs A) (zeros_byte _) ltac:(rewrite repeat_length; exact L37))) as [p Hg]; [apply repeat_length|].
  exists p. split; auto. intros fns E ins l Li Hm Hb. apply omap_nth_iss in Hm. eapply ok_main; eauto. eapply ok_imp; [apply (ok_37 Hp); [apply Vs_iss; exact Hm|auto|]|].
  - rewrite <- L37, (f2_length _ _ _ Hm), map_length. reflexivity.
  - cbv beta. intros h r X Q. apply Vs_iss. exact Q.
Qed.
Print Assumptions C46_37.
(* with a value that is not a byte there is no run: the inputs are checked *)
Theorem C46_only_bytes : forall F n npub (xs : list nat) (p : Prog F) x, In x xs -> (gprog (n + npub) (sha256_var_bytes xs) = Some p \/ gprog (n + npub) (sha256_37bytes xs) = Some p) ->
  forall fns (E : Env F) ins outs b v, main fns E npub p ins outs b -> nth_error (ins ++ map (e_pub E) (seq 0 npub)) x = Some v -> (0 <= toZ v < 256)%Z.
Proof.
  intros F n npub xs p x I Hg fns E ins outs b v H Hx. split; [apply toZ_range|]. destruct Hg as [Hg|Hg]; [apply (main_tobin fns E npub (n + npub) _ p ins outs b x 8 v Hg (gcalls_var xs x I) Hx H)|apply (main_tobin fns E npub (n + npub) _ p ins outs b x 8 v Hg (gcalls_37 xs x I) Hx H)].
Qed.
Print Assumptions C46_only_bytes.
(* the check of a 37-byte message and its digest accepts exactly the digest *)
Theorem C46_check : forall F n npub (data : list nat), (2 ^ 30 < fmod F)%Z -> Forall (fun x => x < n + npub) data -> 69 <= length data ->
  exists p : Prog F, gprog (n + npub) (check_sha256_37bytes data) = Some p /\
  forall fns (E : Env F) ins l us, length ins = n -> omap (nth_error (ins ++ map (e_pub E) (seq 0 npub))) (firstn 37 data) = Some (map ofZ l) -> Forall byte l ->
  omap (nth_error (ins ++ map (e_pub E) (seq 0 npub))) (firstn 32 (skipn 37 data)) = Some us ->
  forall outs b, main fns E npub p ins outs b <-> outs = map ofZ (hash_bytes (bytes_bits l)) /\ b = if list_eq_dec (f_dec F) (map ofZ (hash_bytes (bytes_bits l))) us then true else false.
Proof.
  intros F n npub data Hp A L69. assert (L37 : length (firstn 37 data) = 37) by (rewrite firstn_length; lia). pose proof (fa_firstn _ _ 37 _ A) as A37.
  assert (Hm : check_sha256_37bytes (F := F) data = (r <-- sha256_37bytes (firstn 37 data);; _ <-- asserts_eq (combine r (firstn 32 (skipn 37 data)));; gret r)).
  { unfold check_sha256_37bytes. destruct (Nat.ltb_spec (length data) 37); [lia|]. cbv zeta. destruct (Nat.ltb_spec (length (skipn 37 data)) 32) as [C|C]; [rewrite skipn_length in C; lia|reflexivity]. }
  rewrite Hm. assert (Hg : exists p, gprog (F := F) (n + npub) (r <-- sha256_37bytes (firstn 37 data);; _ <-- asserts_eq (combine r (firstn 32 (skipn 37 data)));; gret r) = Some p).
  { destruct (ok_calls _ _ _ (ok_37 Hp _ _ _ (zeros_V (n + npub) _ A37) (zeros_byte _) ltac:(rewrite repeat_length; exact L37))) as (ops & a & E1). rewrite repeat_length in E1. unfold gprog, gbind. rewrite E1.
    unfold asserts_eq, gbind. destruct (asserts_calls (F := F) (combine a (firstn 32 (skipn 37 data))) (n + npub + ops_outs ops)) as [us ->]. cbn. eauto. }
  destruct Hg as [p Hg]. exists p. split; [exact Hg|]. intros fns E ins l us Li Hl Hb Hu. apply omap_nth_iss in Hl, Hu. eapply checked_main; eauto.
  - eapply ok_imp; [apply (ok_37 Hp); [apply Vs_iss; exact Hl|auto|]|].
    + rewrite <- L37, (f2_length _ _ _ Hl), map_length. reflexivity.
    + cbv beta. intros h r X Q. apply Vs_iss. exact Q.
  - rewrite map_length, (proj2 (proj2 (C46_bytes _))). rewrite <- (f2_length _ _ _ Hu), firstn_length, skipn_length. lia.
Qed.
Print Assumptions C46_check.
(* on bits: nine words, each with its least significant bit first, and a byte *)
Theorem C46_compress : forall F n npub (xs : list nat), (2 ^ 30 < fmod F)%Z -> Forall (fun x => x < n + npub) xs -> length xs = 296 ->
  exists p : Prog F, gprog (n + npub) (sha256_37bytes_compress xs) = Some p /\
  forall fns (E : Env F) ins m, length ins = n -> omap (nth_error (ins ++ map (e_pub E) (seq 0 npub))) xs = Some (map fbool m) ->
  forall outs b, main fns E npub p ins outs b <-> outs = map ofZ (hash_bytes (unpack m)) /\ b = true.
Proof.
  intros F n npub xs Hp A L. destruct (ok_gprog _ _ _ (n + npub) (ok_37_compress Hp _ _ _ (zeros_b (n + npub) xs A) ltac:(rewrite repeat_length; exact L))) as [p Hg]; [apply repeat_length|].
  exists p. split; auto. intros fns E ins m Li Hm. apply omap_nth_iss in Hm. eapply ok_main; eauto. eapply ok_imp; [apply (ok_37_compress Hp); [apply ibs_iss; exact Hm|]|].
  - rewrite <- L, (f2_length _ _ _ Hm), map_length. reflexivity.
  - cbv beta. intros h r X Q. apply Vs_iss. exact Q.
Qed.
Print Assumptions C46_compress.
Theorem C46_check_compress : forall F n npub (data : list nat), (2 ^ 30 < fmod F)%Z -> Forall (fun x => x < n + npub) data -> 328 <= length data ->
  exists p : Prog F, gprog (n + npub) (check_sha256_37bytes_compress data) = Some p /\
  forall fns (E : Env F) ins m us, length ins = n -> omap (nth_error (ins ++ map (e_pub E) (seq 0 npub))) (firstn 296 data) = Some (map fbool m) ->
  omap (nth_error (ins ++ map (e_pub E) (seq 0 npub))) (firstn 32 (skipn 296 data)) = Some us ->
  forall outs b, main fns E npub p ins outs b <-> outs = map ofZ (hash_bytes (unpack m)) /\ b = if list_eq_dec (f_dec F) (map ofZ (hash_bytes (unpack m))) us then true else false.
Proof.
  intros F n npub data Hp A L328. assert (L : length (firstn 296 data) = 296) by (rewrite firstn_length; lia). pose proof (fa_firstn _ _ 296 _ A) as A1.
  assert (Hm : check_sha256_37bytes_compress (F := F) data = (r <-- sha256_37bytes_compress (firstn 296 data);; _ <-- asserts_eq (combine r (firstn 32 (skipn 296 data)));; gret r)).
  { unfold check_sha256_37bytes_compress. destruct (Nat.ltb_spec (length data) 296); [lia|]. cbv zeta. destruct (Nat.ltb_spec (length (skipn 296 data)) 32) as [C|C]; [rewrite skipn_length in C; lia|reflexivity]. }
  rewrite Hm. assert (Hg : exists p, gprog (F := F) (n + npub) (r <-- sha256_37bytes_compress (firstn 296 data);; _ <-- asserts_eq (combine r (firstn 32 (skipn 296 data)));; gret r) = Some p).
  { destruct (ok_calls _ _ _ (ok_37_compress Hp _ _ _ (zeros_b (n + npub) _ A1) ltac:(rewrite repeat_length; exact L))) as (ops & a & E1). rewrite repeat_length in E1. unfold gprog, gbind. rewrite E1.
    unfold asserts_eq, gbind. destruct (asserts_calls (F := F) (combine a (firstn 32 (skipn 296 data))) (n + npub + ops_outs ops)) as [us ->]. cbn. eauto. }
  destruct Hg as [p Hg]. exists p. split; [exact Hg|]. intros fns E ins m us Li Hl Hu. apply omap_nth_iss in Hl, Hu. eapply checked_main; eauto.
  - eapply ok_imp; [apply (ok_37_compress Hp); [apply ibs_iss; exact Hl|]|].
    + rewrite <- L, (f2_length _ _ _ Hl), map_length. reflexivity.
    + cbv beta. intros h r X Q. apply Vs_iss. exact Q.
  - rewrite map_length, (proj2 (proj2 (C46_bytes _))). rewrite <- (f2_length _ _ _ Hu), firstn_length, skipn_length. lia.
Qed.
Print Assumptions C46_check_compress.
(* a batch: when the inputs agree on the first 32 bytes the outputs are the digests *)
Theorem C46_batch : forall F n npub (inputs : list (list nat)), (2 ^ 30 < fmod F)%Z -> Forall (Forall (fun x => x < n + npub)) inputs -> Forall (fun xs => length xs = 296) inputs ->
  exists p : Prog F, batch_prog (n + npub) inputs = Some p /\
  forall fns (E : Env F) ins ms, length ins = n -> Forall2 (fun xs m => omap (nth_error (ins ++ map (e_pub E) (seq 0 npub))) xs = Some (map fbool m)) inputs ms ->
  (forall m m', In m ms -> In m' ms -> firstn 256 m = firstn 256 m') ->
  forall outs b, main fns E npub p ins outs b <-> outs = map ofZ (concat (map (fun m => hash_bytes (unpack m)) ms)) /\ b = true.
Proof.
  intros F n npub inputs Hp A L.
  assert (OK : forall hv ms, Forall2 (ibs (F := F) hv) inputs ms -> Forall (fun m => length m = 296) ms -> (forall m m', In m ms -> In m' ms -> firstn 256 m = firstn 256 m') ->
    ok hv (r <-- sha256_37bytes_256batch_compress inputs;; gret (concat r)) (fun hv' xs => Vs hv' xs (concat (map (fun m => hash_bytes (unpack m)) ms)))).
  { intros hv ms I Lm S. destruct ms as [|m0 ms].
    - inversion I; subst. unfold sha256_37bytes_256batch_compress. eapply ok_bind; [eapply ok_bind; [apply ok_new|]|].
      + cbv beta. intros h d X D. cbn [length seq combine gfold]. apply (ok_ret h (snd (d, []))  (fun _ r => r = [])). reflexivity.
      + cbv beta. intros h r X ->. apply ok_ret. constructor.
    - eapply ok_bind; [apply (ok_batch Hp hv inputs m0 ms I Lm)|]. cbv beta. intros h r X Q. apply ok_ret.
      rewrite (map_ext_in (fun m => hash_bytes (unpack m)) (fun m => mbytes (mixed m0 m))).
      + clear -Q. induction Q; cbn [concat]; [constructor|]. apply Forall2_app; auto.
      + intros m Im. rewrite Forall_forall in Lm. rewrite mixed_same; [reflexivity|apply S; [left; reflexivity|exact Im]|apply Lm; left; reflexivity|apply Lm; exact Im]. }
  assert (Z1 : Forall2 (ibs (repeat (f0 : F) (n + npub))) inputs (map (fun xs => repeat false (length xs)) inputs)).
  { clear OK L. induction A as [|x l Hx Hl IH]; cbn [map]; constructor; auto. apply zeros_b. auto. }
  destruct (ok_gprog _ _ _ (n + npub) (OK (repeat f0 (n + npub)) _ Z1 ltac:(clear -L; induction L; cbn [map]; constructor; auto; rewrite repeat_length; auto)
    ltac:(intros m m' I I'; apply in_map_iff in I, I'; destruct I as (x & <- & Ix), I' as (y & <- & Iy); rewrite Forall_forall in L; rewrite (L x Ix), (L y Iy); reflexivity))) as [p Hg]; [apply repeat_length|].
  exists p. split; [exact Hg|]. intros fns E ins ms Li Hm S. eapply ok_main; eauto. eapply ok_imp; [apply (OK _ ms)|]; auto.
  - clear -Hm. induction Hm; constructor; auto. apply ibs_iss. apply omap_nth_iss. auto.
  - clear -Hm L. revert L. induction Hm as [|x m l ms Hx Hm IH]; intros L; constructor; inversion L; subst; auto. apply omap_nth_iss in Hx. apply f2_length in Hx. rewrite map_length in Hx. congruence.
  - cbv beta. intros h r X Q. apply Vs_iss. exact Q.
Qed.
Print Assumptions C46_batch.
(* in general the output for an input starts from the state that the first eight words of the first input lead to *)
Lemma concat_Vs {F : Fld} (h : list F) r vs : VVs h r vs -> Vs h (concat r) (concat vs).
Proof. intros Q. induction Q; cbn [concat]; [constructor|]. apply Forall2_app; auto. Qed.
Lemma batch_ok {F : Fld} : (2 ^ 30 < fmod F)%Z -> forall (hv : list F) inputs m0 ms, Forall2 (ibs hv) inputs (m0 :: ms) -> Forall (fun m => length m = 296) (m0 :: ms) ->
  ok hv (r <-- sha256_37bytes_256batch_compress inputs;; gret (concat r)) (fun hv' xs => iss hv' xs (map ofZ (concat (map (fun m => mbytes (mixed m0 m)) (m0 :: ms))))).
Proof.
  intros Hp hv inputs m0 ms I Lm. pose proof (ok_batch Hp hv inputs m0 ms I Lm) as B. revert B. generalize (map (fun m => mbytes (mixed m0 m)) (m0 :: ms)). intros vs B.
  eapply ok_bind; [exact B|]. cbv beta. intros h r X Q. apply ok_ret. apply Vs_iss. apply concat_Vs. exact Q.
Qed.
Theorem C46_batch_outputs : forall F n npub (inputs : list (list nat)) (p : Prog F), (2 ^ 30 < fmod F)%Z -> Forall (fun xs => length xs = 296) inputs -> batch_prog (n + npub) inputs = Some p ->
  forall fns (E : Env F) ins m0 ms, length ins = n -> Forall2 (fun xs m => omap (nth_error (ins ++ map (e_pub E) (seq 0 npub))) xs = Some (map fbool m)) inputs (m0 :: ms) ->
  forall outs b, main fns E npub p ins outs b <-> outs = map ofZ (concat (map (fun m => mbytes (mixed m0 m)) (m0 :: ms))) /\ b = true.
Proof.
  intros F n npub inputs p Hp L Hg fns E ins m0 ms Li Hm. rewrite batch_prog_eq in Hg.
  assert (I : Forall2 (ibs (ins ++ map (e_pub E) (seq 0 npub))) inputs (m0 :: ms)).
  { clear -Hm. induction Hm; constructor; auto. apply ibs_iss. apply omap_nth_iss. auto. }
  assert (Lm : Forall (fun m => length m = 296) (m0 :: ms)).
  { clear -Hm L. revert L. induction Hm as [|x m l ms' Hx Hm IH]; intros L; constructor; inversion L; subst; auto. apply omap_nth_iss in Hx. apply f2_length in Hx. rewrite map_length in Hx. congruence. }
  exact (ok_main fns E npub n _ p ins _ Hg Li (batch_ok Hp _ inputs m0 ms I Lm)).
Qed.
Print Assumptions C46_batch_outputs.
(* two inputs with different first words: whatever the field, the second output is not the digest of the second input *)
Definition other37 : list bool := [true] ++ repeat false 295.
Theorem C46_batch_refuted : forall F : Fld, (2 ^ 30 < fmod F)%Z -> let ms := [repeat false 296; other37] in
  exists p : Prog F, batch_prog 592 [seq 0 296; seq 296 296] = Some p /\
  forall fns (E : Env F), exists outs, main fns E 0 p (map fbool (concat ms)) outs true /\ outs <> map ofZ (concat (map (fun m => hash_bytes (unpack m)) ms)).
Proof.
  intros F Hp ms. assert (L : Forall (fun xs => length xs = 296) [seq 0 296; seq 296 296]) by (repeat constructor; apply seq_length).
  assert (A : Forall (Forall (fun x => x < 592 + 0)) [seq 0 296; seq 296 296]) by (constructor; [|constructor; [|constructor]]; apply Forall_forall; intros x Hx; apply in_seq in Hx; lia).
  destruct (C46_batch F 592 0 [seq 0 296; seq 296 296] Hp A L) as (p & Hg & _). exists p. split; [exact Hg|]. intros fns E.
  eexists. split.
  - apply (C46_batch_outputs F 592 0 _ p Hp L Hg fns E (map fbool (concat ms)) (repeat false 296) [other37]).
    + rewrite map_length. reflexivity.
    + change (map (e_pub E) (seq 0 0)) with (@nil F). rewrite app_nil_r. assert (EC : concat ms = repeat false 296 ++ other37) by (unfold ms; rewrite concat_cons, concat_cons, app_nil_r; reflexivity). rewrite EC, map_app. pose proof (iss_new (F := F) [] (map fbool (repeat false 296))) as I1. pose proof (iss_new (map (fbool (F := F)) (repeat false 296)) (map fbool other37)) as I2.
      rewrite !map_length in I1, I2. change (length (repeat false 296)) with 296 in I1, I2. change (length other37) with 296 in I2. change (length (@nil F)) with 0 in I1. cbn [app] in I1.
      constructor; [apply omap_nth_iss|constructor; [apply omap_nth_iss; exact I2|constructor]]. eapply iss_ext; [|exact I1]. exists (map fbool other37). reflexivity.
    + split; reflexivity.
  - intros E2. assert (Inj : forall l l', Forall byte l -> Forall byte l' -> map (ofZ : Z -> F) l = map ofZ l' -> l = l').
    { clear -Hp. induction l as [|x l IH]; intros [|y l'] A A' H; try discriminate; auto. inversion A as [|? ? Hx Al]; inversion A' as [|? ? Hy Al']; subst. cbn [map] in H. injection H as H1 H2. unfold byte in *.
      f_equal; auto. rewrite <- (toZ_ofZ_small F x), <- (toZ_ofZ_small F y), H1 by lia. reflexivity. }
    assert (AB : forall hs, Forall byte (concat (map (fun h => concat (map word_bytes h)) hs))).
    { induction hs as [|h hs IH]; cbn [map concat]; [constructor|]. apply Forall_app. split; auto. clear. induction h as [|w l IH]; cbn [map concat]; [constructor|]. apply Forall_app. split; auto. unfold word_bytes. cbn [map]. repeat (constructor; [unfold byte; apply Z.mod_pos_bound; lia|]). constructor. }
    apply Inj in E2.
    + revert E2. unfold ms. clear. intros E2. apply (f_equal (fun l => nth 32 l 0%Z)) in E2. revert E2. vm_compute. discriminate.
    + rewrite <- (map_map (mixed (repeat false 296)) (fun h => concat (map word_bytes h))). apply AB.
    + unfold hash_bytes. rewrite <- (map_map (fun m => sha256 (unpack m)) (fun h => concat (map word_bytes h))). apply AB.
Qed.
Print Assumptions C46_batch_refuted.
(* checking a batch against 32 values for every input *)
Definition check_batch_prog {F : Fld} (n : nat) (inputs outputs : list (list nat)) : option (Prog F) :=
  gprog n (r <-- check_sha256_37bytes_256batch_compress inputs outputs;; gret (concat r)).
Lemma combine_concat {A C} (rs : list (list A)) : forall os : list (list C), Forall2 (fun a b => length a = length b) rs os -> concat (map (fun p => combine (fst p) (snd p)) (combine rs os)) = combine (concat rs) (concat os).
Proof.
  intros os H. induction H as [|a b rs os L H IH]; [reflexivity|]. cbn [combine map concat fst snd]. rewrite IH. clear -L. revert b L. induction a as [|x a IHa]; intros [|y b] L; try discriminate; cbn [combine app]; [reflexivity|]. f_equal. apply IHa. injection L as L. exact L.
Qed.
Lemma check_batch_eq {F : Fld} n inputs outputs ops result : sha256_37bytes_256batch_compress (F := F) inputs n = Some (ops, result) -> Forall (fun r => length r = 32) result -> length result = length outputs -> Forall (fun o => length o = 32) outputs ->
  check_batch_prog (F := F) n inputs outputs = gprog n (r <-- (r <-- sha256_37bytes_256batch_compress inputs;; gret (concat r));; _ <-- asserts_eq (combine r (concat outputs));; gret r).
Proof.
  intros E R L O. unfold check_batch_prog, gprog. f_equal. unfold check_sha256_37bytes_256batch_compress, gbind at 1 3. unfold gbind. rewrite E.
  assert (C1 : (length result <? length outputs) || existsb (fun o => length o <? 32) outputs = false).
  { rewrite L, Nat.ltb_irrefl. cbn [orb]. clear -O. induction O as [|o l Ho Hl IH]; cbn [existsb]; auto. rewrite Ho. exact IH. }
  rewrite C1. assert (C2 : concat (map (fun p => combine (fst p) (firstn 32 (snd p))) (combine result outputs)) = combine (concat result) (concat outputs)).
  { rewrite <- combine_concat.
    - f_equal. clear -O L. revert result L. induction O as [|o l Ho Hl IH]; intros [|r rs] L; try discriminate; cbn [combine map fst snd]; auto. f_equal; [rewrite firstn_all2 by lia; auto|apply IH; injection L as L; exact L].
    - clear -O L R. revert result L R. induction O as [|o l Ho Hl IH]; intros [|r rs] L R; try discriminate; constructor; inversion R; subst; [congruence|]. apply IH; auto. }
  rewrite C2. cbn [gret]. destruct (asserts_calls (F := F) (combine (concat result) (concat outputs)) (n + ops_outs ops)) as [us Eu]. unfold asserts_eq, gbind.
  assert (Z : ops_outs (ops ++ []) = ops_outs ops) by (rewrite app_nil_r; reflexivity). rewrite Z, Eu. cbn [gret fst snd]. rewrite !app_nil_r. reflexivity.
Qed.
Lemma VVs_shape {F : Fld} (h : list F) (f : list bool -> list Z) rs : forall ms, VVs h rs (map f ms) -> (forall m, length (f m) = 32) -> Forall (fun r => length r = 32) rs /\ length rs = length ms.
Proof.
  induction rs as [|r rs IH]; intros [|m ms] Q Hf; cbn [map] in Q; inversion Q; subst; [split; auto|]. destruct (IH ms) as [I1 I2]; auto. split; [constructor; auto|cbn [length]; auto].
  match goal with X : Vs _ r _ |- _ => rewrite (f2_length _ _ _ X); apply Hf end.
Qed.
Lemma mixed_bytes m0 m : length (mbytes (mixed m0 m)) = 32.
Proof.
  unfold mixed. pose proof H0_length as L0. destruct (fold_left round _ _) as [[[[[[[a b] c] d] e] f] g] y]. destruct H0 as [|a0 [|b0 [|c0 [|d0 [|e0 [|f0 [|g0 [|x0 [|]]]]]]]]]; try discriminate L0. reflexivity.
Qed.
Theorem C46_check_batch : forall F n npub (inputs outputs : list (list nat)), (2 ^ 30 < fmod F)%Z -> Forall (Forall (fun x => x < n + npub)) inputs -> Forall (fun xs => length xs = 296) inputs ->
  length outputs = length inputs -> Forall (fun o => length o = 32) outputs -> inputs <> [] ->
  exists p : Prog F, check_batch_prog (n + npub) inputs outputs = Some p /\
  forall fns (E : Env F) ins ms us, length ins = n -> Forall2 (fun xs m => omap (nth_error (ins ++ map (e_pub E) (seq 0 npub))) xs = Some (map fbool m)) inputs ms ->
  omap (nth_error (ins ++ map (e_pub E) (seq 0 npub))) (concat outputs) = Some us -> (forall m m', In m ms -> In m' ms -> firstn 256 m = firstn 256 m') ->
  forall outs b, main fns E npub p ins outs b <->
    let d := map ofZ (concat (map (fun m => hash_bytes (unpack m)) ms)) in outs = d /\ b = if list_eq_dec (f_dec F) d us then true else false.
Proof.
  intros F n npub inputs outputs Hp A L Lo O Ne.
  assert (Z1 : Forall2 (ibs (repeat (f0 : F) (n + npub))) inputs (map (fun xs => repeat false (length xs)) inputs)).
  { clear -A. induction A as [|x l Hx Hl IH]; cbn [map]; constructor; auto. apply zeros_b. auto. }
  assert (L1 : Forall (fun m => length m = 296) (map (fun xs => repeat false (length xs)) inputs)) by (clear -L; induction L; cbn [map]; constructor; auto; rewrite repeat_length; auto).
  destruct inputs as [|x inputs]; [congruence|]. cbn [map] in Z1, L1. pose proof (ok_batch Hp _ _ _ _ Z1 L1) as B.
  destruct (ok_calls _ _ _ B) as (ops & result & Eb). 
  assert (RL : Forall (fun r => length r = 32) result /\ length result = length outputs).
  { refine (ok_result _ (sha256_37bytes_256batch_compress (x :: inputs)) (fun result => Forall (fun r => length r = 32) result /\ length result = length outputs) _ _ _ Eb).
    eapply ok_imp; [exact B|]. cbv beta. intros h r X Q. apply VVs_shape in Q; [|apply mixed_bytes]. destruct Q as [Q1 Q2]. split; auto. rewrite Q2, Lo. cbn [length]. rewrite map_length. reflexivity. }
  rewrite repeat_length in Eb. rewrite (check_batch_eq _ _ _ _ _ Eb (proj1 RL) (proj2 RL) O).
  destruct (C46_batch F n npub (x :: inputs) Hp A L) as (p0 & Hg0 & _). 
  assert (Hg : exists p, gprog (F := F) (n + npub) (r <-- (r <-- sha256_37bytes_256batch_compress (x :: inputs);; gret (concat r));; _ <-- asserts_eq (combine r (concat outputs));; gret r) = Some p).
  { unfold gprog, gbind at 1 2. rewrite Eb. unfold asserts_eq, gbind. cbn [gret fst snd]. destruct (asserts_calls (F := F) (combine (concat result) (concat outputs)) (n + npub + ops_outs (ops ++ []))) as [us Eu]. rewrite Eu. cbn. eauto. }
  destruct Hg as [p Hg]. exists p. split; [exact Hg|]. intros fns E ins ms us Li Hm Hu S outs b. cbv zeta.
  apply omap_nth_iss in Hu. inversion Hm as [|xs0 m0 xss ms0 Hx0 Hms]; subst xs0 xss ms.
  assert (I : Forall2 (ibs (ins ++ map (e_pub E) (seq 0 npub))) (x :: inputs) (m0 :: ms0)).
  { clear -Hm. induction Hm; constructor; auto. apply ibs_iss. apply omap_nth_iss. auto. }
  assert (Lm : Forall (fun m => length m = 296) (m0 :: ms0)).
  { clear -Hm L. revert L. induction Hm as [|x' m l ms' Hx Hm IH]; intros L; constructor; inversion L; subst; auto. apply omap_nth_iss in Hx. apply f2_length in Hx. rewrite map_length in Hx. congruence. }
  assert (ME : map (fun m => hash_bytes (unpack m)) (m0 :: ms0) = map (fun m => mbytes (mixed m0 m)) (m0 :: ms0)).
  { apply map_ext_in. intros m Im. rewrite Forall_forall in Lm. rewrite mixed_same; [reflexivity|apply S; [left; reflexivity|exact Im]|apply Lm; left; reflexivity|apply Lm; exact Im]. }
  rewrite ME. eapply checked_main; [exact Hg|exact Li|exact (batch_ok Hp _ _ _ _ I Lm)|exact Hu|].
  rewrite map_length, <- ME, <- (f2_length _ _ _ Hu). assert (LL : length outputs = length (m0 :: ms0)) by (rewrite Lo; exact (f2_length _ _ _ Hm)).
  clear -O LL. revert LL. generalize (m0 :: ms0). induction O as [|o os Ho O IH]; intros [|m ms] LL; try discriminate; [reflexivity|]. cbn [map concat]. rewrite !app_length, (proj2 (proj2 (C46_bytes _))), Ho. f_equal. apply IH. injection LL as LL. exact LL.
Qed.
Print Assumptions C46_check_batch.
(* recorded: the builder does not panic, and the runs of the recorded circuit are the hash *)
Theorem C46_recorded : forall F fsize fns hash low n npub (xs : list nat) (p : Prog F) (E : Env F),
  (2 ^ 30 < fmod F)%Z -> size_fits F fsize -> no_collision hash low -> captures_nothing fns -> (forall ty n, sup fsize (fns ty 0 n)) -> identity_hint E ->
  Forall (fun x => x < n) xs -> gprog (n + npub) (sha256_var_bytes xs) = Some p ->
  exists fuel0, forall fuel, fuel0 <= fuel -> exists rc, record fsize fns hash low fuel n npub p = Some rc /\ wf_root _ rc /\
    forall ins l, length ins = n -> omap (nth_error ins) xs = Some (map ofZ l) -> Forall byte l ->
    forall outs b, root_run _ E rc ins outs b <-> outs = map ofZ (hash_bytes (bytes_bits l)) /\ b = true.
Proof.
  intros F fsize fns hash low n npub xs p E Hp Hs Hc Hf Hfs HE A Hg. 
  destruct (C46_hash F n npub xs Hp) as (p' & Hg' & R). { eapply Forall_impl; [|exact A]. cbv beta. intros; lia. } rewrite Hg in Hg'. injection Hg' as <-.
  assert (Hx : forall ins l, length ins = n -> omap (nth_error ins) xs = Some (map ofZ l) -> omap (nth_error (ins ++ map (e_pub E) (seq 0 npub))) xs = Some (map (ofZ (f := F)) l)).
  { intros ins l Li Hl. apply omap_nth_iss. apply omap_nth_iss in Hl. eapply iss_ext; [|exact Hl]. eexists. reflexivity. }
  assert (Z1 : omap (nth_error (repeat (ofZ 0 : F) n)) xs = Some (map ofZ (repeat 0%Z (length xs)))) by (apply omap_nth_iss, Vs_iss, zeros_V; exact A).
  destruct (C33_recording_succeeds F fsize fns hash low n npub p E (repeat (ofZ 0) n) (map ofZ (hash_bytes (bytes_bits (repeat 0%Z (length xs))))) Hs Hc Hf) as [fuel0 Hr]; auto.
  { eapply prog_sup; [|exact Hg]. apply gall_comp. } { apply repeat_length. }
  { apply (R fns E (repeat (ofZ 0) n) (repeat 0%Z (length xs))); auto using repeat_length, zeros_byte. }
  exists fuel0. intros fuel Hfu. destruct (Hr fuel Hfu) as [rc Hrc]. exists rc. split; auto.
  destruct (C33_recorded_circuit F fsize fns hash low fuel n npub p rc Hs Hc Hf Hrc) as (W & _ & _ & Q). split; auto.
  intros ins l Li Hl Hb outs b. rewrite (Q E HE). rewrite (R fns E ins l Li (Hx ins l Li Hl) Hb). tauto.
Qed.
Print Assumptions C46_recorded.
(* the field of the circuits, 2^31 - 1; "abc" *)
Example C46_hash_instance : exists p : Prog M31, gprog 3 (sha256_var_bytes (seq 0 3)) = Some p /\
  forall fns E outs b, main fns E 0 p (map ofZ [97; 98; 99]%Z) outs b <->
    outs = map ofZ [0xba; 0x78; 0x16; 0xbf; 0x8f; 0x01; 0xcf; 0xea; 0x41; 0x41; 0x40; 0xde; 0x5d; 0xae; 0x22; 0x23; 0xb0; 0x03; 0x61; 0xa3; 0x96; 0x17; 0x7a; 0x9c; 0xb4; 0x10; 0xff; 0x61; 0xf2; 0x00; 0x15; 0xad]%Z /\ b = true.
Proof.
  destruct (C46_hash M31 3 0 (seq 0 3)) as [p [Hp R]]. { reflexivity. } { apply Forall_forall. intros x Hx. apply in_seq in Hx. lia. }
  exists p. split; [exact Hp|]. intros fns E outs b. rewrite (R fns E (map ofZ [97; 98; 99]%Z) [97; 98; 99]%Z).
  - unfold hash_bytes. rewrite sha_abc. tauto.
  - reflexivity.
  - cbn [seq map]. rewrite app_nil_r. apply omap_nth_iss. pose proof (iss_new (F := M31) [] (map ofZ [97; 98; 99]%Z)) as I. exact I.
  - repeat constructor; discriminate.
Qed.
Example unpack_instance : unpack (concat (map (fun w => rev (bytes_bits w)) (cut 4 9 (map Z.of_nat (seq 1 36)))) ++ bytes_bits [37]%Z) = bytes_bits (map Z.of_nat (seq 1 37)).
Proof. vm_compute. reflexivity. Qed.
