(* C45: the SHA-256 circuit over GF(2) of circuit-std-rs.  The specification of SHA-256 is ShaSpec.v (FIPS 180-4), that of API programs is ApiSpec.v. *)
From Verif Require Import Prelude Field Zp Expr Hints Ir IrFacts IrInst Sim ApiSpec Frontend ApiFacts FrontFacts FrontSim DebugFacts FrontProg PropIr PropFront.
From Verif Require Import Gadget ShaSpec ShaGf2 ShaGf2Facts ShaGf2Sem GadgetRec.
From Coq Require Import NArith.
Open Scope nat_scope.

(* a program that hashes: n variables exist before; the object gets the variables of ds, one update per list; the digest is returned *)
Definition hash_prog {F : Fld} (n : nat) (ds : list (list nat)) : option (Prog F) :=
  gprog n (r <-- finalize (fold_left update ds new);; gret (snd r)).
(* a program that checks a digest: it is asserted equal to the variables of e *)
Definition check_prog {F : Fld} (n : nat) (ds : list (list nat)) (e : list nat) : option (Prog F) :=
  gprog n (r <-- finalize (fold_left update ds new);; _ <-- gmap (fun p => call0 (OAssertEq (AV (fst p)) (AV (snd p)))) (combine (snd r) e);; gret []).

Section Proofs.
  Context {F : Fld}.
  Hypothesis H2 : fmod F = 2%Z.
  Lemma updates ds : forall d, fold_left update ds d = d ++ concat ds.
  Proof. induction ds as [|x ds IH]; intros d; cbn; [rewrite app_nil_r; auto|]. rewrite IH. unfold update. rewrite app_assoc. auto. Qed.
  Lemma new_updates ds : fold_left update ds new = concat ds. Proof. apply updates. Qed.
  Lemma ok_hash (hv : list F) ds m : iss hv (concat ds) (map fbool m) -> (length m + 1) mod 512 <= 448 ->
    ok hv (r <-- finalize (fold_left update ds new);; gret (snd r)) (fun hv' xs => iss hv' xs (map fbool (digest_bits m))).
  Proof.
    intros A L. rewrite new_updates. eapply ok_bind; [apply (ok_finalize H2 hv _ m); auto; apply ibs_iss; auto|]. cbv beta. intros h r X [_ R]. apply ok_ret. apply ibs_iss; auto.
  Qed.
  (* calls do not depend on values *)
  Lemma zeros_iss n xs : Forall (fun x => x < n) xs -> iss (repeat (f0 : F) n) xs (map fbool (repeat false (length xs))).
  Proof.
    intros A. induction A as [|x xs Hx A IH]; cbn; constructor; auto. unfold is. destruct (nth_error (repeat f0 n) x) as [v|] eqn:E.
    - apply nth_error_In, repeat_spec in E. subst. reflexivity.
    - apply nth_error_None in E. rewrite repeat_length in E. lia.
  Qed.
  Lemma finalize_calls n self : Forall (fun x => x < n) self -> (length self + 1) mod 512 <= 448 -> exists ops data out, finalize (F := F) self n = Some (ops, (data, out)) /\ length out = 256.
  Proof.
    intros A L. destruct (ok_finalize H2 (repeat f0 n) self (repeat false (length self))) as (hv' & [data out] & R & _ & Q & Q').
    { apply ibs_iss, zeros_iss; auto. } { rewrite repeat_length; auto. }
    unfold grun in R. rewrite repeat_length in R. destruct (finalize self n) as [[ops [d o]]|]; cbn [obind fst snd] in R; [|discriminate].
    destruct (exec _ ops); cbn [obind] in R; [|discriminate]. injection R as _ <- <-. exists ops, d, o. split; auto.
    apply f2_length in Q'. cbn [snd] in Q'. rewrite Q'. unfold digest_bits, sha256. clear Q Q'.
    assert (K : forall ms h, length h = 8 -> length (fold_left compress ms h) = 8) by (induction ms as [|x ms IH]; intros h Hh; cbn [fold_left]; auto; apply IH, compress_length; auto).
    specialize (K (blocks (pad (repeat false (length self)))) H0 eq_refl). destruct (fold_left compress _ _) as [|a [|b [|c [|e [|f [|g [|i [|j [|]]]]]]]]]; try discriminate K.
    cbn [map concat]. rewrite !app_length, !be_bits_length. reflexivity.
  Qed.
  Lemma asserts_calls l : forall n, exists us, gmap (F := F) (fun p => call0 (OAssertEq (AV (fst p)) (AV (snd p)))) l n = Some (map (fun p => OAssertEq (AV (fst p)) (AV (snd p))) l, us).
  Proof.
    induction l as [|p l IH]; intros n; cbn [gmap map]; [exists []; auto|]. unfold gbind. cbn [call0 ops_outs fold_right op_outs]. rewrite Nat.add_0_r. destruct (IH n) as [us E]. rewrite E.
    cbn. rewrite app_nil_r. eauto.
  Qed.
  Lemma asserts_run fns (E : Env F) (hv : list F) xs ys : forall us vs, iss hv xs us -> iss hv ys vs -> length xs = length ys ->
    forall hv' b, stmts fns E (map SOp (map (fun p => OAssertEq (AV (fst p)) (AV (snd p))) (combine xs ys))) hv hv' b <-> hv' = hv /\ b = if list_eq_dec (f_dec F) us vs then true else false.
  Proof.
    revert ys. induction xs as [|x xs IH]; intros [|y ys] us vs A B L hv' b; cbn in L; try discriminate; inversion A as [|? u ? us' Hx A']; subst; inversion B as [|? v ? vs' Hy B']; subst; cbn [combine map].
    - split. intros S. inversion S; subst. auto. intros [-> ->]. constructor.
    - injection L as L. specialize (IH ys us' vs' A' B' L). unfold is in Hx, Hy.
      assert (Q : (if list_eq_dec (f_dec F) (u :: us') (v :: vs') then true else false) = feqb u v && (if list_eq_dec (f_dec F) us' vs' then true else false)).
      { destruct (list_eq_dec _ us' vs') as [->|N].
        - rewrite andb_true_r. destruct (list_eq_dec _ _ _) as [E1|E1].
          + injection E1 as ->. symmetry. apply feqb_spec. auto.
          + symmetry. apply feqb_false. congruence.
        - rewrite andb_false_r. destruct (list_eq_dec _ _ _) as [E1|E1]; auto. injection E1 as _ E1. contradiction. }
      rewrite Q. split.
      + intros S. inversion S as [|o o' ss h0 outs b0 h1 b1 Ho Ha Hr|]; subst. cbn [op_map arg_val fst snd] in Ho. rewrite Hx, Hy in Ho. cbn [obind] in Ho. injection Ho as <-.
        cbn in Ha. injection Ha as <- <-. rewrite app_nil_r in Hr. apply IH in Hr. destruct Hr as [-> ->]. auto.
      + intros [-> ->]. eapply StOp with (outs := []). { cbn [op_map arg_val fst snd]. rewrite Hx, Hy. reflexivity. } { reflexivity. }
        rewrite app_nil_r. apply IH. auto.
  Qed.
  Lemma check_body n ds e p : Forall (fun x => x < n) (concat ds) -> (length (concat ds) + 1) mod 512 <= 448 -> check_prog n ds e = Some p ->
    exists ops data out, finalize (F := F) (concat ds) n = Some (ops, (data, out)) /\ length out = 256 /\
      p = {| p_body := map SOp ops ++ map SOp (map (fun p => OAssertEq (AV (fst p)) (AV (snd p))) (combine out e)); p_outs := [] |}.
  Proof.
    intros A L Hp. destruct (finalize_calls n _ A L) as (ops & data & out & E & Lo). exists ops, data, out. split; auto. split; auto.
    unfold check_prog, gprog in Hp. rewrite new_updates in Hp. unfold gbind in Hp. rewrite E in Hp. cbn [snd] in Hp.
    destruct (asserts_calls (combine out e) (n + ops_outs ops)) as [us Eu]. rewrite Eu in Hp. cbn in Hp. rewrite app_nil_r in Hp. injection Hp as <-. rewrite map_app. reflexivity.
  Qed.
  Lemma fbool_inj a b : (fbool a : F) = fbool b -> a = b.
  Proof. pose proof (f1_neq_f0 F) as N. destruct a, b; cbn; intros H; auto; exfalso; congruence. Qed.
  Lemma map_fbool_inj a : forall b, map (fbool (F := F)) a = map fbool b -> a = b.
  Proof. induction a as [|x a IH]; intros [|y b] H; cbn in H; try discriminate; auto. injection H as H0 H1. apply fbool_inj in H0. f_equal; auto. Qed.
  Lemma gall_finalize self : gall (F := F) simple_op (finalize self).
  Proof.
    assert (C : forall z, gall (F := F) simple_op (a_const z)) by (intros; apply gall_call1; auto).
    assert (B : forall b x y, gall (F := F) simple_op (a_bin b x y)) by (intros; apply gall_call1; auto).
    assert (X : forall x y, gall (F := F) simple_op (a_add x y)) by (intros; apply B).
    assert (M : forall x y, gall (F := F) simple_op (a_mul x y)) by (intros; apply B).
    Local Ltac g := repeat first [apply gall_ret|apply gall_panic|apply gall_bind; [|intros ?]|apply gall_gmap; intros ?|apply gall_gfold; intros ? ?|solve [eauto with nocore]].
    assert (XO : forall a b, gall (F := F) simple_op (w_xor a b)) by (intros; unfold w_xor; g).
    assert (AN : forall a b, gall (F := F) simple_op (w_and a b)) by (intros; unfold w_and; g).
    assert (NO : forall a, gall (F := F) simple_op (w_not a)) by (intros; unfold w_not; g).
    assert (SR : forall a k, gall (F := F) simple_op (shift_right a k)) by (intros; unfold shift_right; g).
    assert (TB : forall n v, gall (F := F) simple_op (to_bits n v)) by (intros; unfold to_bits; g).
    assert (BK : forall a0 a1 a2 a3 b0 b1 b2 b3 c, gall (F := F) simple_op (brent_kung_adder_4_bits a0 a1 a2 a3 b0 b1 b2 b3 c)) by (intros; unfold brent_kung_adder_4_bits; cbv zeta; g).
    assert (BL : forall n a b c, length a <= n -> gall (F := F) simple_op (brentkung_loop a b c)).
    { induction n as [|n IH]; intros a b c L; [destruct a; cbn in L; [|lia]; cbn; g|]. destruct a as [|a0 [|a1 [|a2 [|a3 a]]]]; cbn [brentkung_loop]; g. destruct b as [|b0 [|b1 [|b2 [|b3 b]]]]; g. apply IH. cbn in L. lia. }
    assert (BL' : forall a b c, gall (F := F) simple_op (brentkung_loop a b c)) by (intros a b c; apply (BL (length a)); auto). clear BL.
    assert (AD : forall a b, gall (F := F) simple_op (w_add a b)) by (intros; unfold w_add, add_brentkung; g).
    assert (SA : forall f vs, gall (F := F) simple_op (sum_all_loop f vs)).
    { induction f as [|f IH]; intros vs; cbn [sum_all_loop]; g. destruct (1 <? length vs); g. destruct vs; g. }
    assert (AC : forall a b j c, gall (F := F) simple_op (add_const_loop a b j c)).
    { induction a as [|x a IH]; intros b j c; cbn [add_const_loop]; g. destruct (_ =? _)%Z; g. }
    assert (SS : forall w i, gall (F := F) simple_op (sched_step w i)) by (intros; unfold sched_step, lower_case_sigma0, lower_case_sigma1; g).
    assert (RS : forall s kw, gall (F := F) simple_op (round_step s kw)).
    { intros s kw. unfold round_step. destruct s as [[[[[[[a b] c] d] e] f] g0] h]. unfold add_const, sum_all, ch, maj, capital_sigma0, capital_sigma1. g. }
    unfold finalize. cbv zeta. g. destruct (448 <? _); g. unfold sha256_compress. destruct s as [|? [|? [|? [|? [|? [|? [|? [|? [|]]]]]]]]]; g.
    repeat match goal with |- context [match ?x with (_, _) => _ end] => is_var x; destruct x end. g.
  Qed.
End Proofs.

(* ======================= C45 ======================= *)
(* for every field of two elements, message length and way of cutting the message into updates, over whatever program variables: when
   (length + 1) mod 512 is at most 448 the program can be written, and its only run returns the digest; no assertion fails, no division by
   zero, no error *)
Theorem C45_hash : forall F n npub (ds : list (list nat)),
  fmod F = 2%Z -> Forall (fun x => x < n + npub) (concat ds) -> (length (concat ds) + 1) mod 512 <= 448 ->
  exists p : Prog F, hash_prog (n + npub) ds = Some p /\
  forall fns (E : Env F) ins m, length ins = n -> omap (nth_error (ins ++ map (e_pub E) (seq 0 npub))) (concat ds) = Some (map fbool m) ->
  forall outs b, main fns E npub p ins outs b <-> outs = map fbool (digest_bits m) /\ b = true.
Proof.
  intros F n npub ds H2 A L. destruct (finalize_calls H2 _ _ A L) as (ops & data & out & E1 & _).
  assert (Hp : exists p : Prog F, hash_prog (n + npub) ds = Some p).
  { unfold hash_prog, gprog. rewrite new_updates. unfold gbind. rewrite E1. cbn. eauto. }
  destruct Hp as [p Hp]. exists p. split; auto. intros fns E ins m Li Hm. apply omap_nth_iss in Hm.
  eapply ok_main; eauto. apply (ok_hash H2); auto. apply f2_length in Hm. rewrite map_length in Hm. rewrite <- Hm. auto.
Qed.
Print Assumptions C45_hash.
(* every vector over such a field is a vector of bits: the theorem above covers all inputs *)
Theorem C45_all_inputs : forall (F : Fld) (v : list F), fmod F = 2%Z -> exists m, v = map fbool m.
Proof. intros F v H2. induction v as [|x v [m ->]]; [exists []; auto|]. destruct (f_bool H2 x) as [b ->]. exists (b :: m). auto. Qed.
Print Assumptions C45_all_inputs.
(* a circuit that checks the digest accepts exactly the digest *)
Theorem C45_check : forall (F : Fld) n npub (ds : list (list nat)) (e : list nat),
  fmod F = 2%Z -> Forall (fun x => x < n + npub) (concat ds) -> (length (concat ds) + 1) mod 512 <= 448 ->
  exists p : Prog F, check_prog (n + npub) ds e = Some p /\
  forall fns (E : Env F) ins m h, length ins = n -> omap (nth_error (ins ++ map (e_pub E) (seq 0 npub))) (concat ds) = Some (map fbool m) ->
  omap (nth_error (ins ++ map (e_pub E) (seq 0 npub))) e = Some (map fbool h) -> length h = 256 ->
  forall outs b, main fns E npub p ins outs b <-> outs = [] /\ b = if list_eq_dec Bool.bool_dec (digest_bits m) h then true else false.
Proof.
  intros F n npub ds e H2 A L.
  assert (Hp0 : exists p : Prog F, check_prog (n + npub) ds e = Some p).
  { destruct (finalize_calls H2 _ _ A L) as (ops & data & out & E1 & _). unfold check_prog, gprog. rewrite new_updates. unfold gbind. rewrite E1. cbn [snd].
    destruct (asserts_calls (F := F) (combine out e) (n + npub + ops_outs ops)) as [us Eu]. rewrite Eu. cbn. eauto. }
  destruct Hp0 as [p Hp]. exists p. split; [exact Hp|]. intros fns E ins m h Li Hm He Lh outs b. apply omap_nth_iss in Hm, He.
  destruct (check_body H2 _ _ e p A L Hp) as (ops & data & out & E1 & Lo & ->).
  pose proof (f2_length _ _ _ Hm) as Lm. rewrite map_length in Lm.
  destruct (ok_finalize H2 _ (concat ds) m (proj2 (ibs_iss _ _ _) Hm) ltac:(rewrite <- Lm; auto)) as (hv' & [d o] & R & X & _ & Q).
  unfold grun in R. rewrite app_length, map_length, seq_length, Li, E1 in R. cbn [obind fst snd] in R. destruct (exec _ ops) as [h1|] eqn:Ex; cbn [obind] in R; [|discriminate].
  injection R as -> <- <-. cbn [snd] in Q. apply ibs_iss in Q. pose proof (iss_ext _ _ _ _ X He) as He'.
  assert (Le : length out = length e). { apply f2_length in He. rewrite map_length in He. congruence. }
  assert (Eq : (if list_eq_dec (f_dec F) (map fbool (digest_bits m)) (map fbool h) then true else false) = if list_eq_dec Bool.bool_dec (digest_bits m) h then true else false).
  { destruct (list_eq_dec Bool.bool_dec (digest_bits m) h) as [->|N]; destruct (list_eq_dec (f_dec F) _ _) as [E2|N2]; auto; exfalso; first [apply N2; reflexivity|apply map_fbool_inj in E2; contradiction]. }
  unfold main. split.
  - intros H. inversion H as [p0 ins0 hh b0 outs0 Hs Ho]; subst. cbn [p_body p_outs omap] in *. injection Ho as <-. apply stmts_app in Hs. destruct Hs as (h2 & b1 & b2 & S1 & S2 & ->).
    eapply exec_stmts in S1; [|exact Ex]. destruct S1 as [-> ->]. eapply asserts_run in S2; eauto. destruct S2 as [-> ->]. rewrite Eq. auto.
  - intros [-> ->]. econstructor; cbn [p_body p_outs omap]; [|reflexivity]. apply stmts_app. exists hv', true. eexists. split; [eapply exec_stmts; eauto|]. split; [eapply asserts_run; eauto|]. rewrite Eq. reflexivity.
Qed.
Print Assumptions C45_check.
Example C45_check_instance : exists p : Prog F2, check_prog 280 [seq 0 24] (seq 24 256) = Some p /\
  forall fns E h outs b, length h = 256 -> main fns E 0 p (map fbool (bytes_bits [97; 98; 99]%Z ++ h)) outs b <->
    outs = [] /\ b = if list_eq_dec Bool.bool_dec (concat (map (be_bits 32) [0xba7816bf; 0x8f01cfea; 0x414140de; 0x5dae2223; 0xb00361a3; 0x96177a9c; 0xb410ff61; 0xf20015ad]%Z)) h then true else false.
Proof.
  destruct (C45_check F2 280 0 [seq 0 24] (seq 24 256) eq_refl) as [p [Hp R]].
  { rewrite concat_cons, app_nil_r. apply Forall_forall. intros x Hx. apply in_seq in Hx. lia. } { apply Nat.leb_le. reflexivity. }
  exists p. split; [exact Hp|]. intros fns E h outs b Lh. rewrite (R fns E _ (bytes_bits [97; 98; 99]%Z) h); auto.
  - unfold digest_bits. rewrite sha_abc. tauto.
  - rewrite map_length, app_length, Lh. reflexivity.
  - apply omap_nth_iss. cbn [seq map]. rewrite app_nil_r, map_app. pose proof (iss_new (map (fbool (F := F2)) (bytes_bits [97; 98; 99]%Z)) (map fbool h)) as I.
    rewrite !map_length, Lh in I. exact I.
Qed.
(* recorded: the builder does not panic, and the runs of the recorded circuit are the hash *)
Theorem C45_recorded : forall F fsize fns hash low n npub (ds : list (list nat)) (p : Prog F) (E : Env F),
  fmod F = 2%Z -> size_fits F fsize -> no_collision hash low -> captures_nothing fns -> (forall ty n, sup fsize (fns ty 0 n)) -> identity_hint E ->
  Forall (fun x => x < n + npub) (concat ds) -> (length (concat ds) + 1) mod 512 <= 448 -> hash_prog (n + npub) ds = Some p ->
  exists fuel0, forall fuel, fuel0 <= fuel -> exists rc, record fsize fns hash low fuel n npub p = Some rc /\ wf_root _ rc /\
    forall ins m, length ins = n -> omap (nth_error (ins ++ map (e_pub E) (seq 0 npub))) (concat ds) = Some (map fbool m) ->
    forall outs b, root_run _ E rc ins outs b <-> outs = map fbool (digest_bits m) /\ b = true.
Proof.
  intros F fsize fns hash low n npub ds p E H2 Hs Hc Hf Hfs HE A L Hp. destruct (C45_hash F n npub ds H2 A L) as (p' & Hp' & R). rewrite Hp in Hp'. injection Hp' as <-.
  assert (Hx : exists v, omap (nth_error (repeat f0 n ++ map (e_pub E) (seq 0 npub))) (concat ds) = Some v).
  { clear -A. induction A as [|x l Hx A [v IH]]; cbn; [eauto|]. destruct (nth_error _ x) as [y|] eqn:E1; cbn.
    - rewrite IH. cbn. eauto.
    - apply nth_error_None in E1. rewrite app_length, repeat_length, map_length, seq_length in E1. lia. }
  destruct Hx as [v Hv]. destruct (C45_all_inputs F v H2) as [m ->].
  destruct (C33_recording_succeeds F fsize fns hash low n npub p E (repeat f0 n) (map fbool (digest_bits m)) Hs Hc Hf) as [fuel0 Hr]; auto.
  { eapply prog_sup; [|exact Hp]. apply gall_bind. apply gall_finalize. intros a. apply gall_ret. }
  { apply repeat_length. }
  { eapply R; eauto. apply repeat_length. }
  exists fuel0. intros fuel Hfu. destruct (Hr fuel Hfu) as [rc Hrc]. exists rc. split; auto.
  destruct (C33_recorded_circuit F fsize fns hash low fuel n npub p rc Hs Hc Hf Hrc) as (W & _ & _ & Q). split; auto.
  intros ins m' Li Hm outs b. rewrite (Q E HE). rewrite (R fns E ins m' Li Hm). tauto.
Qed.
Print Assumptions C45_recorded.
(* the object is not reset: hashing with it again hashes the padded message *)
Theorem C45_object_after : forall (F : Fld) (hv : list F) self m, fmod F = 2%Z -> iss hv self (map fbool m) -> (length m + 1) mod 512 <= 448 ->
  exists hv' self' out, grun (finalize self) hv = Some (hv', (self', out)) /\ iss hv' self' (map fbool (pad m)) /\ iss hv' out (map fbool (digest_bits m)).
Proof.
  intros F hv self m H2 A L. destruct (ok_finalize H2 hv self m (proj2 (ibs_iss _ _ _) A) L) as (hv' & [s o] & R & _ & Q1 & Q2). exists hv', s, o. split; auto. split; apply ibs_iss; auto.
Qed.
Print Assumptions C45_object_after.
(* for the other lengths the subtraction in finalize underflows and there is no program: no message whose length is 448 to 510 modulo 512 can be hashed,
   for example none of 56 bytes *)
Theorem C45_lengths_refuted : forall F n (ds : list (list nat)), 448 < (length (concat ds) + 1) mod 512 -> hash_prog (F := F) n ds = None.
Proof. intros F n ds L. unfold hash_prog, gprog. rewrite new_updates. unfold gbind. rewrite finalize_panics; auto. Qed.
Print Assumptions C45_lengths_refuted.
Example C45_refuted_instance : hash_prog (F := F2) 448 [seq 0 448] = None /\ exists d, sha256 (bytes_bits msg448) = d /\ length (bytes_bits msg448) = 448.
Proof. split; [apply C45_lengths_refuted; rewrite concat_cons, app_nil_r, seq_length; cbn; lia|]. eexists. split; [reflexivity|]. vm_compute. reflexivity. Qed.

(* the words the hash is made of, for the other functions of gf2_utils.rs: both adders and the sum of any number of words are addition modulo 2^32 *)
Theorem C45_adders : forall (F : Fld) (hv : list F) a b x y, fmod F = 2%Z -> length x = 32 -> length y = 32 -> iss hv a (map fbool x) -> iss hv b (map fbool y) ->
  (exists hv' c, grun (w_add a b) hv = Some (hv', c) /\ iss hv' c (map fbool (be_bits 32 ((be x + be y) mod 2 ^ 32)))) /\
  (exists hv' c, grun (add_vanilla a b) hv = Some (hv', c) /\ iss hv' c (map fbool (be_bits 32 ((be x + be y) mod 2 ^ 32)))).
Proof.
  intros F hv a b x y H2 Lx Ly A B. assert (Wa : W hv a (be x)) by (exists x; split; [apply ibs_iss; auto|auto]). assert (Wb : W hv b (be y)) by (exists y; split; [apply ibs_iss; auto|auto]).
  split; [destruct (ok_w_add H2 hv a b _ _ Wa Wb) as (hv' & c & R & _ & (bs & Q1 & Q2 & Q3))|destruct (ok_add_vanilla H2 hv a b _ _ Wa Wb) as (hv' & c & R & _ & (bs & Q1 & Q2 & Q3))];
    exists hv', c; (split; [exact R|]); apply ibs_iss; unfold w32 in Q3; rewrite <- Q3, <- Q2, be_bits_be; exact Q1.
Qed.
Print Assumptions C45_adders.
Theorem C45_sum_all : forall (F : Fld) (hv : list F) (ws : list word) (xs : list (list bool)), fmod F = 2%Z -> ws <> [] ->
  Forall2 (fun w x => length x = 32 /\ iss hv w (map fbool x)) ws xs ->
  exists hv' c, grun (sum_all ws) hv = Some (hv', c) /\ iss hv' c (map fbool (be_bits 32 (fold_right Z.add 0 (map be xs) mod 2 ^ 32)%Z)).
Proof.
  intros F hv ws xs H2 N A. assert (A' : Ws hv ws (map be xs)). { clear N. induction A as [|w x ws xs [L I] A IH]; cbn; constructor; auto. exists x. split; [apply ibs_iss; auto|auto]. }
  destruct (ok_sum_all H2 hv ws _ A' N) as (hv' & c & R & _ & (bs & Q1 & Q2 & Q3)). exists hv', c. split; auto. apply ibs_iss. unfold w32, zsum in Q3. rewrite <- Q3, <- Q2, be_bits_be. exact Q1.
Qed.
Print Assumptions C45_sum_all.
Example C45_sum_instance : exists hv' c, grun (sum_all (F := F2) [seq 0 32; seq 32 32; seq 0 32]) (map fbool (be_bits 32 0xdeadbeef ++ be_bits 32 77)) = Some (hv', c) /\
  iss hv' c (map fbool (be_bits 32 ((0xdeadbeef + 77 + 0xdeadbeef) mod 2 ^ 32))).
Proof.
  destruct (C45_sum_all F2 (map fbool (be_bits 32 0xdeadbeef ++ be_bits 32 77)) [seq 0 32; seq 32 32; seq 0 32] [be_bits 32 0xdeadbeef; be_bits 32 77; be_bits 32 0xdeadbeef] eq_refl ltac:(discriminate)) as (hv' & c & R & Q).
  { repeat (constructor; [split; [apply be_bits_length|apply omap_nth_iss; vm_compute; reflexivity]|]). constructor. }
  exists hv', c. split; [exact R|]. exact Q.
Qed.

(* the three bytes "abc", given in two updates: the only run of the recorded circuit is the digest printed in FIPS 180 *)
Definition abc : list bool := bytes_bits [97; 98; 99]%Z.
Definition env_id : Env F2 := {| e_pub := fun _ => f0; e_gate := fun _ _ => f0; e_hint := fun _ _ args outs => outs = args; e_rnd := fun _ => True |}.
Definition fns_none (ty cap n : nat) : Prog F2 := {| p_body := []; p_outs := [] |}.
Example C45_instance : exists p : Prog F2, hash_prog 24 [seq 0 10; seq 10 14] = Some p /\
  forall fns E outs b, main fns E 0 p (map fbool abc) outs b <-> outs = map fbool (concat (map (be_bits 32)
     [0xba7816bf; 0x8f01cfea; 0x414140de; 0x5dae2223; 0xb00361a3; 0x96177a9c; 0xb410ff61; 0xf20015ad]))%Z /\ b = true.
Proof.
  destruct (C45_hash F2 24 0 [seq 0 10; seq 10 14] eq_refl) as [p [Hp R]].
  { repeat constructor. } { apply Nat.leb_le. reflexivity. }
  exists p. split; [exact Hp|]. intros fns E outs b. rewrite (R fns E (map fbool abc) abc); [|reflexivity|reflexivity]. unfold digest_bits, abc. rewrite sha_abc. tauto.
Qed.

Example C45_recorded_instance : exists p fuel rc, hash_prog 24 [seq 0 24] = Some p /\ record 1 fns_none hash33 low33 fuel 24 0 p = Some rc /\
  forall outs b, root_run _ env_id rc (map fbool abc) outs b <-> outs = map fbool (concat (map (be_bits 32)
     [0xba7816bf; 0x8f01cfea; 0x414140de; 0x5dae2223; 0xb00361a3; 0x96177a9c; 0xb410ff61; 0xf20015ad]))%Z /\ b = true.
Proof.
  destruct (C45_hash F2 24 0 [seq 0 24] eq_refl) as [p [Hp _]]. { repeat constructor. } { apply Nat.leb_le. reflexivity. }
  destruct (C45_recorded F2 1 fns_none hash33 low33 24 0 [seq 0 24] p env_id eq_refl) as [fuel R]; auto.
  { split; discriminate. } { exact no_collision33. } { intros ty cap n. reflexivity. } { intros ty n. constructor. }
  { intros x outs. unfold hint_sem. cbn. split; [intros [_ H]; exact H|intros ->; auto]. } { repeat constructor. } { apply Nat.leb_le. reflexivity. }
  exists p, fuel. destruct (R fuel (le_n _)) as (rc & Hrc & _ & Q). exists rc. split; [exact Hp|]. split; [exact Hrc|].
  intros outs b. rewrite (Q (map fbool abc) abc); [|reflexivity|reflexivity]. unfold digest_bits, abc. rewrite sha_abc. tauto.
Qed.
