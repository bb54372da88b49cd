(* C47, range proofs: LogUpRangeProofTable.  The specification of API programs is ApiSpec.v. *)
From Verif Require Import Prelude Field Zp Expr Hints Ir IrInst ApiSpec.
From Verif Require Import Frontend FrontFacts FrontSim FrontProg PropIr PropFront.
From Verif Require Import ApiFacts Gadget GadgetRec ShaSpec ShaGf2 ShaGf2Facts LogUp LogUpFacts LogUpPoly PropLogUp LogUpRange.
From Coq Require Import NArith.
Open Scope nat_scope.

(* the circuit: initial, rangeproof of the handles and numbers of bits in l, final_check; id1, id2 are "myhint.rangeproofhint" and "myhint.querycounthint" *)
Definition range_circuit {F : Fld} n id1 id2 bits (l : list (nat * nat)) : option (Prog F) :=
  gprog n (_ <-- (table <-- rp_initial bits;; qs <-- gmap (fun p => rangeproof id1 bits (fst p) (snd p)) l;; rp_final_check id2 table (concat qs));; gret []).
(* Specification.  n rounded up to a multiple of bits *)
Definition rounded (bits n : nat) : nat := bits * ((n + bits - 1) / bits).
(* what the proof shows of a value v and a number of bits n *)
Definition shifted_in_range {F : Fld} (bits : nat) (p : F * nat) : Prop :=
  (toZ (fadd (fst p) (ofZ (2 ^ Z.of_nat (rounded bits (snd p)) - 2 ^ Z.of_nat (snd p)))) < 2 ^ Z.of_nat (rounded bits (snd p)))%Z.
(* what its name promises *)
Definition in_range {F : Fld} (p : F * nat) : Prop := (toZ (fst p) < 2 ^ Z.of_nat (snd p))%Z.
(* the functions registered under the hints' names answer them *)
Definition honest {F : Fld} (E : Env F) (id1 id2 : N) : Prop := forall n args outs,
  (hint_sem F E id1 n args outs -> rangeproof_hint n args = Some outs) /\ (hint_sem F E id2 n args outs -> query_count_hint n args = Some outs).

Lemma up_rounded bits n : 0 < bits -> up bits n = rounded bits n.
Proof.
  intros H. unfold up, rounded. pose proof (Nat.div_mod n bits ltac:(lia)) as D. pose proof (Nat.mod_upper_bound n bits ltac:(lia)) as U. destruct (Nat.eqb_spec (n mod bits) 0) as [Z|Z].
  - replace ((n + bits - 1) / bits) with (n / bits); [nia|]. apply Nat.div_unique with (r := bits - 1); nia.
  - replace ((n + bits - 1) / bits) with (n / bits + 1); [nia|]. apply Nat.div_unique with (r := n mod bits - 1); nia.
Qed.
Section Facts.
  Context {F : Fld}.
  Local Open Scope fld_scope.
  Add Field FfPR : (fth F).
  Lemma moved_spec bits v n : (0 < bits)%nat -> moved bits v n = fadd v (ofZ (2 ^ Z.of_nat (up bits n) - 2 ^ Z.of_nat n)) :> F.
  Proof.
    intros H. unfold moved, up. destruct (Nat.eqb_spec (n mod bits) 0) as [Z|Z].
    - rewrite Z.sub_diag, ofZ_0. ring.
    - rewrite <- ofZ_mul. f_equal. f_equal. rewrite Nat2Z.inj_add, Z.pow_add_r by lia. ring.
  Qed.
  Lemma shifted_moved bits (p : F * nat) : (0 < bits)%nat -> (shifted_in_range bits p <-> (toZ (moved bits (fst p) (snd p)) < 2 ^ Z.of_nat (up bits (snd p)))%Z).
  Proof. intros H. unfold shifted_in_range. rewrite moved_spec, up_rounded by auto. tauto. Qed.
  Lemma toZ_ofZ_le a : (0 <= a)%Z -> (toZ (ofZ a : F) <= a)%Z.
  Proof. intros H. rewrite toZ_ofZ. apply Z.mod_le; auto. pose proof (toZ_range F (ofZ a)). lia. Qed.
  Lemma in_table bits (q : F) : In q (range_table bits) <-> (toZ q < 2 ^ Z.of_nat bits)%Z.
  Proof.
    unfold range_table. rewrite in_map_iff. assert (P2 : (2 ^ Z.of_nat bits = Z.of_nat (2 ^ bits))%Z) by (rewrite Nat2Z.inj_pow; reflexivity). rewrite P2. split.
    - intros (i & <- & I). apply in_seq in I. pose proof (toZ_ofZ_le (Z.of_nat i)). lia.
    - intros L. exists (Z.to_nat (toZ q)). pose proof (toZ_range F q). split; [rewrite Z2Nat.id by lia; apply ofZ_toZ|]. apply in_seq. lia.
  Qed.
  (* digits *)
  Definition wt (bits s : nat) (ws : list F) : F := fsum F (map (fun p => snd p * ofZ (2 ^ Z.of_nat (bits * fst p))) (combine (seq s (length ws)) ws)).
  Lemma wt_bound bits ws : Forall (fun w => (toZ w < 2 ^ Z.of_nat bits)%Z) ws -> forall s, exists d, (0 <= d < 2 ^ Z.of_nat (bits * length ws))%Z /\ wt bits s ws = ofZ (d * 2 ^ Z.of_nat (bits * s)).
  Proof.
    intros H. induction H as [|w ws Hw H IH]; intros s.
    - exists 0%Z. cbn [length]. rewrite Nat.mul_0_r. split; [cbn; lia|]. cbn. rewrite ofZ_0. reflexivity.
    - destruct (IH (S s)) as (d & [D1 D2] & Q). exists (toZ w + d * 2 ^ Z.of_nat bits)%Z. pose proof (toZ_range F w) as [R _]. cbn [length]. rewrite Nat.mul_succ_r, Nat2Z.inj_add, Z.pow_add_r by lia. split.
      + split; [nia|]. nia.
      + change (wt bits s (w :: ws)) with (w * ofZ (2 ^ Z.of_nat (bits * s)) + wt bits (S s) ws). rewrite Q, Nat.mul_succ_r, Nat2Z.inj_add, Z.pow_add_r by lia.
        rewrite <- (ofZ_toZ F w) at 1. rewrite <- ofZ_mul, <- ofZ_add. f_equal. ring.
  Qed.
  Lemma wt_digits bits a : (0 <= a)%Z -> forall m s, wt bits s (map (fun i => ofZ ((a / 2 ^ (Z.of_nat bits * Z.of_nat i)) mod 2 ^ Z.of_nat bits)) (seq s m)) =
    ofZ ((a / 2 ^ Z.of_nat (bits * s)) mod 2 ^ Z.of_nat (bits * m) * 2 ^ Z.of_nat (bits * s)).
  Proof.
    intros A m. induction m as [|m IH]; intros s.
    - cbn [seq map]. rewrite Nat.mul_0_r. cbn [Z.of_nat]. change (2 ^ 0)%Z with 1%Z. rewrite Z.mod_1_r. cbn. rewrite ofZ_0. reflexivity.
    - cbn [seq map]. set (w := ofZ _). set (ws := map _ (seq (S s) m)). change (wt bits s (w :: ws)) with (w * ofZ (2 ^ Z.of_nat (bits * s)) + wt bits (S s) ws). unfold ws. rewrite IH. unfold w.
      rewrite <- ofZ_mul, <- ofZ_add. f_equal. rewrite <- Nat2Z.inj_mul. set (x := (a / 2 ^ Z.of_nat (bits * s))%Z).
      assert (E1 : (a / 2 ^ Z.of_nat (bits * S s) = x / 2 ^ Z.of_nat bits)%Z) by (unfold x; rewrite Nat.mul_succ_r, Nat2Z.inj_add, Z.pow_add_r, Z.div_div by lia; reflexivity).
      rewrite E1, !Nat.mul_succ_r, !Nat2Z.inj_add, !Z.pow_add_r by lia. rewrite (Z.mul_comm (2 ^ Z.of_nat (bits * m)) (2 ^ Z.of_nat bits)), Z.rem_mul_r by lia. ring.
  Qed.
End Facts.

(* what the runs are *)
Theorem C47_range_runs : forall F fns (E : Env F) n npub id1 id2 bits l p ins vs,
  let all := ins ++ map (e_pub E) (seq 0 npub) in
  length ins = n -> 0 < bits -> Forall (fun q => snd q < 128) l -> Forall2 (fun q v => nth_error all (fst q) = Some (fst v) /\ snd q = snd v) l vs ->
  range_circuit (n + npub) id1 id2 bits l = Some p ->
  forall outs b, main fns E npub p ins outs b <-> outs = [] /\ exists wss alpha cs, Forall2 (rp_pre E id1 bits) vs wss /\ e_rnd E alpha /\
    hint_sem F E id2 (2 ^ bits) (all_queries bits vs wss) cs /\ b = all_holds bits vs wss && balanced alpha (combine cs (range_table bits)) (all_queries bits vs wss).
Proof.
  intros F fns E n npub id1 id2 bits l p ins vs all Li Hb L H Hp.
  assert (C : cr fns E all (table <-- rp_initial bits;; qs <-- gmap (fun p => rangeproof id1 bits (fst p) (snd p)) l;; rp_final_check id2 table (concat qs))
    (list (list F) * (F * (list F * unit))) (fun x => all_pre E id1 bits vs (fst x) /\ (e_rnd E (fst (snd x)) /\ (hint_sem F E id2 (2 ^ bits) (all_queries bits vs (fst x)) (fst (snd (snd x))) /\ True)))
    (fun x _ _ b => b = all_holds bits vs (fst x) && balanced (fst (snd x)) (combine (fst (snd (snd x))) (range_table bits)) (all_queries bits vs (fst x)))).
  { eapply cr_ok; [apply ok_table|]. cbv beta. intros h1 table X1 T.
    eapply cr_imp; [eapply (cr_bindb fns E h1 _ _ (list (list F)) (F * (list F * unit)) (all_pre E id1 bits vs) (all_holds bits vs)
      (fun wss y => e_rnd E (fst y) /\ (hint_sem F E id2 (2 ^ bits) (all_queries bits vs wss) (fst (snd y)) /\ True)) (fun wss h qs => iss h (concat qs) (all_queries bits vs wss))
      (fun wss y _ _ b => b = balanced (fst y) (combine (fst (snd y)) (range_table bits)) (all_queries bits vs wss)))|].
    - apply cr_rangeproofs; auto. clear -H X1. induction H as [|q v l vs [H1 H2] H IH]; constructor; auto. split; auto. eapply is_ext; eauto.
    - intros wss h2 qs Hw X2 Q. assert (LT : length (range_table (F := F) bits) = 2 ^ bits) by (unfold range_table; rewrite map_length, seq_length; auto). rewrite <- LT.
      apply cr_rp_final; [eapply iss_ext; eauto|exact Q].
    - cbv beta. intros x h a b X (b2 & -> & ->). reflexivity. }
  intros outs b. unfold range_circuit in Hp. rewrite (cr_main fns E npub _ _ _ _ _ ins p Li Hp C). split; intros [-> Q]; split; auto.
  - destruct Q as ((wss & alpha & cs & []) & (Q1 & Q2 & Q3 & _) & ->). cbn [fst snd] in *. exists wss, alpha, cs. auto.
  - destruct Q as (wss & alpha & cs & Q1 & Q2 & Q3 & ->). exists (wss, (alpha, (cs, tt))). cbn [fst snd]. auto.
Qed.
Print Assumptions C47_range_runs.
(* how many table lookups a range proof makes *)
Definition lookups (bits n : nat) : nat := (n + bits - 1) / bits.
Lemma pre_length {F : Fld} (E : Env F) id bits v ws : 0 < bits -> 0 < snd v -> rp_pre E id bits v ws -> length (rp_queries bits v ws) = lookups bits (snd v).
Proof.
  intros Hb Hn P. unfold rp_pre, rp_queries, lookups in *. destruct (Nat.leb_spec (snd v) bits) as [L|L].
  - cbn. apply Nat.div_unique with (r := snd v - 1); lia.
  - destruct P as [P _]. rewrite P, up_rounded by auto. unfold rounded. rewrite Nat.mul_comm, Nat.div_mul by lia. reflexivity.
Qed.
Lemma all_length {F : Fld} (E : Env F) id bits vs wss : 0 < bits -> Forall (fun v => 0 < snd v) vs -> Forall2 (rp_pre E id bits) vs wss -> length (all_queries bits vs wss) = list_sum (map (fun v => lookups bits (snd v)) vs).
Proof.
  intros Hb N H. induction H as [|v ws vs wss P H IH]; inversion N; subst; [reflexivity|]. unfold all_queries in *. cbn [combine map concat list_sum fst snd]. rewrite app_length, IH, (pre_length E id) by auto. reflexivity.
Qed.
Lemma one_sound {F : Fld} (E : Env F) id bits v ws : 0 < bits -> 0 < snd v -> rp_pre E id bits v ws -> rp_holds bits v ws = true -> Forall (fun q => (toZ q < 2 ^ Z.of_nat bits)%Z) (rp_queries bits v ws) -> shifted_in_range bits v.
Proof.
  intros Hb Hn P Hh Q. apply shifted_moved; auto. unfold rp_pre, rp_queries, rp_holds in *. destruct (Nat.leb_spec (snd v) bits) as [L|L].
  - inversion Q; subst. assert (U : up bits (snd v) = bits).
    { unfold up. destruct (Nat.eq_dec (snd v) bits) as [->|N]; [rewrite Nat.mod_same by lia; reflexivity|]. rewrite Nat.mod_small by lia. destruct (Nat.eqb_spec (snd v) 0); lia. }
    rewrite U. assumption.
  - destruct P as [P _]. apply feqb_spec in Hh. rewrite <- Hh. destruct (wt_bound bits ws Q 0) as (d & D & W). change (weighted bits ws) with (wt bits 0 ws). rewrite W, Nat.mul_0_r. change (2 ^ Z.of_nat 0)%Z with 1%Z. rewrite Z.mul_1_r.
    pose proof (toZ_ofZ_le (F := F) d ltac:(lia)). rewrite P in D. pose proof (up_div bits (snd v) Hb) as M. pose proof (Nat.div_mod (up bits (snd v)) bits ltac:(lia)) as DM. rewrite M, Nat.add_0_r in DM. rewrite <- DM in D. lia.
Qed.
(* accepted with every randomness: every value passes, whatever the hints answer *)
Theorem C47_range_sound : forall F fns (E : Env F) n npub id1 id2 bits l p ins vs,
  let all := ins ++ map (e_pub E) (seq 0 npub) in
  length ins = n -> 0 < bits -> Forall (fun q => 0 < snd q < 128) l -> Forall2 (fun q v => nth_error all (fst q) = Some (fst v) /\ snd q = snd v) l vs ->
  range_circuit (n + npub) id1 id2 bits l = Some p ->
  (2 ^ Z.of_nat bits + Z.of_nat (list_sum (map (fun q => lookups bits (snd q)) l)) < fmod F)%Z ->
  (forall r, e_rnd E r) -> (exists outs b, main fns E npub p ins outs b) -> (forall outs b, main fns E npub p ins outs b -> b = true) ->
  Forall (shifted_in_range bits) vs.
Proof.
  intros F fns E n npub id1 id2 bits l p ins vs all Li Hb L H Hp Lp HE [o [b0 H0]] HA.
  assert (L' : Forall (fun q => snd q < 128) l) by (eapply Forall_impl; [|exact L]; cbv beta; intros; lia).
  pose proof (C47_range_runs F fns E n npub id1 id2 bits l p ins vs Li Hb L' H Hp) as R.
  apply R in H0. destruct H0 as (_ & wss & alpha & cs & Pw & _ & Pc & _).
  assert (SA : forall a, all_holds bits vs wss && balanced a (combine cs (range_table bits)) (all_queries bits vs wss) = true).
  { intros a. apply (HA [] _). apply R. split; auto. exists wss, a, cs. auto. }
  clear R HA. assert (N : Forall (fun v : F * nat => 0 < snd v) vs).
  { clear -L H. induction H as [|q v l vs [_ Q] H IH]; inversion L; subst; constructor; auto. lia. }
  assert (Ll : map (fun q : nat * nat => lookups bits (snd q)) l = map (fun v : F * nat => lookups bits (snd v)) vs).
  { clear -H. induction H as [|q v l vs [_ Q] H IH]; cbn; auto. rewrite Q, IH. reflexivity. }
  assert (LT : length (range_table (F := F) bits) = 2 ^ bits) by (unfold range_table; rewrite map_length, seq_length; auto).
  pose proof (all_length E id1 bits vs wss Hb N Pw) as LQ.
  assert (LZ : (Z.of_nat (2 ^ bits + length (all_queries bits vs wss)) < fmod F)%Z). { rewrite Nat2Z.inj_add, Nat2Z.inj_pow, LQ, <- Ll. exact Lp. }
  assert (Q : Forall (fun q => (toZ q < 2 ^ Z.of_nat bits)%Z) (all_queries bits vs wss)).
  { apply Forall_forall. intros q Hq. apply in_table. destruct (in_dec (f_dec F) q (range_table bits)) as [I|NI]; auto. exfalso.
    destruct Pc as [Lc _]. assert (Snd : map snd (combine cs (range_table (F := F) bits)) = range_table bits).
    { rewrite <- LT in Lc. revert Lc. generalize (range_table (F := F) bits). clear. induction cs as [|c cs IH]; intros [|t ts] L; try discriminate; cbn; auto. rewrite IH; auto. }
    set (alphas := map (fun i => ofZ (Z.of_nat i)) (seq 0 (S (2 ^ bits + length (all_queries bits vs wss)))) : list F).
    assert (La : length alphas <= length (combine cs (range_table (F := F) bits)) + length (all_queries bits vs wss)).
    { apply (few_accepted _ _ q); auto.
      - rewrite Snd. exact NI.
      - lia.
      - apply nodup_map; [|apply seq_NoDup]. intros i j Hi Hj X. apply in_seq in Hi, Hj. apply ofZ_inj_small in X; lia.
      - intros a _. specialize (SA a). apply andb_true_iff in SA. apply SA. }
    unfold alphas in La. rewrite combine_length, LT, Lc, map_length, seq_length in La. lia. }
  specialize (SA f0). apply andb_true_iff in SA. destruct SA as [SA _]. clear -Hb Pw N Q SA. induction Pw as [|v ws vs wss P Pw IH]; inversion N; subst; constructor;
    unfold all_queries, all_holds in *; cbn [combine map concat forallb fst snd] in *; apply andb_true_iff in SA; destruct SA as [SA1 SA2]; apply Forall_app in Q; destruct Q as [Q1 Q2].
  - eapply one_sound; eassumption.
  - apply IH; assumption.
Qed.
Print Assumptions C47_range_sound.
(* that is the range promised when bits divides n.. *)
Theorem C47_range_multiple : forall (F : Fld) bits (v : F) n, 0 < bits -> n mod bits = 0 -> (shifted_in_range bits (v, n) <-> in_range (v, n)).
Proof.
  intros F bits v n Hb M. rewrite shifted_moved by auto. unfold in_range, moved, up. cbn [fst snd]. rewrite M. reflexivity.
Qed.
Print Assumptions C47_range_multiple.
(* .. and otherwise also allows the 2^rounded - 2^n values just below 0 *)
Theorem C47_range_meaning : forall (F : Fld) bits (v : F) n, 0 < bits -> (2 ^ Z.of_nat (rounded bits n) <= fmod F)%Z ->
  (shifted_in_range bits (v, n) <-> in_range (v, n) \/ (fmod F - (2 ^ Z.of_nat (rounded bits n) - 2 ^ Z.of_nat n) <= toZ v)%Z).
Proof.
  intros F bits v n Hb L. unfold shifted_in_range, in_range. cbn [fst snd]. pose proof (up_ge bits n) as G. rewrite up_rounded in G by auto.
  assert (P : (2 ^ Z.of_nat n <= 2 ^ Z.of_nat (rounded bits n))%Z) by (apply Z.pow_le_mono_r; lia). assert (P1 : (0 < 2 ^ Z.of_nat n)%Z) by (apply Z.pow_pos_nonneg; lia).
  pose proof (toZ_range F v) as [R1 R2]. set (A := (2 ^ Z.of_nat (rounded bits n))%Z) in *. set (B := (2 ^ Z.of_nat n)%Z) in *.
  rewrite <- (ofZ_toZ F v) at 1. rewrite <- ofZ_add, toZ_ofZ. destruct (Z.lt_ge_cases (toZ v + (A - B)) (fmod F)) as [C|C].
  - rewrite Z.mod_small by lia. lia.
  - replace (toZ v + (A - B))%Z with ((toZ v + (A - B) - fmod F) + 1 * fmod F)%Z by ring. rewrite Z_mod_plus_full, Z.mod_small by lia. lia.
Qed.
Print Assumptions C47_range_meaning.
(* initial, rangeproof and final_check do not panic *)
Theorem C47_range_no_panic : forall (F : Fld) n id1 id2 bits l, 0 < bits -> Forall (fun q => fst q < n /\ snd q < 128) l -> exists p, range_circuit (F := F) n id1 id2 bits l = Some p.
Proof.
  intros F n id1 id2 bits l Hb L. unfold range_circuit.
  set (vs := map (fun q => (f0 : F, snd q)) l). set (wss := map (fun v : F * nat => if snd v <=? bits then [] else repeat (f0 : F) (up bits (snd v) / bits)) vs).
  assert (L2 : Forall (fun q : nat * nat => snd q < 128) l) by (eapply Forall_impl; [|exact L]; cbv beta; tauto).
  assert (H : Forall2 (RV (repeat (f0 : F) n)) l vs).
  { unfold vs. clear -L. induction L as [|q l [L1 L2] L IH]; cbn [map]; constructor; auto. split; auto. cbn [fst]. unfold is. destruct (nth_error (repeat f0 n) (fst q)) as [v|] eqn:E.
    - apply nth_error_In, repeat_spec in E. subst. reflexivity.
    - apply nth_error_None in E. rewrite repeat_length in E. lia. }
  assert (C : cr (fun _ _ _ => {| p_body := []; p_outs := [] |}) any_env (repeat (f0 : F) n) (table <-- rp_initial bits;; qs <-- gmap (fun p => rangeproof id1 bits (fst p) (snd p)) l;; rp_final_check id2 table (concat qs))
    (list (list F) * (F * (list F * unit))) (fun x => all_pre any_env id1 bits vs (fst x) /\ (e_rnd any_env (fst (snd x)) /\ (hint_sem F any_env id2 (length (range_table (F := F) bits)) (all_queries bits vs (fst x)) (fst (snd (snd x))) /\ True)))
    (fun _ _ _ _ => True)).
  { eapply cr_ok; [apply ok_table|]. cbv beta. intros h1 table X1 T.
    eapply cr_imp; [eapply (cr_bindb _ any_env h1 _ _ (list (list F)) (F * (list F * unit)) (all_pre any_env id1 bits vs) (all_holds bits vs)
      (fun wss y => e_rnd any_env (fst y) /\ (hint_sem F any_env id2 (length (range_table (F := F) bits)) (all_queries bits vs wss) (fst (snd y)) /\ True)) (fun wss h qs => iss h (concat qs) (all_queries bits vs wss))
      (fun wss y _ _ b => b = balanced (fst y) (combine (fst (snd y)) (range_table bits)) (all_queries bits vs wss)))|auto].
    - apply cr_rangeproofs; auto. clear -H X1. induction H as [|q v l vs [H1 H2] H IH]; constructor; auto. split; auto. eapply is_ext; eauto.
    - intros w h2 qs Hw X2 Q. apply cr_rp_final; [eapply iss_ext; eauto|exact Q]. }
  eapply (gprog_of_runs _ _ n _ _ _ _ _ (wss, (f0, (repeat f0 (length (range_table (F := F) bits)), tt))) C); [|apply repeat_length].
  cbn [fst snd]. split; [|split; [exact I|split; [|exact I]; split; [apply repeat_length|exact I]]].
  unfold all_pre, wss. clear. induction vs as [|v vs IH]; cbn [map]; constructor; auto. unfold rp_pre. destruct (snd v <=? bits); auto. split; [apply repeat_length|exact I].
Qed.
Print Assumptions C47_range_no_panic.
Lemma one_complete {F : Fld} (E : Env F) id1 id2 bits v ws : honest E id1 id2 -> 0 < bits <= 32 -> 0 < snd v < 128 -> (256 < fmod F)%Z -> rp_pre E id1 bits v ws -> shifted_in_range bits v ->
  rp_holds bits v ws = true /\ Forall (fun q => (toZ q < 2 ^ Z.of_nat bits)%Z) (rp_queries bits v ws).
Proof.
  intros HE Hb Hn Lp P SR. apply shifted_moved in SR; [|lia]. unfold rp_pre, rp_queries, rp_holds in *. destruct (Nat.leb_spec (snd v) bits) as [L|L].
  - split; auto. constructor; auto. assert (U : up bits (snd v) = bits).
    { unfold up. destruct (Nat.eq_dec (snd v) bits) as [->|N]; [rewrite Nat.mod_same by lia; reflexivity|]. rewrite Nat.mod_small by lia. destruct (Nat.eqb_spec (snd v) 0); lia. }
    rewrite U in SR. exact SR.
  - apply HE in P. unfold rangeproof_hint in P. set (a := moved bits (fst v) (snd v)) in *. set (u := up bits (snd v)) in *.
    assert (Lu : u < 256). { unfold u, up. pose proof (Nat.mod_upper_bound (snd v) bits ltac:(lia)). destruct (_ =? 0); lia. }
    rewrite !toZ_ofZ_small in P by lia. pose proof (up_div bits (snd v) ltac:(lia)) as M. fold u in M. pose proof (Nat.div_mod u bits ltac:(lia)) as DM. rewrite M, Nat.add_0_r in DM. set (m := u / bits) in *.
    assert (DZ : (Z.of_nat u / Z.of_nat bits = Z.of_nat m)%Z) by (unfold m; rewrite Nat2Z.inj_div by lia; reflexivity). rewrite DZ in P.
    destruct ((Z.of_nat bits =? 0)%Z || (Z.of_nat m <? Z.of_nat m)%Z); [discriminate|]. injection P as <-.
    assert (Em : map (fun i => if (Z.of_nat i <? Z.of_nat m)%Z then ofZ ((toZ a / 2 ^ (Z.of_nat bits * Z.of_nat i)) mod 2 ^ Z.of_nat bits) else f0) (seq 0 m) =
      map (fun i => ofZ ((toZ a / 2 ^ (Z.of_nat bits * Z.of_nat i)) mod 2 ^ Z.of_nat bits)) (seq 0 m) :> list F).
    { apply map_ext_in. intros i Hi. apply in_seq in Hi. destruct (Z.ltb_spec (Z.of_nat i) (Z.of_nat m)); [reflexivity|lia]. }
    rewrite Em. pose proof (toZ_range F a) as [Ra _]. split.
    + apply feqb_spec. match goal with |- weighted bits ?w = _ => change (weighted bits w) with (wt bits 0 w) end. rewrite wt_digits by auto. rewrite Nat.mul_0_r. change (2 ^ Z.of_nat 0)%Z with 1%Z.
      rewrite Z.div_1_r, Z.mul_1_r, <- DM, Z.mod_small by lia. apply ofZ_toZ.
    + apply Forall_forall. intros q Hq. apply in_map_iff in Hq. destruct Hq as (i & <- & _). pose proof (Z.mod_pos_bound (toZ a / 2 ^ (Z.of_nat bits * Z.of_nat i)) (2 ^ Z.of_nat bits) ltac:(apply Z.pow_pos_nonneg; lia)) as [B1 B2].
      pose proof (toZ_ofZ_le (F := F) _ B1). lia.
Qed.
(* with the registered hints, values that pass are accepted, whatever the randomness *)
Theorem C47_range_complete : forall F fns (E : Env F) n npub id1 id2 bits l p ins vs,
  let all := ins ++ map (e_pub E) (seq 0 npub) in
  length ins = n -> 0 < bits <= 32 -> Forall (fun q => 0 < snd q < 128) l -> Forall2 (fun q v => nth_error all (fst q) = Some (fst v) /\ snd q = snd v) l vs ->
  range_circuit (n + npub) id1 id2 bits l = Some p -> (256 < fmod F)%Z -> honest E id1 id2 -> Forall (shifted_in_range bits) vs ->
  forall outs b, main fns E npub p ins outs b -> outs = [] /\ b = true.
Proof.
  intros F fns E n npub id1 id2 bits l p ins vs all Li Hb L H Hp Lp HE SR outs b R.
  assert (L' : Forall (fun q => snd q < 128) l) by (eapply Forall_impl; [|exact L]; cbv beta; intros; lia).
  apply (C47_range_runs F fns E n npub id1 id2 bits l p ins vs Li (proj1 Hb) L' H Hp) in R. destruct R as (-> & wss & alpha & cs & Pw & _ & Pc & ->). split; auto.
  assert (N : Forall (fun v : F * nat => 0 < snd v < 128) vs).
  { clear -L H. induction H as [|q v l vs [_ Q] H IH]; inversion L; subst; constructor; auto. rewrite <- Q. auto. }
  assert (A : all_holds bits vs wss = true /\ Forall (fun q => (toZ q < 2 ^ Z.of_nat bits)%Z) (all_queries bits vs wss)).
  { clear -Pw N HE Hb Lp SR. induction Pw as [|v ws vs wss P Pw IH]; [split; [reflexivity|constructor]|]. inversion N; inversion SR; subst. destruct IH as [I1 I2]; auto.
    destruct (one_complete E id1 id2 bits v ws) as [J1 J2]; auto. unfold all_queries, all_holds in *. cbn [combine map concat forallb fst snd]. rewrite J1, I1. split; auto. apply Forall_app. auto. }
  destruct A as [A1 A2]. rewrite A1. cbn [andb]. apply HE in Pc. unfold query_count_hint in Pc. destruct (forallb _ _); [|discriminate]. injection Pc as <-.
  set (qs := all_queries bits vs wss) in *. set (at_ := map (fun q : F => Z.to_nat (toZ q)) qs).
  assert (LT : length (range_table (F := F) bits) = 2 ^ bits) by (unfold range_table; rewrite map_length, seq_length; auto).
  assert (Ec : map (fun i => ofZ (Z.of_nat (count_occ Z.eq_dec (map toZ qs) (Z.of_nat i)))) (seq 0 (2 ^ bits)) = counts (F := F) (length (range_table (F := F) bits)) at_).
  { rewrite LT. unfold counts. apply map_ext. intros i. f_equal. f_equal. unfold at_. clear. induction qs as [|q qs IH]; cbn [map count_occ]; auto. rewrite IH. pose proof (toZ_range F q) as [R _].
    destruct (Z.eq_dec (toZ q) (Z.of_nat i)), (Nat.eq_dec (Z.to_nat (toZ q)) i); lia. }
  rewrite Ec. apply counts_balanced. unfold at_. clear -A2. induction A2 as [|q qs Hq A2 IH]; cbn [map]; constructor; auto.
  pose proof (toZ_range F q) as [R _]. unfold range_table. rewrite nth_error_map. assert (P2 : (2 ^ Z.of_nat bits = Z.of_nat (2 ^ bits))%Z) by (rewrite Nat2Z.inj_pow; reflexivity).
  assert (Ns : nth_error (seq 0 (2 ^ bits)) (Z.to_nat (toZ q)) = Some (Z.to_nat (toZ q))).
  { rewrite (nth_error_nth' _ 0) by (rewrite seq_length; lia). rewrite seq_nth by lia. reflexivity. }
  rewrite Ns. cbn [option_map]. rewrite Z2Nat.id by lia. rewrite ofZ_toZ. reflexivity.
Qed.
Print Assumptions C47_range_complete.
(* so a range proof of 12 bits by a table of 8 bits accepts -1 *)
Theorem C47_range_refuted : exists p : Prog M31, range_circuit 1 7 8 8 [(0, 12)] = Some p /\ ~ in_range (ofZ (-1) : M31, 12) /\
  (forall fns E outs b, honest E 7 8 -> main fns E 0 p [ofZ (-1)] outs b -> outs = [] /\ b = true) /\
  exists fns E outs b, honest E 7 8 /\ (forall r, e_rnd E r) /\ main fns E 0 p [ofZ (-1)] outs b.
Proof.
  destruct (C47_range_no_panic M31 1 7 8 8 [(0, 12)] ltac:(lia)) as [p Hp]; [repeat constructor; cbn; lia|]. exists p. split; [exact Hp|].
  assert (SR : Forall (shifted_in_range 8) [(ofZ (-1) : M31, 12)]) by (repeat constructor; vm_compute; reflexivity).
  split; [vm_compute; intros Q; discriminate|]. split.
  - intros fns E outs b HE. apply (C47_range_complete M31 fns E 1 0 7 8 8 [(0, 12)] p [ofZ (-1)] [(ofZ (-1), 12)]); auto; try lia; try (repeat constructor; cbn; lia).
  - set (E := {| e_pub := fun _ => f0; e_gate := fun _ _ => f0; e_hint := fun id n args outs => (id = 7%N /\ rangeproof_hint n args = Some outs) \/ (id = 8%N /\ query_count_hint n args = Some outs); e_rnd := fun _ => True |} : Env M31).
    set (fns := fun _ _ _ : nat => {| p_body := []; p_outs := [] |} : Prog M31). exists fns, E.
    assert (R := C47_range_runs M31 fns E 1 0 7 8 8 [(0, 12)] p [ofZ (-1)] [(ofZ (-1), 12)] eq_refl ltac:(lia) ltac:(repeat constructor; cbn; lia) ltac:(repeat constructor) Hp).
    assert (HE : honest E 7 8) by (intros m args outs; split; intros [_ [[Q1 Q2]|[Q1 Q2]]]; auto; discriminate).
    assert (SO : forall o : option (list M31), (match o with None => true | _ => false end) = false -> o = Some (match o with Some w => w | None => [] end)) by (intros [w|] Q; [reflexivity|discriminate]).
    set (args := [ofZ (Z.of_nat (up 8 12)); ofZ (Z.of_nat 8); moved 8 (ofZ (-1)) 12] : list M31).
    set (ws := match rangeproof_hint 2 args with Some w => w | None => [] end). set (cs := match query_count_hint (2 ^ 8) ws with Some cs => cs | None => [] end).
    exists [], (all_holds 8 [(ofZ (-1) : M31, 12)] [ws] && balanced (f0 : M31) (combine cs (range_table 8)) (all_queries 8 [(ofZ (-1), 12)] [ws])). split; [exact HE|]. split; [exact (fun _ => I)|]. apply R. split; auto.
    exists [ws], f0, cs. assert (W : rangeproof_hint 2 args = Some ws) by (apply SO; vm_compute; reflexivity). assert (Aq : all_queries 8 [(ofZ (-1) : M31, 12)] [ws] = ws) by (unfold all_queries; cbn [combine map fst snd concat]; unfold rp_queries; cbn [snd Nat.leb]; apply app_nil_r).
    split; [|split; [exact I|split; [|reflexivity]]].
    + constructor; [|constructor]. unfold rp_pre. cbn [snd]. change (12 <=? 8) with false. cbv iota. split; [vm_compute; reflexivity|]. left. split; [reflexivity|exact W].
    + rewrite Aq. split; [vm_compute; reflexivity|]. right. split; [reflexivity|]. apply SO. vm_compute. reflexivity.
Qed.
Print Assumptions C47_range_refuted.
(* the hypotheses are met: 16 bits by a table of 8 bits, of 1000 and of 70000 *)
Example C47_range_instance : exists p : Prog M31, range_circuit (1 + 0) 7 8 8 [(0, 16)] = Some p /\
  (forall fns E outs b, honest E 7 8 -> main fns E 0 p [ofZ 1000] outs b -> outs = [] /\ b = true) /\
  (forall fns E, (forall r, e_rnd E r) -> (exists outs b, main fns E 0 p [ofZ 70000] outs b) -> ~ forall outs b, main fns E 0 p [ofZ 70000] outs b -> b = true).
Proof.
  destruct (C47_range_no_panic M31 1 7 8 8 [(0, 16)] ltac:(lia)) as [p Hp]; [repeat constructor; cbn; lia|]. exists p. split; [exact Hp|]. split.
  - intros fns E outs b HE. apply (C47_range_complete M31 fns E 1 0 7 8 8 [(0, 16)] p [ofZ 1000] [(ofZ 1000, 16)]); auto; try lia; try (repeat constructor; cbn; lia).
  - intros fns E HE HX HA. assert (SR : Forall (shifted_in_range 8) [(ofZ 70000 : M31, 16)]).
    { apply (C47_range_sound M31 fns E 1 0 7 8 8 [(0, 16)] p [ofZ 70000] [(ofZ 70000, 16)]); auto; try lia; try (repeat constructor; cbn; lia). }
    inversion SR as [|x l I1 I2]; subst. apply C47_range_multiple in I1; [|lia|reflexivity]. unfold in_range in I1. vm_compute in I1. discriminate.
Qed.

(* ------------------------------------------------------------ LogUpSingleKeyTable with its registered hint *)
Lemma choose_rows {F : Fld} (trows : list (list F)) qrows : Forall (fun q => In q trows) qrows -> exists at_, Forall2 (fun i q => nth_error trows i = Some q) at_ qrows.
Proof.
  intros H. induction H as [|q qs Hq H [at_ IH]]; [exists []; constructor|]. apply In_nth_error in Hq. destruct Hq as [i Hi]. exists (i :: at_). constructor; auto.
Qed.
Lemma count_keys {F : Fld} (trows : list (list F)) (key : list F -> Z) : NoDup (map key trows) -> forall at_ qrows, Forall2 (fun i q => nth_error trows i = Some q) at_ qrows ->
  map (fun r => count_occ Z.eq_dec (map key qrows) (key r)) trows = map (fun i => count_occ Nat.eq_dec at_ i) (seq 0 (length trows)).
Proof.
  intros ND at_ qrows H. apply list_eq_nth_error. intros i. rewrite !nth_error_map. destruct (nth_error trows i) as [r|] eqn:Er.
  - assert (Li : i < length trows) by (apply nth_error_Some; congruence). rewrite (nth_error_nth' (seq 0 (length trows)) 0) by (rewrite seq_length; auto). rewrite seq_nth by auto. cbn [option_map]. f_equal.
    clear -ND H Er Li. induction H as [|j q at_ qs Hj H IH]; [reflexivity|]. cbn [map count_occ]. rewrite IH. rewrite Nat.add_0_l. destruct (Nat.eq_dec j i) as [->|N].
    + rewrite Er in Hj. injection Hj as ->. destruct (Z.eq_dec (key q) (key q)); congruence.
    + destruct (Z.eq_dec (key q) (key r)) as [Q|]; auto. exfalso. apply N. rewrite NoDup_nth_error in ND. apply ND.
      * rewrite map_length. apply nth_error_Some. congruence.
      * rewrite !nth_error_map, Hj, Er. cbn. congruence.
  - assert (Li : length trows <= i) by (apply nth_error_None; auto). rewrite (proj2 (nth_error_None (seq 0 (length trows)) i)) by (rewrite seq_length; auto). reflexivity.
Qed.
Definition row_key {F : Fld} (r : list F) : Z := (toZ (nth 0 r f0) mod 2 ^ 32)%Z.
(* keys distinct in 32 bits, every query a row: accepted, whatever the randomness *)
Theorem C47_single_hint_complete : forall F fns (E : Env F) n npub id tk tv qk qr vl p ins trows qrows,
  let all := ins ++ map (e_pub E) (seq 0 npub) in
  length ins = n -> keyed tk tv <> [] -> keyed qk qr <> [] ->
  Forall (fun p => length (snd p) = vl) (keyed tk tv) -> Forall (fun p => length (snd p) = vl) (keyed qk qr) ->
  Forall2 (row_vals all) (keyed tk tv) trows -> Forall2 (row_vals all) (keyed qk qr) qrows ->
  single_hint_circuit (n + npub) id tk tv qk qr = Some p ->
  (Z.of_nat (length trows) < fmod F)%Z -> (forall m args outs, hint_sem F E id m args outs -> query_count_by_key_hint m args = Some outs) ->
  NoDup (map row_key trows) -> Forall (fun q => In q trows) qrows ->
  forall outs b, main fns E npub p ins outs b -> outs = [] /\ b = true.
Proof.
  intros F fns E n npub id tk tv qk qr vl p ins trows qrows all Li Nt Nq ST SQ HT HQ Hp Lt HE ND HI outs b R.
  apply (C47_single_hint_runs F fns E n npub id tk tv qk qr vl p ins trows qrows Li Nt Nq ST SQ HT HQ Hp) in R. destruct R as (-> & alpha & rs & cs & _ & _ & _ & Hh & ->). split; auto.
  apply HE in Hh. cbn [app query_count_by_key_hint] in Hh. rewrite toZ_ofZ_small, Nat2Z.id in Hh by lia.
  rewrite app_length, map_length, Nat.ltb_irrefl in Hh. destruct (Nat.ltb_spec (length trows + length (map (fun r => nth 0 r f0) qrows)) (length trows)); [lia|]. cbn [orb] in Hh.
  rewrite firstn_app, skipn_app, map_length, Nat.sub_diag, firstn_O, app_nil_r in Hh. rewrite firstn_all2 in Hh by (rewrite map_length; lia). rewrite skipn_all2 in Hh by (rewrite map_length; lia).
  cbn [app skipn repeat] in Hh. rewrite app_nil_r in Hh. injection Hh as <-. destruct (choose_rows _ _ HI) as [at_ HA]. rewrite !map_map.
  pose proof (count_keys trows row_key ND at_ qrows HA) as C.
  assert (Ec : map (fun x => ofZ (Z.of_nat (count_occ Z.eq_dec (map (fun x => key32 (nth 0 x f0)) qrows) (key32 (nth 0 x f0))))) trows = counts (F := F) (length (map (comb rs) trows)) at_).
  { unfold counts. rewrite map_length, <- (map_map (fun i => count_occ Nat.eq_dec at_ i) (fun c => ofZ (Z.of_nat c) : F)), <- C, map_map. reflexivity. }
  rewrite Ec. apply counts_balanced. clear -HA. induction HA as [|i q at_ qs Hi HA IH]; cbn [map]; constructor; auto. rewrite nth_error_map, Hi. reflexivity.
Qed.
Print Assumptions C47_single_hint_complete.
(* final_check does not panic *)
Theorem C47_single_no_panic : forall (F : Fld) n id tk tv qk qr vl, keyed tk tv <> [] -> keyed qk qr <> [] ->
  Forall (fun p => length (snd p) = vl) (keyed tk tv) -> Forall (fun p => length (snd p) = vl) (keyed qk qr) ->
  Forall (PropLogUp.in_range n) (keyed tk tv) -> Forall (PropLogUp.in_range n) (keyed qk qr) -> exists p, single_hint_circuit (F := F) n id tk tv qk qr = Some p.
Proof.
  intros F n id tk tv qk qr vl Nt Nq ST SQ RT RQ. pose proof (zero_rows (F := F) n _ RT) as HT. pose proof (zero_rows (F := F) n _ RQ) as HQ.
  pose proof (rows_cols _ _ _ _ _ HT (keys_combine _ _ _ ST)) as CT. pose proof (rows_cols _ _ _ _ _ HQ (keys_combine _ _ _ SQ)) as CQ.
  unfold single_hint_circuit. rewrite (proj2 (single_core _ _ _ _ _ Nt Nq ST)).
  pose proof (cr_core_hint (F := F) (fun _ _ _ => {| p_body := []; p_outs := [] |}) any_env (repeat f0 n) id _ _ _ _ _ (rows_keys _ _ _ _ HT) (rows_keys _ _ _ _ HQ) (Nat.lt_0_succ vl) CT CQ) as C.
  match type of C with cr _ _ _ _ _ (choice_hint _ _ _ ?trows _) _ => eapply (gprog_of_runs _ _ n _ _ _ _ _ (f0, (repeat f0 vl, (repeat f0 (length trows), tt))) C); [|apply repeat_length] end.
  unfold choice_hint. cbn [fst snd]. split; [exact I|]. split; [split; [rewrite repeat_length; lia|apply Forall_forall; intros; exact I]|]. split; [split; [apply repeat_length|exact I]|exact I].
Qed.
Print Assumptions C47_single_no_panic.
Example C47_single_instance : exists p : Prog M31, single_hint_circuit (4 + 0) 9 [0; 1] [[2]; [3]] [1; 0; 1] [[3]; [2]; [3]] = Some p /\
  forall fns (E : Env M31), (forall m args outs, hint_sem M31 E 9 m args outs -> query_count_by_key_hint m args = Some outs) ->
  forall outs b, main fns E 0 p (map ofZ [5; 6; 7; 7]%Z) outs b -> outs = [] /\ b = true.
Proof.
  destruct (C47_single_no_panic M31 4 9 [0; 1] [[2]; [3]] [1; 0; 1] [[3]; [2]; [3]] 1) as [p Hp].
  - discriminate.
  - discriminate.
  - repeat constructor.
  - repeat constructor.
  - repeat constructor; unfold PropLogUp.in_range; repeat constructor; lia.
  - repeat constructor; unfold PropLogUp.in_range; repeat constructor; lia.
  - exists p. split; [exact Hp|]. intros fns E HE.
    apply (C47_single_hint_complete M31 fns E 4 0 9 [0; 1] [[2]; [3]] [1; 0; 1] [[3]; [2]; [3]] 1 p (map ofZ [5; 6; 7; 7]%Z) [[ofZ 5; ofZ 7]; [ofZ 6; ofZ 7]] [[ofZ 6; ofZ 7]; [ofZ 5; ofZ 7]; [ofZ 6; ofZ 7]]).
    + reflexivity.
    + discriminate.
    + discriminate.
    + repeat constructor.
    + repeat constructor.
    + constructor; [reflexivity|]. constructor; [reflexivity|constructor].
    + constructor; [reflexivity|]. constructor; [reflexivity|]. constructor; [reflexivity|constructor].
    + exact Hp.
    + reflexivity.
    + exact HE.
    + cbn [map]. constructor; [|constructor; [intros []|constructor]]. intros [Q|[]]. vm_compute in Q. discriminate.
    + constructor; [right; left; reflexivity|]. constructor; [left; reflexivity|]. constructor; [right; left; reflexivity|constructor].
Qed.
