(* C47: the lookup arguments of circuit-std-rs.  The specification of API programs is ApiSpec.v. *)
From Verif Require Import Prelude Field Zp Expr Hints Ir IrInst ApiSpec.
From Verif Require Import ApiFacts Frontend FrontFacts FrontSim FrontProg PropIr PropFront.
From Verif Require Import Gadget GadgetRec LogUp LogUpFacts LogUpPoly.
From Coq Require Import NArith.
Open Scope nat_scope.

(* Specification.  A row of a table: the key's columns, then the value's.  [comb rs row] (LogUpFacts.v) is row[0] + rs[0] row[1] + rs[1] row[2] + ..;
   [balanced alpha T qs] says that the sum of c / (alpha - t) over the pairs (c, t) of T is the sum of 1 / (alpha - q) over qs, both sides multiplied by all
   the denominators: C47_fractions *)
(* the handles xs have the values vs *)
Definition vals {F : Fld} (all : list F) (xs : list nat) (vs : list F) : Prop := omap (nth_error all) xs = Some vs.
Definition row_vals {F : Fld} (all : list F) (p : list nat * list nat) (vs : list F) : Prop := vals all (fst p ++ snd p) vs.
(* the values of the counts, when query j is row at_[j] of the table *)
Definition true_counts {F : Fld} (rows : nat) (at_ : list nat) : list F := map (fun i => ofZ (Z.of_nat (count_occ Nat.eq_dec at_ i))) (seq 0 rows).
(* the circuits: LogUpCircuit::define, and a circuit that fills a LogUpSingleKeyTable and checks it *)
Definition lookup_circuit {F : Fld} n (tk tv qk qr : list (list nat)) (qc : list nat) : option (Prog F) := gprog n (_ <-- logup_define tk tv qk qr qc;; gret []).
Definition single_circuit {F : Fld} n (tk : list nat) (tv : list (list nat)) qk qr (qc : list nat) : option (Prog F) :=
  gprog n (_ <-- final_check_with_query_count (with_keys tk tv) (with_keys qk qr) qc;; gret []).
Definition single_hint_circuit {F : Fld} n id (tk : list nat) (tv : list (list nat)) qk qr : option (Prog F) :=
  gprog n (_ <-- final_check id (with_keys tk tv) (with_keys qk qr);; gret []).

Section Core.
  Context {F : Fld}.
  Variable fns : nat -> nat -> nat -> Prog F.
  Variable E : Env F.
  Definition core (cols : nat) (table queries : list (list nat)) (query_count : list nat) : G F unit :=
    alpha <-- a_random;; randomness <-- get_column_randomness cols;;
    table_combined <-- combine_columns table randomness;;
    v_table <-- logup_poly_val table_combined query_count alpha;;
    query_combined <-- combine_columns queries randomness;;
    one <-- a_const 1;;
    v_query <-- logup_poly_val query_combined (repeat one (length query_combined)) alpha;;
    assert_eq_rational v_table v_query.
  Definition choice (cols : nat) (x : F * (list F * unit)) : Prop :=
    e_rnd E (fst x) /\ ((length (fst (snd x)) = cols - 1 /\ Forall (e_rnd E) (fst (snd x))) /\ True).
  Lemma cr_core hv cols table queries qc trows qrows cs : rows hv table trows -> rows hv queries qrows -> iss hv qc cs -> 0 < cols ->
    Forall (fun v => length v = cols) trows -> Forall (fun v => length v = cols) qrows ->
    cr fns E hv (core cols table queries qc) (F * (list F * unit)) (choice cols)
      (fun x _ _ b => b = balanced (fst x) (combine cs (map (comb (fst (snd x))) trows)) (map (comb (fst (snd x))) qrows)).
  Proof.
    intros HT HQ HC P LT LQ. unfold core, choice. eapply cr_bind with (pre2 := fun y : list F * unit => (length (fst y) = cols - 1 /\ Forall (e_rnd E) (fst y)) /\ True)
      (Q := fun x y h a b => b = balanced x (combine cs (map (comb (fst y)) trows)) (map (comb (fst y)) qrows)); [apply cr_random|].
    intros alpha h1 xa b Ha X1 [Ia Eb]. split; [exact Eb|].
    eapply cr_bind with (pre := fun rs : list F => length rs = cols - 1 /\ Forall (e_rnd E) rs) (pre2 := fun _ : unit => True) (Q := fun rs _ h a b => b = balanced alpha (combine cs (map (comb rs) trows)) (map (comb rs) qrows)); [apply cr_cols|].
    cbv beta. intros rs h2 xr b2 [Lr Hr] X2 [Ir Eb2]. split; [exact Eb2|].
    assert (SL : forall l : list (list F), Forall (fun v => length v = cols) l -> Forall (fun v => length v = S (length rs)) l) by (intros l H; eapply Forall_impl; [|exact H]; cbv beta; intros; lia).
    pose proof (ext_trans _ _ _ X1 X2) as X12.
    eapply cr_ok; [apply ok_combine; [eapply rows_ext; [exact X12|exact HT]|exact Ir|auto]|]. cbv beta. intros h3 tc X3 H3.
    eapply cr_ok; [apply ok_poly; [exact H3|eapply iss_ext; [exact (ext_trans _ _ _ X12 X3)|exact HC]|eapply is_ext; [exact (ext_trans _ _ _ X2 X3)|exact Ia]]|]. cbv beta. intros h4 vt X4 H4.
    eapply cr_ok; [apply ok_combine; [eapply rows_ext; [exact (ext_trans _ _ _ X12 (ext_trans _ _ _ X3 X4))|exact HQ]|eapply iss_ext; [exact (ext_trans _ _ _ X3 X4)|exact Ir]|auto]|]. cbv beta. intros h5 qcb X5 H5.
    apply cr_tail; [eapply RR_ext; eauto|exact H5|]. eapply is_ext; [|exact Ia]. eauto using ext_trans.
  Qed.
  (* with counts from a hint *)
  Definition core_hint (id : N) (cols : nat) (table queries : list (list nat)) : G F unit :=
    alpha <-- a_random;; randomness <-- get_column_randomness cols;;
    table_combined <-- combine_columns table randomness;;
    n <-- a_const (Z.of_nat (length table));;
    query_count <-- calln (OHint id (map AV ([n] ++ map (fun r => nth 0 r 0) table ++ map (fun r => nth 0 r 0) queries)) (length table));;
    v_table <-- logup_poly_val table_combined query_count alpha;;
    query_combined <-- combine_columns queries randomness;;
    one <-- a_const 1;;
    v_query <-- logup_poly_val query_combined (repeat one (length query_combined)) alpha;;
    assert_eq_rational v_table v_query.
  Definition hint_args (trows qrows : list (list F)) : list F := [ofZ (Z.of_nat (length trows))] ++ map (fun r => nth 0 r f0) trows ++ map (fun r => nth 0 r f0) qrows.
  Definition choice_hint (id : N) (cols : nat) (trows qrows : list (list F)) (x : F * (list F * (list F * unit))) : Prop :=
    e_rnd E (fst x) /\ ((length (fst (snd x)) = cols - 1 /\ Forall (e_rnd E) (fst (snd x))) /\ (hint_sem F E id (length trows) (hint_args trows qrows) (fst (snd (snd x))) /\ True)).
  Lemma heads hv (l : list (list nat)) (vs : list (list F)) cols : rows hv l vs -> 0 < cols -> Forall (fun v => length v = cols) vs -> iss hv (map (fun r => nth 0 r 0) l) (map (fun r => nth 0 r f0) vs).
  Proof.
    intros H P L. induction H as [|x v l vs Hx H IH]; cbn [map]; [constructor|]. inversion L; subst. constructor; [|apply IH; auto]. destruct Hx; cbn in *; [lia|auto].
  Qed.
  Lemma cr_core_hint hv id cols table queries trows qrows : rows hv table trows -> rows hv queries qrows -> 0 < cols ->
    Forall (fun v => length v = cols) trows -> Forall (fun v => length v = cols) qrows ->
    cr fns E hv (core_hint id cols table queries) (F * (list F * (list F * unit))) (choice_hint id cols trows qrows)
      (fun x _ _ b => b = balanced (fst x) (combine (fst (snd (snd x))) (map (comb (fst (snd x))) trows)) (map (comb (fst (snd x))) qrows)).
  Proof.
    intros HT HQ P LT LQ. unfold core_hint, choice_hint.
    eapply cr_bind with (pre2 := fun y : list F * (list F * unit) => (length (fst y) = cols - 1 /\ Forall (e_rnd E) (fst y)) /\ (hint_sem F E id (length trows) (hint_args trows qrows) (fst (snd y)) /\ True))
      (Q := fun x y h a b => b = balanced x (combine (fst (snd y)) (map (comb (fst y)) trows)) (map (comb (fst y)) qrows)); [apply cr_random|].
    intros alpha h1 xa b Ha X1 [Ia Eb]. split; [exact Eb|].
    eapply cr_bind with (pre := fun rs : list F => length rs = cols - 1 /\ Forall (e_rnd E) rs) (pre2 := fun y : list F * unit => hint_sem F E id (length trows) (hint_args trows qrows) (fst y) /\ True) (Q := fun rs y h a b => b = balanced alpha (combine (fst y) (map (comb rs) trows)) (map (comb rs) qrows)); [apply cr_cols|].
    cbv beta. intros rs h2 xr b2 [Lr Hr] X2 [Ir Eb2]. split; [exact Eb2|].
    assert (SL : forall l : list (list F), Forall (fun v => length v = cols) l -> Forall (fun v => length v = S (length rs)) l) by (intros l H; eapply Forall_impl; [|exact H]; cbv beta; intros; lia).
    pose proof (ext_trans _ _ _ X1 X2) as X12.
    eapply cr_ok; [apply ok_combine; [eapply rows_ext; [exact X12|exact HT]|exact Ir|auto]|]. cbv beta. intros h3 tc X3 H3.
    eapply cr_ok; [apply ok_const|]. cbv beta. intros h4 nn X4 H4.
    assert (X04 : ext hv h4) by eauto using ext_trans. assert (X24 : ext h2 h4) by eauto using ext_trans. assert (X14 : ext h1 h4) by eauto using ext_trans.
    assert (LL : length table = length trows) by (eapply f2_len; exact HT).
    eapply cr_bind with (pre := fun cs : list F => hint_sem F E id (length trows) (hint_args trows qrows) cs) (pre2 := fun _ : unit => True) (Q := fun cs _ h a b => b = balanced alpha (combine cs (map (comb rs) trows)) (map (comb rs) qrows)).
    { rewrite LL. apply cr_hint. unfold hint_args. rewrite <- LL. constructor; [exact H4|]. apply Forall2_app; [exact (heads _ _ _ _ (rows_ext _ _ _ _ X04 HT) P LT)|exact (heads _ _ _ _ (rows_ext _ _ _ _ X04 HQ) P LQ)]. }
    cbv beta. intros cs h5 qc b3 Hc X5 [Ic Eb3]. split; [exact Eb3|].
    eapply cr_ok; [apply ok_poly; [eapply iss_ext; [eapply ext_trans; [exact X4|exact X5]|exact H3]|exact Ic|eapply is_ext; [eapply ext_trans; [exact X14|exact X5]|exact Ia]]|]. cbv beta. intros h6 vt X6 H6.
    assert (X56 : ext h4 h6) by eauto using ext_trans.
    eapply cr_ok; [apply ok_combine; [eapply rows_ext; [eapply ext_trans; [exact X04|exact X56]|exact HQ]|eapply iss_ext; [eapply ext_trans; [exact X24|exact X56]|exact Ir]|auto]|]. cbv beta. intros h7 qcb X7 H7.
    apply cr_tail; [eapply RR_ext; eauto|exact H7|]. eapply is_ext; [|exact Ia]. eauto using ext_trans.
  Qed.
End Core.

Section Facts.
  Context {F : Fld}.
  Lemma f2_map_l {A B C} (R : B -> C -> Prop) (f : A -> B) l l' : Forall2 (fun a c => R (f a) c) l l' -> Forall2 R (map f l) l'.
  Proof. intros H. induction H; cbn; constructor; auto. Qed.
  Lemma vals_iss (all : list F) xs vs : vals all xs vs <-> iss all xs vs. Proof. apply omap_nth_iss. Qed.
  Lemma rows_concat (all : list F) a b vs : Forall2 (row_vals all) (combine a b) vs -> rows all (concat_d1 a b) vs.
  Proof. intros H. apply f2_map_l. induction H; constructor; auto. apply vals_iss. assumption. Qed.
  Lemma rows_keys (all : list F) a b vs : Forall2 (row_vals all) (combine (map (fun k => [k]) a) b) vs -> rows all (with_keys a b) vs.
  Proof.
    intros H. unfold with_keys. apply f2_map_l. revert b vs H. induction a as [|k a IH]; intros [|v b] vs H; cbn [map combine] in *; inversion H; subst; constructor; auto. apply vals_iss. assumption.
  Qed.
  Lemma rows_cols (all : list F) p vs kl vl : Forall2 (row_vals all) p vs -> Forall (fun p => length (fst p) = kl /\ length (snd p) = vl) p -> Forall (fun v => length v = kl + vl) vs.
  Proof.
    intros H. induction H as [|x v p vs Hx H IH]; intros L; inversion L as [|x' p' [L1 L2] Lp]; subst; constructor; auto. apply vals_iss in Hx. apply f2_len in Hx. rewrite app_length in Hx. lia.
  Qed.
  (* accepted with every randomness *)
  Lemma core_sound cols (trows qrows : list (list F)) (cs : list F) : 0 < cols -> length cs = length trows ->
    Forall (fun v => length v = cols) trows -> Forall (fun v => length v = cols) qrows -> (Z.of_nat (length trows + length qrows) < fmod F)%Z ->
    (forall alpha rs, length rs = cols - 1 -> balanced alpha (combine cs (map (comb rs) trows)) (map (comb rs) qrows) = true) -> Forall (fun q => In q trows) qrows.
  Proof.
    intros P Lc LT LQ Lp H. apply Forall_forall. intros q Hq. destruct (in_dec (list_eq_dec (f_dec F)) q trows) as [I|N]; auto. exfalso.
    pose proof LQ as LQ'. rewrite Forall_forall in LQ'. specialize (LQ' q Hq).
    destruct (good_comb (cols - 1) trows q) as (rs & Lr & N'); [lia| |exact N|lia|]. { eapply Forall_impl; [|exact LT]. cbv beta. intros; lia. }
    set (alphas := map (fun i => ofZ (Z.of_nat i)) (seq 0 (S (length trows + length qrows))) : list F).
    assert (Snd : map snd (combine cs (map (comb rs) trows)) = map (comb rs) trows).
    { assert (Lc' : length cs = length (map (comb rs) trows)) by (rewrite map_length; auto). revert Lc'. generalize (map (comb rs) trows). clear. induction cs as [|c cs IH]; intros [|t ts] L; try discriminate; cbn; auto. rewrite IH; auto. }
    assert (L : length alphas <= length (combine cs (map (comb rs) trows)) + length (map (comb rs) qrows)).
    { apply (few_accepted _ _ (comb rs q)).
      - apply in_map. auto.
      - rewrite Snd. exact N'.
      - rewrite map_length. lia.
      - apply nodup_map; [|apply seq_NoDup]. intros i j Hi Hj Q. apply in_seq in Hi, Hj. apply ofZ_inj_small in Q; lia.
      - intros a _. apply H. auto. }
    unfold alphas in L. rewrite combine_length, !map_length, seq_length in L. lia.
  Qed.
  Lemma gprog_of_runs fns (E : Env F) n (m : G F unit) hv X pre Q (x : X) : cr fns E hv m X pre Q -> pre x -> length hv = n -> exists p, gprog n (_ <-- m;; gret []) = Some p.
  Proof. intros [_ M] Px L. destruct (M x Px) as (h & a & b & (ops & Eq & _) & _). unfold gprog, gbind. rewrite L in Eq. rewrite Eq. cbn. eauto. Qed.
End Facts.

(* ------------------------------------------------------------ LogUpCircuit *)
(* what its runs are, with every randomness *)
Theorem C47_runs : forall F fns (E : Env F) n npub tk tv qk qr qc kl vl p ins trows qrows cs,
  let all := ins ++ map (e_pub E) (seq 0 npub) in
  length ins = n -> tk <> [] -> length tv = length tk -> 0 < kl + vl ->
  Forall (fun p => length (fst p) = kl /\ length (snd p) = vl) (combine tk tv) -> Forall (fun p => length (fst p) = kl /\ length (snd p) = vl) (combine qk qr) ->
  Forall2 (row_vals all) (combine tk tv) trows -> Forall2 (row_vals all) (combine qk qr) qrows -> vals all qc cs ->
  lookup_circuit (n + npub) tk tv qk qr qc = Some p ->
  forall outs b, main fns E npub p ins outs b <-> outs = [] /\ exists alpha rs, e_rnd E alpha /\ length rs = kl + vl - 1 /\ Forall (e_rnd E) rs /\
    b = balanced alpha (combine cs (map (comb rs) trows)) (map (comb rs) qrows).
Proof.
  intros F fns E n npub tk tv qk qr qc kl vl p ins trows qrows cs all Li Nk Lt P ST SQ HT HQ HC Hp outs b.
  destruct tk as [|k0 tk]; [congruence|]. destruct tv as [|v0 tv]; [discriminate|]. pose proof (rows_cols _ _ _ _ _ HT ST) as CT. pose proof (rows_cols _ _ _ _ _ HQ SQ) as CQ.
  cbn [combine] in ST. inversion ST as [|x l [L1 L2] ST']; subst. cbn [fst snd] in *.
  unfold lookup_circuit in Hp. change (logup_define (k0 :: tk) (v0 :: tv) qk qr qc) with (core (F := F) (length k0 + length v0) (concat_d1 (k0 :: tk) (v0 :: tv)) (concat_d1 qk qr) qc) in Hp.
  rewrite (cr_main fns E npub _ _ _ _ _ ins p eq_refl Hp (cr_core fns E all _ _ _ _ _ _ _ (rows_concat _ _ _ _ HT) (rows_concat _ _ _ _ HQ) (proj1 (vals_iss _ _ _) HC) P CT CQ)).
  unfold choice. split; intros [-> H]; split; auto.
  - destruct H as ((alpha & rs & []) & (H1 & (H2 & H3) & _) & ->). cbn [fst snd] in *. eauto 6.
  - destruct H as (alpha & rs & H1 & H2 & H3 & ->). exists (alpha, (rs, tt)). cbn [fst snd]. auto.
Qed.
Print Assumptions C47_runs.

(* [balanced] is equality of the two sums of fractions wherever these exist *)
Theorem C47_fractions : forall (F : Fld) (alpha : F) T qs, ~ In alpha (map snd T) -> ~ In alpha qs ->
  (balanced alpha T qs = true <-> fsum F (map (fun p => fmul (fst p) (finv (fsub alpha (snd p)))) T) = fsum F (map (fun q => finv (fsub alpha q)) qs)).
Proof. intros F alpha T qs. apply balanced_frac. Qed.
Print Assumptions C47_fractions.
(* define does not panic *)
Definition any_env {F : Fld} : Env F := {| e_pub := fun _ => f0; e_gate := fun _ _ => f0; e_hint := fun _ _ _ _ => True; e_rnd := fun _ => True |}.
Lemma zero_vals {F : Fld} n xs : Forall (fun x => x < n) xs -> iss (repeat (f0 : F) n) xs (repeat f0 (length xs)).
Proof.
  intros A. induction A as [|x xs Hx A IH]; cbn; constructor; auto. unfold is. destruct (nth_error (repeat f0 n) x) as [v|] eqn:E.
  - apply nth_error_In, repeat_spec in E. subst. reflexivity.
  - apply nth_error_None in E. rewrite repeat_length in E. lia.
Qed.
Lemma zero_rows {F : Fld} n l : Forall (fun p => Forall (fun x => x < n) (fst p ++ snd p)) l -> Forall2 (row_vals (repeat (f0 : F) n)) l (map (fun p => repeat f0 (length (fst p ++ snd p))) l).
Proof. intros H. induction H as [|p l Hp H IH]; cbn [map]; constructor; auto. apply vals_iss, zero_vals. auto. Qed.
Lemma any_choice {F : Fld} cols : choice (F := F) any_env cols (f0, (repeat f0 (cols - 1), tt)).
Proof. unfold choice. cbn [fst snd]. rewrite repeat_length. repeat split; auto. apply Forall_forall. intros; cbn; auto. Qed.
Definition in_range (n : nat) (p : list nat * list nat) : Prop := Forall (fun x => x < n) (fst p ++ snd p).
Theorem C47_no_panic : forall (F : Fld) n tk tv qk qr qc kl vl, tk <> [] -> length tv = length tk -> 0 < kl + vl ->
  Forall (fun p => length (fst p) = kl /\ length (snd p) = vl) (combine tk tv) -> Forall (fun p => length (fst p) = kl /\ length (snd p) = vl) (combine qk qr) ->
  Forall (in_range n) (combine tk tv) -> Forall (in_range n) (combine qk qr) -> Forall (fun x => x < n) qc ->
  exists p, lookup_circuit (F := F) n tk tv qk qr qc = Some p.
Proof.
  intros F n tk tv qk qr qc kl vl Nk Lt P ST SQ RT RQ RC. destruct tk as [|k0 tk]; [congruence|]. destruct tv as [|v0 tv]; [discriminate|].
  pose proof (zero_rows (F := F) n _ RT) as HT. pose proof (zero_rows (F := F) n _ RQ) as HQ. pose proof (zero_vals (F := F) n _ RC) as HC.
  pose proof (rows_cols _ _ _ _ _ HT ST) as CT. pose proof (rows_cols _ _ _ _ _ HQ SQ) as CQ.
  cbn [combine] in ST. inversion ST as [|x l [L1 L2] ST']; subst. cbn [fst snd] in *.
  unfold lookup_circuit. change (logup_define (k0 :: tk) (v0 :: tv) qk qr qc) with (core (F := F) (length k0 + length v0) (concat_d1 (k0 :: tk) (v0 :: tv)) (concat_d1 qk qr) qc).
  eapply (gprog_of_runs (fun _ _ _ => {| p_body := []; p_outs := [] |}) any_env); [eapply cr_core; eauto using rows_concat|apply any_choice|apply repeat_length].
Qed.
Print Assumptions C47_no_panic.
(* every query is a row of the table, with the true counts: accepted, whatever the randomness *)
Theorem C47_complete : forall F fns (E : Env F) n npub tk tv qk qr qc kl vl p ins trows qrows at_,
  let all := ins ++ map (e_pub E) (seq 0 npub) in
  length ins = n -> tk <> [] -> length tv = length tk -> 0 < kl + vl ->
  Forall (fun p => length (fst p) = kl /\ length (snd p) = vl) (combine tk tv) -> Forall (fun p => length (fst p) = kl /\ length (snd p) = vl) (combine qk qr) ->
  Forall2 (row_vals all) (combine tk tv) trows -> Forall2 (row_vals all) (combine qk qr) qrows ->
  Forall2 (fun i q => nth_error trows i = Some q) at_ qrows -> vals all qc (true_counts (length trows) at_) ->
  lookup_circuit (n + npub) tk tv qk qr qc = Some p ->
  forall outs b, main fns E npub p ins outs b -> outs = [] /\ b = true.
Proof.
  intros F fns E n npub tk tv qk qr qc kl vl p ins trows qrows at_ all Li Nk Lt P ST SQ HT HQ HA HC Hp outs b H.
  apply (C47_runs F fns E n npub tk tv qk qr qc kl vl p ins trows qrows _ Li Nk Lt P ST SQ HT HQ HC Hp) in H. destruct H as (-> & alpha & rs & _ & _ & _ & ->). split; auto.
  rewrite <- (map_length (comb rs) trows). apply (counts_balanced alpha (map (comb rs) trows) at_). clear -HA. induction HA as [|i q at_ qs Hi HA IH]; cbn [map]; constructor; auto.
  rewrite nth_error_map, Hi. reflexivity.
Qed.
Print Assumptions C47_complete.
(* accepted with every randomness: every query is a row of the table, whatever the counts *)
Theorem C47_sound : forall F fns (E : Env F) n npub tk tv qk qr qc kl vl p ins trows qrows cs,
  let all := ins ++ map (e_pub E) (seq 0 npub) in
  length ins = n -> tk <> [] -> length tv = length tk -> 0 < kl + vl ->
  Forall (fun p => length (fst p) = kl /\ length (snd p) = vl) (combine tk tv) -> Forall (fun p => length (fst p) = kl /\ length (snd p) = vl) (combine qk qr) ->
  Forall2 (row_vals all) (combine tk tv) trows -> Forall2 (row_vals all) (combine qk qr) qrows -> vals all qc cs -> length cs = length trows ->
  lookup_circuit (n + npub) tk tv qk qr qc = Some p ->
  (Z.of_nat (length trows + length qrows) < fmod F)%Z -> (forall r, e_rnd E r) -> (forall outs b, main fns E npub p ins outs b -> b = true) ->
  Forall (fun q => In q trows) qrows.
Proof.
  intros F fns E n npub tk tv qk qr qc kl vl p ins trows qrows cs all Li Nk Lt P ST SQ HT HQ HC Lc Hp Lp HE H.
  apply (core_sound (kl + vl) trows qrows cs); auto. exact (rows_cols _ _ _ _ _ HT ST). exact (rows_cols _ _ _ _ _ HQ SQ).
  intros alpha rs Lr. apply (H [] _). apply (C47_runs F fns E n npub tk tv qk qr qc kl vl p ins trows qrows cs Li Nk Lt P ST SQ HT HQ HC Hp). split; auto.
  exists alpha, rs. repeat split; auto. apply Forall_forall. auto.
Qed.
Print Assumptions C47_sound.
(* how many points accept a query whose combination is not one of the table's: at most the number of rows and queries, out of the whole field *)
Theorem C47_few : forall (F : Fld) (cs : list F) trows qrows q rs alphas, length cs = length trows -> In q qrows -> ~ In (comb rs q) (map (comb rs) trows) ->
  (Z.of_nat (length qrows) < fmod F)%Z -> NoDup alphas -> (forall alpha, In alpha alphas -> balanced alpha (combine cs (map (comb rs) trows)) (map (comb rs) qrows) = true) ->
  length alphas <= length trows + length qrows.
Proof.
  intros F cs trows qrows q rs alphas Lc Iq N Lq ND H.
  assert (L : length alphas <= length (combine cs (map (comb rs) trows)) + length (map (comb rs) qrows)).
  { apply (few_accepted _ _ (comb rs q)); auto.
    - apply in_map. auto.
    - intros I. apply N. apply in_map_iff in I. destruct I as ([c t] & <- & I). apply in_combine_r in I. exact I.
    - rewrite map_length. auto. }
  rewrite combine_length, !map_length in L. lia.
Qed.
Print Assumptions C47_few.
(* the recorded circuit *)
Theorem C47_recorded : forall F fsize fns hash low fuel (E : Env F) n npub tk tv qk qr qc kl vl p rc ins trows qrows cs,
  let all := ins ++ map (e_pub E) (seq 0 npub) in
  size_fits F fsize -> no_collision hash low -> captures_nothing fns -> identity_hint E ->
  length ins = n -> tk <> [] -> length tv = length tk -> 0 < kl + vl ->
  Forall (fun p => length (fst p) = kl /\ length (snd p) = vl) (combine tk tv) -> Forall (fun p => length (fst p) = kl /\ length (snd p) = vl) (combine qk qr) ->
  Forall2 (row_vals all) (combine tk tv) trows -> Forall2 (row_vals all) (combine qk qr) qrows -> vals all qc cs ->
  lookup_circuit (n + npub) tk tv qk qr qc = Some p -> record fsize fns hash low fuel n npub p = Some rc ->
  forall outs b, root_run _ E rc ins outs b <-> outs = [] /\ exists alpha rs, e_rnd E alpha /\ length rs = kl + vl - 1 /\ Forall (e_rnd E) rs /\
    b = balanced alpha (combine cs (map (comb rs) trows)) (map (comb rs) qrows).
Proof.
  intros F fsize fns hash low fuel E n npub tk tv qk qr qc kl vl p rc ins trows qrows cs all H1 H2 H3 HE Li Nk Lt P ST SQ HT HQ HC Hp Hr outs b.
  destruct (C33_recorded_circuit F fsize fns hash low fuel n npub p rc H1 H2 H3 Hr) as (_ & _ & _ & Q). rewrite (Q E HE).
  rewrite (C47_runs F fns E n npub tk tv qk qr qc kl vl p ins trows qrows cs Li Nk Lt P ST SQ HT HQ HC Hp). tauto.
Qed.
Print Assumptions C47_recorded.

(* ------------------------------------------------------------ LogUpSingleKeyTable *)
Definition keyed (keys : list nat) (values : list (list nat)) : list (list nat * list nat) := combine (map (fun k => [k]) keys) values.
Lemma keys_combine keys values vl : Forall (fun p : list nat * list nat => length (snd p) = vl) (keyed keys values) -> Forall (fun p => length (fst p) = 1 /\ length (snd p) = vl) (keyed keys values).
Proof.
  unfold keyed. revert values. induction keys as [|k keys IH]; intros [|v values] H; cbn in *; constructor; inversion H; subst; auto.
Qed.
Lemma with_keys_cons keys values : keyed keys values <> [] -> exists r l, with_keys keys values = r :: l.
Proof. destruct keys as [|k keys], values as [|v values]; cbn; try congruence. intros _. eauto. Qed.
Lemma with_keys_first keys values vl r l : with_keys keys values = r :: l -> Forall (fun p : list nat * list nat => length (snd p) = vl) (keyed keys values) -> length r = 1 + vl.
Proof. destruct keys as [|k keys], values as [|v values]; cbn; try discriminate. intros H A. injection H as <- _. inversion A; subst. cbn in *. auto. Qed.
Lemma single_core {F : Fld} tk tv qk qr vl : keyed tk tv <> [] -> keyed qk qr <> [] -> Forall (fun p : list nat * list nat => length (snd p) = vl) (keyed tk tv) ->
  (forall qc, final_check_with_query_count (F := F) (with_keys tk tv) (with_keys qk qr) qc = core (1 + vl) (with_keys tk tv) (with_keys qk qr) qc) /\
  (forall id, final_check (F := F) id (with_keys tk tv) (with_keys qk qr) = core_hint id (1 + vl) (with_keys tk tv) (with_keys qk qr)).
Proof.
  intros Nt Nq L. destruct (with_keys_cons _ _ Nt) as (r & l & Et). destruct (with_keys_cons _ _ Nq) as (r' & l' & Eq). rewrite <- (with_keys_first _ _ _ _ _ Et L), Et, Eq. split; reflexivity.
Qed.
Theorem C47_single_runs : forall F fns (E : Env F) n npub tk tv qk qr qc vl p ins trows qrows cs,
  let all := ins ++ map (e_pub E) (seq 0 npub) in
  length ins = n -> keyed tk tv <> [] -> keyed qk qr <> [] ->
  Forall (fun p => length (snd p) = vl) (keyed tk tv) -> Forall (fun p => length (snd p) = vl) (keyed qk qr) ->
  Forall2 (row_vals all) (keyed tk tv) trows -> Forall2 (row_vals all) (keyed qk qr) qrows -> vals all qc cs ->
  single_circuit (n + npub) tk tv qk qr qc = Some p ->
  forall outs b, main fns E npub p ins outs b <-> outs = [] /\ exists alpha rs, e_rnd E alpha /\ length rs = vl /\ Forall (e_rnd E) rs /\
    b = balanced alpha (combine cs (map (comb rs) trows)) (map (comb rs) qrows).
Proof.
  intros F fns E n npub tk tv qk qr qc vl p ins trows qrows cs all Li Nt Nq ST SQ HT HQ HC Hp outs b.
  pose proof (rows_cols _ _ _ _ _ HT (keys_combine _ _ _ ST)) as CT. pose proof (rows_cols _ _ _ _ _ HQ (keys_combine _ _ _ SQ)) as CQ.
  unfold single_circuit in Hp. rewrite (proj1 (single_core _ _ _ _ _ Nt Nq ST)) in Hp.
  rewrite (cr_main fns E npub _ _ _ _ _ ins p Li Hp (cr_core fns E all _ _ _ _ _ _ _ (rows_keys _ _ _ _ HT) (rows_keys _ _ _ _ HQ) (proj1 (vals_iss _ _ _) HC) (Nat.lt_0_succ vl) CT CQ)).
  unfold choice. split; intros [-> H]; split; auto.
  - destruct H as ((alpha & rs & []) & (H1 & (H2 & H3) & _) & ->). cbn [fst snd] in *. exists alpha, rs. repeat split; auto. lia.
  - destruct H as (alpha & rs & H1 & H2 & H3 & ->). exists (alpha, (rs, tt)). cbn [fst snd]. repeat split; auto. lia.
Qed.
Print Assumptions C47_single_runs.
Theorem C47_single_sound : forall F fns (E : Env F) n npub tk tv qk qr qc vl p ins trows qrows cs,
  let all := ins ++ map (e_pub E) (seq 0 npub) in
  length ins = n -> keyed tk tv <> [] -> keyed qk qr <> [] ->
  Forall (fun p => length (snd p) = vl) (keyed tk tv) -> Forall (fun p => length (snd p) = vl) (keyed qk qr) ->
  Forall2 (row_vals all) (keyed tk tv) trows -> Forall2 (row_vals all) (keyed qk qr) qrows -> vals all qc cs -> length cs = length trows ->
  single_circuit (n + npub) tk tv qk qr qc = Some p ->
  (Z.of_nat (length trows + length qrows) < fmod F)%Z -> (forall r, e_rnd E r) -> (forall outs b, main fns E npub p ins outs b -> b = true) ->
  Forall (fun q => In q trows) qrows.
Proof.
  intros F fns E n npub tk tv qk qr qc vl p ins trows qrows cs all Li Nt Nq ST SQ HT HQ HC Lc Hp Lp HE H.
  apply (core_sound (1 + vl) trows qrows cs); auto; try lia. exact (rows_cols _ _ _ _ _ HT (keys_combine _ _ _ ST)). exact (rows_cols _ _ _ _ _ HQ (keys_combine _ _ _ SQ)).
  intros alpha rs Lr. apply (H [] _). apply (C47_single_runs F fns E n npub tk tv qk qr qc vl p ins trows qrows cs Li Nt Nq ST SQ HT HQ HC Hp). split; auto.
  exists alpha, rs. repeat split; auto. lia. apply Forall_forall. auto.
Qed.
Print Assumptions C47_single_sound.
(* counts from a hint: whatever it answers *)
Theorem C47_single_hint_runs : forall F fns (E : Env F) n npub id tk tv qk qr vl p ins trows qrows,
  let all := ins ++ map (e_pub E) (seq 0 npub) in
  length ins = n -> keyed tk tv <> [] -> keyed qk qr <> [] ->
  Forall (fun p => length (snd p) = vl) (keyed tk tv) -> Forall (fun p => length (snd p) = vl) (keyed qk qr) ->
  Forall2 (row_vals all) (keyed tk tv) trows -> Forall2 (row_vals all) (keyed qk qr) qrows ->
  single_hint_circuit (n + npub) id tk tv qk qr = Some p ->
  forall outs b, main fns E npub p ins outs b <-> outs = [] /\ exists alpha rs cs, e_rnd E alpha /\ length rs = vl /\ Forall (e_rnd E) rs /\
    hint_sem F E id (length trows) ([ofZ (Z.of_nat (length trows))] ++ map (fun r => nth 0 r f0) trows ++ map (fun r => nth 0 r f0) qrows) cs /\
    b = balanced alpha (combine cs (map (comb rs) trows)) (map (comb rs) qrows).
Proof.
  intros F fns E n npub id tk tv qk qr vl p ins trows qrows all Li Nt Nq ST SQ HT HQ Hp outs b.
  pose proof (rows_cols _ _ _ _ _ HT (keys_combine _ _ _ ST)) as CT. pose proof (rows_cols _ _ _ _ _ HQ (keys_combine _ _ _ SQ)) as CQ.
  unfold single_hint_circuit in Hp. rewrite (proj2 (single_core _ _ _ _ _ Nt Nq ST)) in Hp.
  rewrite (cr_main fns E npub _ _ _ _ _ ins p Li Hp (cr_core_hint fns E all _ _ _ _ _ _ (rows_keys _ _ _ _ HT) (rows_keys _ _ _ _ HQ) (Nat.lt_0_succ vl) CT CQ)).
  unfold choice_hint, hint_args. split; intros [-> H]; split; auto.
  - destruct H as ((alpha & rs & cs & []) & (H1 & (H2 & H3) & (H4 & _)) & ->). cbn [fst snd] in *. exists alpha, rs, cs. repeat split; auto; try lia; apply H4.
  - destruct H as (alpha & rs & cs & H1 & H2 & H3 & H4 & ->). exists (alpha, (rs, (cs, tt))). cbn [fst snd]. repeat split; auto; try lia; apply H4.
Qed.
Print Assumptions C47_single_hint_runs.
(* a hint may answer anything, as long as its answer does not depend on the randomness *)
Theorem C47_single_hint_sound : forall F fns (E : Env F) n npub id tk tv qk qr vl p ins trows qrows cs,
  let all := ins ++ map (e_pub E) (seq 0 npub) in
  length ins = n -> keyed tk tv <> [] -> keyed qk qr <> [] ->
  Forall (fun p => length (snd p) = vl) (keyed tk tv) -> Forall (fun p => length (snd p) = vl) (keyed qk qr) ->
  Forall2 (row_vals all) (keyed tk tv) trows -> Forall2 (row_vals all) (keyed qk qr) qrows ->
  hint_sem F E id (length trows) ([ofZ (Z.of_nat (length trows))] ++ map (fun r => nth 0 r f0) trows ++ map (fun r => nth 0 r f0) qrows) cs ->
  single_hint_circuit (n + npub) id tk tv qk qr = Some p ->
  (Z.of_nat (length trows + length qrows) < fmod F)%Z -> (forall r, e_rnd E r) -> (forall outs b, main fns E npub p ins outs b -> b = true) ->
  Forall (fun q => In q trows) qrows.
Proof.
  intros F fns E n npub id tk tv qk qr vl p ins trows qrows cs all Li Nt Nq ST SQ HT HQ Hh Hp Lp HE H.
  apply (core_sound (1 + vl) trows qrows cs); auto; try lia. apply Hh. exact (rows_cols _ _ _ _ _ HT (keys_combine _ _ _ ST)). exact (rows_cols _ _ _ _ _ HQ (keys_combine _ _ _ SQ)).
  intros alpha rs Lr. apply (H [] _). apply (C47_single_hint_runs F fns E n npub id tk tv qk qr vl p ins trows qrows Li Nt Nq ST SQ HT HQ Hp). split; auto.
  exists alpha, rs, cs. repeat split; auto; try lia; try apply Hh. apply Forall_forall. auto.
Qed.
Print Assumptions C47_single_hint_sound.
(* the hypotheses are met: a table of two rows, two queries of the second *)
Definition tk_i := [[0]; [1]]. Definition tv_i := [[2]; [3]]. Definition qk_i := [[1]; [1]]. Definition qr_i := [[3]; [3]].
Definition rows_i (F : Fld) : list (list F) := [[ofZ 5; ofZ 7]; [ofZ 6; ofZ 8]].
Lemma setup_i (F : Fld) (a b : Z) : Forall2 (row_vals (map ofZ [5; 6; 7; 8; a; b; 9]%Z ++ [])) (combine tk_i tv_i) (rows_i F) /\
  vals (map ofZ [5; 6; 7; 8; a; b; 9]%Z ++ [] : list F) [4; 5] [ofZ a; ofZ b] /\ Forall (fun p : list nat * list nat => length (fst p) = 1 /\ length (snd p) = 1) (combine tk_i tv_i).
Proof. unfold row_vals, vals. repeat split; repeat constructor. Qed.
Lemma no_panic_i qr : qr = qr_i \/ qr = [[3]; [6]] -> exists p : Prog M31, lookup_circuit (7 + 0) tk_i tv_i qk_i qr [4; 5] = Some p.
Proof.
  intros Q. apply (C47_no_panic M31 7 tk_i tv_i qk_i qr [4; 5] 1 1).
  - intros X; discriminate X.
  - reflexivity.
  - lia.
  - repeat constructor.
  - destruct Q as [-> | ->]; repeat constructor.
  - repeat constructor; unfold in_range; repeat constructor; lia.
  - destruct Q as [-> | ->]; repeat constructor; unfold in_range; repeat constructor; lia.
  - repeat constructor; lia.
Qed.
Example C47_instance : exists p : Prog M31, lookup_circuit (7 + 0) tk_i tv_i qk_i qr_i [4; 5] = Some p /\
  forall fns (E : Env M31) outs b, main fns E 0 p (map ofZ [5; 6; 7; 8; 0; 2; 9]%Z) outs b -> outs = [] /\ b = true.
Proof.
  destruct (no_panic_i qr_i (or_introl eq_refl)) as [p Hp]. exists p. split; [exact Hp|]. intros fns E. destruct (setup_i M31 0 2) as (S1 & S2 & S3).
  apply (C47_complete M31 fns E 7 0 tk_i tv_i qk_i qr_i [4; 5] 1 1 p (map ofZ [5; 6; 7; 8; 0; 2; 9]%Z) (rows_i M31) [[ofZ 6; ofZ 8]; [ofZ 6; ofZ 8]] [1; 1]).
  - reflexivity.
  - intros X; discriminate X.
  - reflexivity.
  - lia.
  - exact S3.
  - repeat constructor.
  - exact S1.
  - constructor; [reflexivity|]. constructor; [reflexivity|constructor].
  - constructor; [reflexivity|]. constructor; [reflexivity|constructor].
  - exact S2.
  - exact Hp.
Qed.
(* a query that is no row: not accepted with every randomness *)
Example C47_sound_instance : exists p : Prog M31, lookup_circuit (7 + 0) tk_i tv_i qk_i [[3]; [6]] [4; 5] = Some p /\
  forall fns (E : Env M31) a b, (forall r, e_rnd E r) -> ~ (forall outs bb, main fns E 0 p (map ofZ [5; 6; 7; 8; a; b; 9]%Z) outs bb -> bb = true).
Proof.
  destruct (no_panic_i [[3]; [6]] (or_intror eq_refl)) as [p Hp]. exists p. split; [exact Hp|]. intros fns E a b HE H. destruct (setup_i M31 a b) as (S1 & S2 & S3).
  assert (I : Forall (fun q => In q (rows_i M31)) [[ofZ 6; ofZ 8]; [ofZ 6; ofZ 9]]).
  { apply (C47_sound M31 fns E 7 0 tk_i tv_i qk_i [[3]; [6]] [4; 5] 1 1 p (map ofZ [5; 6; 7; 8; a; b; 9]%Z) (rows_i M31) [[ofZ 6; ofZ 8]; [ofZ 6; ofZ 9]] [ofZ a; ofZ b]).
    - reflexivity.
    - intros X; discriminate X.
    - reflexivity.
    - lia.
    - exact S3.
    - repeat constructor.
    - exact S1.
    - constructor; [reflexivity|]. constructor; [reflexivity|constructor].
    - exact S2.
    - reflexivity.
    - exact Hp.
    - reflexivity.
    - exact HE.
    - exact H. }
  inversion I as [|x l I1 I2]. inversion I2 as [|x' l' I3 I4]. unfold rows_i in I3. destruct I3 as [Q|[Q|[]]]; apply (f_equal (map toZ)) in Q; vm_compute in Q; discriminate.
Qed.
