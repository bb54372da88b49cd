(* C33, C34: the frontend.  The specification of what a program means ([api_fun], [api_sem], [stmts], [prog], [main]) is ApiSpec.v. *)
From Verif Require Import Prelude Field Zp Expr Hints Ir IrFacts IrInst Sim ApiSpec Frontend ApiFacts FrontFacts FrontSim DebugFacts FrontProg PropIr.
From Coq Require Import NArith Arith.Cantor.
Open Scope nat_scope.

(* hypotheses of the theorems, in words:
   - the bit length used by gt/geq covers the field: Config::FIELD_SIZE 256 with a modulus of at most 254 bits, 32 with at most 31;
   - the first eight bytes of the keccak hash of function type and argument count do not collide, and are not zero (the root's id);
   - functions passed to memorized_simple_call capture nothing, so that their type determines them (see C33_captures_refuted) *)
Definition size_fits (F : Fld) (fsize : nat) : Prop := (fsize = 256 -> (fmod F <= 2 ^ 254)%Z) /\ (fsize = 32 -> (fmod F <= 2 ^ 31)%Z).
Definition no_collision (hash : nat -> nat -> N) (low : N -> nat) : Prop :=
  (forall ty n ty' n', low (hash ty n) = low (hash ty' n') -> ty = ty' /\ n = n') /\ (forall ty n, low (hash ty n) <> 0).
Definition captures_nothing {F} (fns : nat -> nat -> nat -> Prog F) : Prop := forall ty cap n, fns ty cap n = fns ty 0 n.
(* unconstrained_identity records the builtin hint Identity (hints/builtin.rs): the hint of the environment is that one *)
Definition identity_hint {F : Fld} (E : Env F) : Prop := forall x outs, hint_sem F E (builtin_id HIdentity) 1 [x] outs <-> outs = [x].
Lemma size_fits_ok F fsize : size_fits F fsize -> size_ok (F := F) fsize.
Proof.
  intros [H1 H2] n Hn. unfold num_bits in Hn. destruct (Nat.eqb_spec fsize 256) as [e|_]; [injection Hn as <-; exact (H1 e)|]. destruct (Nat.eqb_spec fsize 32) as [e|_]; [injection Hn as <-; exact (H2 e)|discriminate].
Qed.
Lemma no_collision_inj hash low : no_collision hash low -> forall ty n ty' n', hash ty n = hash ty' n' -> ty = ty' /\ n = n'.
Proof. intros [H _] ty n ty' n' E. apply H. congruence. Qed.

(* ======================= C33 ======================= *)
(* the recorded circuit is well formed and its runs are exactly the runs of the program as the API documents them, for all inputs, hint
   answers and random values, including which runs have all assertions satisfied and which have no result (an error) *)
Theorem C33_recorded_circuit : forall F fsize fns hash low fuel n npub p (rc : RootCircuit (SrcI F)),
  size_fits F fsize -> no_collision hash low -> captures_nothing fns ->
  record fsize fns hash low fuel n npub p = Some rc ->
  wf_root _ rc /\ num_public_inputs rc = npub /\ (exists c0, lookup 0 (circuits rc) = Some c0 /\ num_inputs c0 = n) /\
  forall E, identity_hint E -> forall ins outs b, root_run _ E rc ins outs b <-> length ins = n /\ main fns E npub p ins outs b.
Proof.
  intros F fsize fns hash low fuel n npub p rc H1 H2 H3 H. destruct (record_ok fsize fns hash low (size_fits_ok _ _ H1) (no_collision_inj _ _ H2) H3 (proj2 H2) fuel n npub p rc H) as (A & B & C & D). auto.
Qed.
Print Assumptions C33_recorded_circuit.
(* recording panics only on programs that no input satisfies: constant folding reports an error only where the run would;
   [sup]: gt and geq are used with a supported field size only, hints are given variables *)
Theorem C33_recording_succeeds : forall F fsize fns hash low n npub p (E : Env F) ins outs,
  size_fits F fsize -> no_collision hash low -> captures_nothing fns -> sup fsize p -> (forall ty n, sup fsize (fns ty 0 n)) ->
  identity_hint E -> length ins = n -> main fns E npub p ins outs true ->
  exists fuel0, forall fuel, fuel0 <= fuel -> exists rc, record fsize fns hash low fuel n npub p = Some rc.
Proof. intros F fsize fns hash low n npub p E ins outs H1 H2 H3 Hp Hf HE Hl Hm. eapply record_some; eauto. apply size_fits_ok; auto. apply H2. Qed.
Print Assumptions C33_recording_succeeds.

(* a program over the integers modulo 7: a function of two arguments called twice, a comparison, constants folded, an assertion *)
Definition hash33 (ty n : nat) : N := N.of_nat (to_nat (ty, n)).
Definition low33 (h : N) : nat := S (N.to_nat h).
Lemma no_collision33 : no_collision hash33 low33.
Proof.
  split; [|discriminate]. intros ty n ty' n' H. unfold low33, hash33 in H. rewrite !Nat2N.id in H. injection H as H.
  assert (E : (ty, n) = (ty', n')) by (apply to_nat_inj; exact H). injection E as -> ->. auto.
Qed.
Definition fns33 (ty cap n : nat) : Prog F7 :=
  match ty with
  | 0 => {| p_body := [SOp (OBin BMul (AV 0) (AV 1)); SOp (OBin BAdd (AV 2) (AK (fz 3)))]; p_outs := [3; 2] |}
  | _ => {| p_body := []; p_outs := [] |}
  end.
(* inputs 0 and 1; handles 2, 3: f(x0, x1); 4, 5: f(h2, x0); 6: x0 > x1; 7: 5 - 5; 8: h7 * h4; 9: h7 == 0; 10: h6 or h9; 11: x0 + 1, unconstrained *)
Definition p33 : Prog F7 :=
  {| p_body := [SFn 0 0 [0; 1]; SFn 0 0 [2; 0]; SOp (OGt (AV 0) (AV 1)); SOp (OBin BSub (AK (fz 5)) (AK (fz 5))); SOp (OBin BMul (AV 7) (AV 4));
                SOp (OIsZero (AV 7)); SOp (OBin (BBool BOr) (AV 6) (AV 9)); SOp (OAssertDiff (AV 0) (AV 1)); SOp (OUAdd (AV 0) (AK (fz 1)))];
     p_outs := [2; 3; 4; 5; 6; 8; 9; 10; 11] |}.
(* an oracle with the identity hint *)
Definition o33 : Oracle F7 := {| o_pub := fun _ => f0; o_gate := fun _ _ => f0; o_hint := fun _ _ l => Some l; o_rnd := fun _ => f1 |}.
Lemma o33_identity : identity_hint (env_of o33).
Proof. intros x outs. unfold hint_sem, env_of. cbn. split; [intros [_ E]; injection E as <-; auto|intros ->; auto]. Qed.
Definition size7 : size_fits F7 32. Proof. split; intros H; [discriminate|]. vm_compute. discriminate. Qed.
Lemma captures33 : captures_nothing fns33. Proof. intros [|ty] cap n; reflexivity. Qed.
Definition rec33 : option (RootCircuit (SrcI F7)) := record 32 fns33 hash33 low33 3 2 0 p33.
Definition shape33 (r : option (RootCircuit (SrcI F7))) : option (list (nat * nat * nat)) :=
  option_map (fun rc => map (fun e => (fst e, length (instructions (snd e)), length (constraints (snd e)))) (circuits rc)) r.
Example C33_instance : shape33 rec33 = Some [(0, 232, 1); (6, 3, 0)].
Proof. vm_compute. reflexivity. Qed.
Example C33_instance_values : option_map (fun rc => resz (eval_root _ o33 rc [fz 5; fz 2])) rec33 = Some (Ok ([6; 3; 5; 2; 1; 0; 1; 1; 6]%Z, true)).
Proof. vm_compute. reflexivity. Qed.
(* so the hypotheses of both theorems are met: this program does run *)
Example C33_instance_main : main fns33 (env_of o33) 0 p33 [fz 5; fz 2] (map fz [6; 3; 5; 2; 1; 0; 1; 1; 6]%Z) true.
Proof.
  apply (debug_sound 32 fns33 o33 (size_fits_ok _ _ size7) 3).
  assert (H : option_map zs (debug_run 32 fns33 o33 3 0 p33 [fz 5; fz 2]) = Some [6; 3; 5; 2; 1; 0; 1; 1; 6]%Z) by (vm_compute; reflexivity).
  destruct (debug_run 32 fns33 o33 3 0 p33 [fz 5; fz 2]) as [l|]; [|discriminate]. cbn [option_map] in H. injection H as H. f_equal. apply zs_eq; auto.
Qed.

(* ======================= C34 ======================= *)
(* fuel bounds call depth: enough of it does not change the result *)
Lemma eval_insns_mono (F : Fld) (I : IRC F) (sub sub' : nat -> nat -> list F -> Res (list F * bool * nat)) O :
  (forall k id ins, sub k id ins <> OutOfFuel -> sub' k id ins = sub k id ins) ->
  forall is k vals cond, eval_insns I sub O k is vals cond <> OutOfFuel -> eval_insns I sub' O k is vals cond = eval_insns I sub O k is vals cond.
Proof.
  intros Hs. induction is as [|i is IH]; intros k vals cond H; cbn [eval_insns] in *; auto. destruct (forallb (inbb vals) (i_inputs i)); auto. destruct (i_call i) as [[[id l] n]|].
  - specialize (Hs k id (map (getv vals) l)). destruct (sub k id (map (getv vals) l)) as [[[outs b] k1]| | |] eqn:E; try (rewrite Hs by discriminate; auto). congruence.
  - destruct (i_eval O k i (getv vals)) as [[outs|] k1]; auto.
Qed.
Lemma eval_sub_mono (F : Fld) (I : IRC F) O cs : forall fuel fuel' k id ins, fuel <= fuel' -> eval_sub I fuel O cs k id ins <> OutOfFuel -> eval_sub I fuel' O cs k id ins = eval_sub I fuel O cs k id ins.
Proof.
  induction fuel as [|fuel IH]; intros fuel' k id ins Hf H; cbn [eval_sub] in *; [congruence|]. destruct fuel' as [|fuel']; [lia|]. cbn [eval_sub]. destruct (lookup id cs) as [c|]; auto.
  rewrite (eval_insns_mono F I (eval_sub I fuel O cs) (eval_sub I fuel' O cs)); auto.
  - intros k2 id2 ins2. apply IH. lia.
  - intros E. rewrite E in H. congruence.
Qed.
Lemma wf_eval_iff (F : Fld) (I : IRC F) (L : IRC_laws I) O r rc ins outs b : (forall j, o_rnd O j = r) -> wf_root I rc -> (root_run I (env_of O) rc ins outs b <-> eval_root I O rc ins = Ok (outs, b)).
Proof.
  intros Hr W. split; [|apply eval_root_run; auto]. intros (c & all & b0 & Hc & Hl & Hrun & Hz & -> & ->). unfold eval_root. rewrite Hc, Hl, Nat.eqb_refl.
  destruct (run_eval I L O r Hr _ _ _ _ _ Hrun) as [fuel He]. destruct (wf_bounded_rank I rc W) as (rank & R1 & R2).
  destruct (eval_sub_good I L O (circuits rc) rank (wr_cs _ _ W) R1 (length (circuits rc)) 0 0 ins c Hc Hl) as [G _]. { apply R2. apply lookup_keys. eauto. }
  destruct (He (Nat.max fuel (length (circuits rc))) 0 ltac:(lia)) as [k' Hk]. rewrite (eval_sub_mono F I O (circuits rc) (length (circuits rc))) in Hk; [|lia|intros E; rewrite E in G; exact G]. rewrite Hk.
  destruct (Nat.leb_spec (expected_num_output_zeroes rc) (length all)); [reflexivity|lia].
Qed.
Lemma wf_eval_good (F : Fld) (I : IRC F) (L : IRC_laws I) O rc ins c0 : wf_root I rc -> lookup 0 (circuits rc) = Some c0 -> length ins = num_inputs c0 ->
  (exists outs b, eval_root I O rc ins = Ok (outs, b)) \/ eval_root I O rc ins = Err.
Proof.
  intros W Hc Hl. unfold eval_root. rewrite Hc, Hl, Nat.eqb_refl. destruct (wf_bounded_rank I rc W) as (rank & R1 & R2). destruct (wr_root _ _ W) as (c & Hc' & Hz). rewrite Hc in Hc'. injection Hc' as <-.
  destruct (eval_sub_good I L O (circuits rc) rank (wr_cs _ _ W) R1 (length (circuits rc)) 0 0 ins c0 Hc Hl) as [G B]. { apply R2. apply lookup_keys. eauto. }
  destruct (eval_sub I (length (circuits rc)) O (circuits rc) 0 0 ins) as [[[res cond] k]| | |]; cbn in G; try contradiction; auto.
  specialize (B _ _ _ eq_refl). rewrite B. destruct (Nat.leb_spec (expected_num_output_zeroes rc) (length (outputs c0))); [|lia]. eauto.
Qed.
(* running the program under DebugBuilder gives outputs iff evaluating the recorded circuit gives these outputs with every constraint
   satisfied; otherwise it panics (None for every fuel).  Randomness: one value, the same for both (each run draws its own) *)
Theorem C34_debug_agrees : forall F fsize fns hash low fuel npub p (rc : RootCircuit (SrcI F)) (O : Oracle F) r ins outs,
  size_fits F fsize -> no_collision hash low -> captures_nothing fns ->
  record fsize fns hash low fuel (length ins) npub p = Some rc -> identity_hint (env_of O) -> (forall j, o_rnd O j = r) ->
  ((exists fuel, debug_run fsize fns O fuel npub p ins = Some outs) <-> eval_root _ O rc ins = Ok (outs, true)).
Proof.
  intros F fsize fns hash low fuel npub p rc O r ins outs H1 H2 H3 H HE Hr. destruct (C33_recorded_circuit _ _ _ _ _ _ _ _ _ _ H1 H2 H3 H) as (W & _ & _ & R).
  rewrite <- (wf_eval_iff F (SrcI F) (SrcL F) O r rc ins outs true Hr W). rewrite (R (env_of O) HE ins outs true). split.
  - intros [f Hd]. split; auto. eapply debug_sound; eauto. apply size_fits_ok; auto.
  - intros [_ Hm]. destruct (debug_complete fsize fns O (size_fits_ok _ _ H1) r npub p ins outs Hr Hm) as [f Hf]. exists f. apply Hf. lia.
Qed.
Print Assumptions C34_debug_agrees.
(* it panics exactly when the recorded circuit has no result with all constraints satisfied *)
Theorem C34_panics_exactly : forall F fsize fns hash low fuel npub p (rc : RootCircuit (SrcI F)) (O : Oracle F) r ins,
  size_fits F fsize -> no_collision hash low -> captures_nothing fns ->
  record fsize fns hash low fuel (length ins) npub p = Some rc -> identity_hint (env_of O) -> (forall j, o_rnd O j = r) ->
  ((forall fuel, debug_run fsize fns O fuel npub p ins = None) <-> (eval_root _ O rc ins = Err \/ exists outs, eval_root _ O rc ins = Ok (outs, false))).
Proof.
  intros F fsize fns hash low fuel npub p rc O r ins H1 H2 H3 H HE Hr. pose proof (fun outs => C34_debug_agrees F fsize fns hash low fuel npub p rc O r ins outs H1 H2 H3 H HE Hr) as A.
  destruct (C33_recorded_circuit _ _ _ _ _ _ _ _ _ _ H1 H2 H3 H) as (W & _ & (c0 & Hc & Hn) & _). split.
  - intros Hd. destruct (wf_eval_good F (SrcI F) (SrcL F) O rc ins c0 W Hc ltac:(congruence)) as [(outs & b & E)|E]; [|auto]. destruct b; [|eauto].
    exfalso. destruct (proj2 (A outs) E) as [f Hf]. rewrite Hd in Hf. discriminate.
  - intros [Hx|[outs Hx]] f; destruct (debug_run fsize fns O f npub p ins) as [o|] eqn:Ed; auto; rewrite (proj1 (A o) (ex_intro _ f Ed)) in Hx; congruence.
Qed.
Print Assumptions C34_panics_exactly.
(* with randomness that varies: a debug run that does not panic is a run of the recorded circuit *)
Theorem C34_debug_run_is_a_run : forall F fsize fns hash low fuel fuel' npub p (rc : RootCircuit (SrcI F)) (O : Oracle F) ins outs,
  size_fits F fsize -> no_collision hash low -> captures_nothing fns ->
  record fsize fns hash low fuel (length ins) npub p = Some rc -> identity_hint (env_of O) ->
  debug_run fsize fns O fuel' npub p ins = Some outs -> root_run _ (env_of O) rc ins outs true.
Proof.
  intros F fsize fns hash low fuel fuel' npub p rc O ins outs H1 H2 H3 H HE Hd. destruct (C33_recorded_circuit _ _ _ _ _ _ _ _ _ _ H1 H2 H3 H) as (_ & _ & _ & R).
  apply R; auto. split; auto. eapply debug_sound; eauto. apply size_fits_ok; auto.
Qed.
Print Assumptions C34_debug_run_is_a_run.
Example C34_instance : option_map zs (debug_run 32 fns33 o33 3 0 p33 [fz 5; fz 2]) = Some [6; 3; 5; 2; 1; 0; 1; 1; 6]%Z.
Proof. vm_compute. reflexivity. Qed.
Example C34_instance_panics : option_map zs (debug_run 32 fns33 o33 3 0 p33 [fz 5; fz 5]) = None /\ option_map (fun rc => resz (eval_root _ o33 rc [fz 5; fz 5])) rec33 = Some (Ok ([0; 4; 3; 0; 0; 0; 1; 1; 6]%Z, false)).
Proof. split; vm_compute; reflexivity. Qed.

(* ======================= what does not hold ======================= *)
(* memorized_simple_call identifies a function by its type and number of arguments only (builder.rs:695-703): a closure that captures a value is
   recorded once, for the first value, while DebugBuilder runs each: adding one and adding two *)
Definition fns_cap (ty cap n : nat) : Prog F7 := {| p_body := [SOp (OBin BAdd (AV 0) (AK (fz (Z.of_nat cap))))]; p_outs := [1] |}.
Definition p_cap : Prog F7 := {| p_body := [SFn 0 1 [0]; SFn 0 2 [0]]; p_outs := [1; 2] |}.
Theorem C33_captures_refuted : no_collision hash33 low33 /\ size_fits F7 32 /\
  exists rc, record 32 fns_cap hash33 low33 3 1 0 p_cap = Some rc /\
    eval_root _ o7 rc [fz 3] = Ok (map fz [4; 4]%Z, true) /\ debug_run 32 fns_cap o7 3 0 p_cap [fz 3] = Some (map fz [4; 5]%Z) /\
    main fns_cap (env_of o7) 0 p_cap [fz 3] (map fz [4; 5]%Z) true /\ ~ (exists b, root_run _ (env_of o7) rc [fz 3] (map fz [4; 5]%Z) b).
Proof.
  split; [exact no_collision33|]. split; [exact size7|].
  assert (H1 : option_map (fun rc => resz (eval_root _ o7 rc [fz 3])) (record 32 fns_cap hash33 low33 3 1 0 p_cap) = Some (Ok ([4; 4]%Z, true))) by (vm_compute; reflexivity).
  assert (H2 : option_map (validate _) (record 32 fns_cap hash33 low33 3 1 0 p_cap) = Some true) by (vm_compute; reflexivity).
  assert (H3 : option_map (fun rc => keys (circuits rc)) (record 32 fns_cap hash33 low33 3 1 0 p_cap) = Some [0; 3]) by (vm_compute; reflexivity).
  assert (H4 : option_map zs (debug_run 32 fns_cap o7 3 0 p_cap [fz 3]) = Some [4; 5]%Z) by (vm_compute; reflexivity).
  destruct (record 32 fns_cap hash33 low33 3 1 0 p_cap) as [rc|]; [|discriminate]. cbn [option_map] in H1, H2, H3. injection H1 as H1. injection H2 as H2. injection H3 as H3.
  destruct (debug_run 32 fns_cap o7 3 0 p_cap [fz 3]) as [l|] eqn:Ed; [|discriminate]. cbn [option_map] in H4. injection H4 as H4. apply zs_eq in H4. subst l. apply resz_ok in H1.
  exists rc. split; auto. split; auto. split; auto. split; [apply (debug_sound 32 fns_cap o7 (size_fits_ok _ _ size7) 3); auto|].
  intros [b Hr]. assert (W : wf_root _ rc). { apply validate_wf_root; auto. rewrite H3. repeat constructor; cbn; intuition discriminate. }
  apply (wf_eval_iff F7 (SrcI F7) (SrcL F7) o7 (o_rnd o7 0)) in Hr; auto. assert (Hx := eq_trans (eq_sym H1) Hr). injection Hx as Hr' _.
  assert (E : zs (map fz [4; 4]%Z : list F7) = zs (map fz [4; 5]%Z : list F7)) by (f_equal; cbn [map]; congruence). vm_compute in E. discriminate.
Qed.
(* gt and geq on a field whose FIELD_SIZE is neither 256 nor 32 panic while recording (builder.rs:478-482)
   although they run under DebugBuilder *)
Definition p_gt : Prog F7 := {| p_body := [SOp (OGt (AV 0) (AV 1))]; p_outs := [2] |}.
Theorem C33_field_size_refuted : size_fits F7 64 /\ captures_nothing fns33 /\
  main fns33 (env_of o7) 0 p_gt [fz 5; fz 2] (map fz [1]%Z) true /\ debug_run 64 fns33 o7 3 0 p_gt [fz 5; fz 2] = Some (map fz [1]%Z) /\
  forall fuel, record 64 fns33 hash33 low33 fuel 2 0 p_gt = None.
Proof.
  assert (S64 : size_fits F7 64) by (split; intros H; discriminate).
  assert (H4 : option_map zs (debug_run 64 fns33 o7 3 0 p_gt [fz 5; fz 2]) = Some [1]%Z) by (vm_compute; reflexivity).
  destruct (debug_run 64 fns33 o7 3 0 p_gt [fz 5; fz 2]) as [l|] eqn:Ed; [|discriminate]. cbn [option_map] in H4. injection H4 as H4. apply zs_eq in H4. subst l.
  split; auto. split; [apply captures33|]. split; [apply (debug_sound 64 fns33 o7 (size_fits_ok _ _ S64) 3); auto|]. split; auto.
Qed.
