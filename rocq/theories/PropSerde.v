(* Property theorems C22, C23, C24. *)
From Verif Require Import Prelude Field Zp InputMapping Expr Topo Hints Ir IrInst Layered Witness Serde SerdeFacts PropIr PropLayered PropPasses.
From Verif Require PropSolver.
Local Open Scope nat_scope.

(* the field elements fit their encoding, the modulus fits a U256 *)
Definition enc_ok (F : Fld) (w : nat) : Prop := (fmod F <= 256 ^ Z.of_nat w)%Z /\ (fmod F < 2 ^ 256)%Z.
(* a file: numbers below 256 *)
Definition is_file (l : bytes) : Prop := Forall (fun b => (b < 256)%N) l.

(* ======================= C22 ======================= *)
(* [fit_layered]: every number in the circuit is below 2^64 and, unless the circuit is a cross-layer one, segments have one
   input layer.  Reading back gives exactly the circuit and leaves exactly what follows it; cut short anywhere, the file is
   rejected. *)
Theorem C22_layered_round_trip : forall F w cross (c : LCircuit F), enc_ok F w -> fit_layered cross c ->
  (forall rest, de_layered w cross (ser_layered w cross c ++ rest) = Some (c, rest)) /\
  (forall p x, ser_layered w cross c = p ++ x -> x <> [] -> de_layered (F := F) w cross p = None).
Proof.
  intros F w cross c [H1 H2] Hc. split; [intros rest; apply rt_layered; auto|].
  intros p x E Hx. apply (RT_truncated (ser_layered w cross) (de_layered w cross) (fit_layered cross) c p x); auto; [apply rt_layered|apply PF_layered]; auto.
Qed.
Print Assumptions C22_layered_round_trip.
(* whatever is accepted carries the magic number and the modulus of the field at its head *)
Theorem C22_wrong_header_rejected : forall F w cross l (c : LCircuit F) r, enc_ok F w -> is_file l -> de_layered w cross l = Some (c, r) ->
  firstn 8 l = ser_u64 MAGIC /\ firstn 32 (skipn 8 l) = ser_u256 (fmod F).
Proof.
  intros F w cross l c r _ Hl H. destruct (layered_header w cross l c r Hl H) as [t ->]. split; [reflexivity|].
  change (skipn 8 (ser_u64 MAGIC ++ ser_u256 (fmod F) ++ t)) with (ser_u256 (fmod F) ++ t). reflexivity.
Qed.
Print Assumptions C22_wrong_header_rejected.
Theorem C22_other_field_rejected : forall F F' w w' cross cross' (c : LCircuit F) rest, enc_ok F w -> enc_ok F' w' -> fmod F <> fmod F' ->
  de_layered (F := F') w' cross' (ser_layered w cross c ++ rest) = None.
Proof.
  intros F F' w w' cross cross' c rest [H1 H2] [H3 H4] Hne. unfold de_layered, ser_layered. rewrite <- !app_assoc. unfold rbind at 1. rewrite rt_u64 by reflexivity. rewrite N.eqb_refl. cbn [negb].
  unfold rbind at 1. pose proof (fmod_pos F). rewrite rt_u256 by lia. rewrite (proj2 (Z.eqb_neq _ _)) by auto. reflexivity.
Qed.
Print Assumptions C22_other_field_rejected.
(* a field element of F7 on one byte *)
Lemma enc7 : enc_ok F7 1. Proof. split; vm_compute; [discriminate|reflexivity]. Qed.
Ltac fits := repeat first [exact I | progress cbn [length fst snd l_pub l_actual l_zeroes l_segs l_layers s_ins s_outs s_children s_muls s_adds s_consts s_customs g_in g_out g_coef fit_coef gt7 w0 il io a_in a_out]
  | match goal with |- fit _ => unfold fit; vm_compute; reflexivity end | apply Forall_nil | apply Forall_cons | split | reflexivity | intros; discriminate
  | progress unfold fit_list, fit_seg, fit_gate, fit_inp, fit_iu, fit_child, fit_alloc, c20_seg0, c20_seg1, c20_seg2].
Example C22_instance : fit_layered true c20_c /\ length (ser_layered 1 true c20_c) = 563 /\
  option_map (fun p => (length (l_segs (fst p)), l_layers (fst p), snd p)) (de_layered (F := F7) 1 true (ser_layered 1 true c20_c ++ [9; 9]%N)) = Some (3, [1; 2], [9; 9]%N).
Proof.
  split; [|split; vm_compute; reflexivity].
  unfold fit_layered, fit_list, c20_c. fits.
Qed.

(* ======================= C23 ======================= *)
(* the two serialisable stages with their instruction encodings *)
Definition same_map {A} (m m' : list (nat * A)) : Prop := forall id, lookup id m = lookup id m'.
Lemma lookup_perm {A} (m m' : list (nat * A)) : NoDup (keys m) -> Permutation m m' -> same_map m m'.
Proof.
  intros Hn Hp id. assert (Hn' : NoDup (keys m')) by (apply (Permutation_NoDup (l := keys m)); auto; apply Permutation_map; auto).
  destruct (lookup id m') as [c|] eqn:E.
  - apply lookup_In in E. apply In_lookup; auto. apply Permutation_in with m'; auto. symmetry; auto.
  - destruct (lookup id m) as [c|] eqn:E2; auto. apply lookup_In in E2. assert (lookup id m' = Some c) by (apply In_lookup; auto; apply Permutation_in with m; auto). congruence.
Qed.
(* [entries]: the order in which the hash map of circuits happens to be written.  What is read is the circuit written: the
   same counts and the same map (same entries, each circuit found under its number). *)
Theorem C23_source_round_trip : forall F w config (rc : RootCircuit (SrcI F)) entries, enc_ok F w -> fit config ->
  fit_root (SrcI F) fit_sinsn (fun c => fit (snd c)) rc -> NoDup (keys (circuits rc)) -> Permutation entries (circuits rc) ->
  (forall rest, exists rc', de_root (SrcI F) (de_sinsn w) de_scon config (ser_root (SrcI F) (ser_sinsn w) ser_scon config entries rc ++ rest) = Some (rc', rest) /\
     num_public_inputs rc' = num_public_inputs rc /\ expected_num_output_zeroes rc' = expected_num_output_zeroes rc /\
     Permutation (circuits rc') (circuits rc) /\ same_map (circuits rc') (circuits rc)) /\
  (forall p x, ser_root (SrcI F) (ser_sinsn w) ser_scon config entries rc = p ++ x -> x <> [] -> de_root (SrcI F) (de_sinsn w) de_scon config p = None) /\
  (forall config' rest, fit config' -> config' <> config ->
     de_root (SrcI F) (de_sinsn w) de_scon config' (ser_root (SrcI F) (ser_sinsn w) ser_scon config entries rc ++ rest) = None).
Proof.
  intros F w config rc entries [H1 H2] Hf Hfit Hnd Hp.
  assert (HR : forall rest, de_root (SrcI F) (de_sinsn w) de_scon config (ser_root (SrcI F) (ser_sinsn w) ser_scon config entries rc ++ rest) =
     Some ({| num_public_inputs := num_public_inputs rc; expected_num_output_zeroes := expected_num_output_zeroes rc; circuits := entries |}, rest)).
  { intros rest. apply (rt_root (SrcI F) _ _ _ _ fit_sinsn (fun c => fit (snd c))); auto using rt_scon. apply rt_sinsn; auto. }
  split; [|split].
  - intros rest. eexists. split; [apply HR|]. cbn. split; auto. split; auto. split; auto. apply lookup_perm; auto.
    apply (Permutation_NoDup (l := keys (circuits rc))); auto. apply Permutation_map. symmetry; auto.
  - intros p x E Hx. destruct (de_root (SrcI F) (de_sinsn w) de_scon config p) as [[b r]|] eqn:D; auto. exfalso.
    assert (HP : PF (de_root (SrcI F) (de_sinsn w) de_scon config)) by (apply PF_root; [apply PF_sinsn|apply PF_scon]).
    destruct (HP _ _ _ D) as [q [-> Hq]]. specialize (HR []). rewrite app_nil_r, E, <- app_assoc, Hq in HR. injection HR as _ HR. destruct r; [|discriminate]. destruct x; [contradiction|discriminate].
  - intros config' rest Hf' Hne. unfold de_root, ser_root. rewrite <- !app_assoc. unfold rbind at 1. rewrite rt_usize by auto. rewrite (proj2 (Nat.eqb_neq _ _)) by auto. reflexivity.
Qed.
Print Assumptions C23_source_round_trip.
Theorem C23_hint_normalized_round_trip : forall F w config (rc : RootCircuit (HnI F)) entries, enc_ok F w -> fit config ->
  fit_root (HnI F) fit_hinsn fit rc -> NoDup (keys (circuits rc)) -> Permutation entries (circuits rc) ->
  (forall rest, exists rc', de_root (HnI F) (de_hinsn w) de_usize config (ser_root (HnI F) (ser_hinsn w) ser_usize config entries rc ++ rest) = Some (rc', rest) /\
     num_public_inputs rc' = num_public_inputs rc /\ expected_num_output_zeroes rc' = expected_num_output_zeroes rc /\
     Permutation (circuits rc') (circuits rc) /\ same_map (circuits rc') (circuits rc)) /\
  (forall p x, ser_root (HnI F) (ser_hinsn w) ser_usize config entries rc = p ++ x -> x <> [] -> de_root (HnI F) (de_hinsn w) de_usize config p = None) /\
  (forall config' rest, fit config' -> config' <> config ->
     de_root (HnI F) (de_hinsn w) de_usize config' (ser_root (HnI F) (ser_hinsn w) ser_usize config entries rc ++ rest) = None).
Proof.
  intros F w config rc entries [H1 H2] Hf Hfit Hnd Hp.
  assert (HR : forall rest, de_root (HnI F) (de_hinsn w) de_usize config (ser_root (HnI F) (ser_hinsn w) ser_usize config entries rc ++ rest) =
     Some ({| num_public_inputs := num_public_inputs rc; expected_num_output_zeroes := expected_num_output_zeroes rc; circuits := entries |}, rest)).
  { intros rest. apply (rt_root (HnI F) _ _ _ _ fit_hinsn fit); auto using rt_usize. apply rt_hinsn; auto. }
  split; [|split].
  - intros rest. eexists. split; [apply HR|]. cbn. split; auto. split; auto. split; auto. apply lookup_perm; auto.
    apply (Permutation_NoDup (l := keys (circuits rc))); auto. apply Permutation_map. symmetry; auto.
  - intros p x E Hx. destruct (de_root (HnI F) (de_hinsn w) de_usize config p) as [[b r]|] eqn:D; auto. exfalso.
    assert (HP : PF (de_root (HnI F) (de_hinsn w) de_usize config)) by (apply PF_root; [apply PF_hinsn|apply PF_usize]).
    destruct (HP _ _ _ D) as [q [-> Hq]]. specialize (HR []). rewrite app_nil_r, E, <- app_assoc, Hq in HR. injection HR as _ HR. destruct r; [|discriminate]. destruct x; [contradiction|discriminate].
  - intros config' rest Hf' Hne. unfold de_root, ser_root. rewrite <- !app_assoc. unfold rbind at 1. rewrite rt_usize by auto. rewrite (proj2 (Nat.eqb_neq _ _)) by auto. reflexivity.
Qed.
Print Assumptions C23_hint_normalized_round_trip.
(* input mappings *)
Theorem C23_input_mapping_round_trip : forall m rest, fit (next_size m) -> fit_list fit (mapping m) ->
  de_mapping (ser_mapping m ++ rest) = Some (m, rest).
Proof. intros m rest H1 H2. apply rt_mapping; auto. Qed.
Print Assumptions C23_input_mapping_round_trip.
Definition c23_src : RootCircuit (SrcI F7) :=
  {| num_public_inputs := 1; expected_num_output_zeroes := 0;
     circuits := [(0, {| instructions := [SCall 7 [1; 2] 1; SConst (CPub 0); SDiv 3 4 true; SUnOp 1 2 UBitXor; SBool 1 2 BOr; SHint 5%N [1; 2] 3] : list (Insn (SrcI F7));
                         constraints := [(TNonZero, 3) : Con (SrcI F7)]; outputs := [4; 5]; num_inputs := 2 |});
                  (7, {| instructions := [SLin {| lc_terms := [(1, fz 2); (2, fz 6)]; lc_const := fz 3 |}; SToBin 3 4] : list (Insn (SrcI F7));
                         constraints := [(TBool, 1) : Con (SrcI F7)]; outputs := [3]; num_inputs := 2 |})] |}.
Ltac fitir := repeat first [exact I | progress cbn [length fst snd num_public_inputs expected_num_output_zeroes circuits instructions constraints outputs num_inputs fit_sinsn fit_hinsn fit_coef lc_terms]
  | match goal with |- fit _ => unfold fit; vm_compute; reflexivity | |- fit_h _ => unfold fit_h; vm_compute; reflexivity end | apply Forall_nil | apply Forall_cons | split | progress unfold fit_circuit, fit_lc, fit_list].
Example C23_instance :
  fit_root (SrcI F7) fit_sinsn (fun c => fit (snd c)) c23_src /\ NoDup (keys (circuits c23_src)) /\
  fit_root (HnI F7) fit_hinsn fit PropSolver.c12_rc /\ NoDup (keys (circuits PropSolver.c12_rc)) /\
  length (ser_root (SrcI F7) (ser_sinsn 1) ser_scon 5 (rev (circuits c23_src)) c23_src) = 345 /\
  option_map (fun p => (keys (circuits (fst p)), snd p))
    (de_root (HnI F7) (de_hinsn 1) de_usize 2 (ser_root (HnI F7) (ser_hinsn 1) ser_usize 2 (rev (circuits PropSolver.c12_rc)) PropSolver.c12_rc ++ [3%N])) = Some ([1; 0], [3%N]).
Proof.
  split; [|split; [|split; [|split; [|split]]]].
  - unfold fit_root, c23_src. fitir.
  - cbn. repeat constructor; cbn; lia.
  - unfold fit_root, PropSolver.c12_rc. fitir.
  - cbn. repeat constructor; cbn; lia.
  - vm_compute. reflexivity.
  - vm_compute. reflexivity.
Qed.

(* ======================= C24 ======================= *)
(* [wit_ok]: as many values as the counts say (scalars, or ceil(n / PACK_SIZE) packed records).  What is read has the same
   counts and the same sequence of witnesses (private and public values of each); a scalar witness that needs no packing comes
   back exactly, one that does comes back exactly as convert_to_simd packs it. *)
Theorem C24_witness_round_trip : forall F w P (x : @Witness F), enc_ok F w -> 0 < P -> wit_ok P x -> fit_wit x ->
  (1 < num_witnesses x /\ 1 < P -> 0 < nin x + npub x) ->
  exists b, ser_witness w P x = Some b /\
    (forall rest, exists x', de_witness w P (b ++ rest) = Some (x', rest) /\
      num_witnesses x' = num_witnesses x /\ nin x' = nin x /\ npub x' = npub x /\
      iter_scalar P x <> None /\ iter_scalar P x' = iter_scalar P x /\
      (~ (1 < num_witnesses x /\ 1 < P) -> (exists vs, values x = Scalar vs) -> x' = x) /\
      (1 < num_witnesses x /\ 1 < P -> (exists vs, values x = Scalar vs) -> convert_to_simd P x = Some x')) /\
    (forall p y, b = p ++ y -> y <> [] -> de_witness (F := F) w P p = None).
Proof.
  intros F w P x [H1 H2] HP Hok Hfit Hpos.
  assert (Hu : use_simd P (num_witnesses x) = true <-> 1 < num_witnesses x /\ 1 < P).
  { unfold use_simd. rewrite andb_true_iff, !Nat.ltb_lt. tauto. }
  destruct (rt_witness w H1 H2 P HP x Hok Hfit) as [b [Hb HR]]; [intros E; apply Hpos, Hu; auto|]. exists b. split; auto.
  split.
  - intros rest. destruct (HR rest) as [x' [E1 [E2 [E3 [E4 [E5 [E6 [E7 E8]]]]]]]]. exists x'. split; auto. split; auto. split; auto. split; auto. split; auto. split; auto. split.
    + intros Hn [vs Hv]. destruct (values x') as [vs'|] eqn:Ev; [|exfalso; apply Hn, Hu; auto]. destruct E7 as [_ E7]. rewrite Hv in E7. subst vs'. destruct x, x'; cbn in *; subst; auto.
    + intros Hs [vs Hv]. apply (E8 (proj2 Hu Hs) vs Hv).
  - intros p y E Hy. destruct (de_witness w P p) as [[z r]|] eqn:D; auto. exfalso. destruct (PF_witness w P _ _ _ D) as [q [-> Hq]].
    destruct (HR []) as [x' [E1 _]]. rewrite app_nil_r, E, <- app_assoc, Hq in E1. injection E1 as _ E1. destruct r; [|discriminate]. destruct y; [contradiction|discriminate].
Qed.
Print Assumptions C24_witness_round_trip.
(* a packed witness comes back exactly, block by block *)
Theorem C24_packed_witness_exact : forall F w P (x y : @Witness F) vs, enc_ok F w -> 1 < P -> values x = Scalar vs -> wit_ok P x -> fit_wit x ->
  1 < num_witnesses x -> 0 < nin x + npub x -> convert_to_simd P x = Some y ->
  exists b, ser_witness w P y = Some b /\ forall rest, de_witness w P (b ++ rest) = Some (y, rest).
Proof.
  intros F w P x y vs He HP Hv Hok Hfit Hn Hpos Hc.
  unfold wit_ok in Hok. rewrite Hv in Hok. pose proof (convert_spec P x vs Hv ltac:(lia) Hpos Hok) as [y' [C1 [C2 [C3 [C4 [C5 [_ [vs' [C6 _]]]]]]]]]. rewrite Hc in C1. injection C1 as <-.
  destruct (C24_witness_round_trip F w P x He ltac:(lia)) as [b [Hb [HR _]]]; auto; [unfold wit_ok; rewrite Hv; auto|].
  exists b. split.
  - rewrite <- Hb. unfold ser_witness. rewrite C6, Hv. rewrite C5. unfold iter_scalar. rewrite (sc_items_scalar P x vs Hv) by lia. cbn [obind]. rewrite C2, C3, C4. do 6 f_equal.
    rewrite flat_map_concat_map, map_map. cbn [fst snd].
    set (m := nin x + npub x) in *. rewrite (map_ext _ (fun i => firstn m (skipn (i * m) vs))).
    2: { intros i. rewrite (Nat.add_comm (i * m)), <- skipn_skipn. set (s := skipn (i * m) vs). rewrite <- (firstn_skipn (nin x) (firstn m s)). f_equal.
         - rewrite firstn_firstn. f_equal. unfold m. lia.
         - rewrite skipn_firstn_comm. f_equal. unfold m. lia. }
    clear -Hok. revert vs Hok. induction (num_witnesses x) as [|n IH]; intros vs Hl; [destruct vs; [auto|discriminate]|]. cbn [seq map concat Nat.mul skipn].
    rewrite <- seq_shift, map_map. rewrite (map_ext _ (fun i => firstn m (skipn (i * m) (skipn m vs)))).
    2: { intros i. rewrite skipn_skipn. do 2 f_equal. lia. }
    rewrite IH; [apply firstn_skipn|]. rewrite skipn_length, Hl. lia.
  - intros rest. destruct (HR rest) as [z [E1 [_ [_ [_ [_ [_ [_ E]]]]]]]]. rewrite (E (conj Hn HP) (ex_intro _ vs Hv)) in Hc. injection Hc as <-. auto.
Qed.
Print Assumptions C24_packed_witness_exact.
Theorem C24_other_field_rejected : forall F F' w w' P P' (x : @Witness F) b rest, enc_ok F w -> enc_ok F' w' -> fit_wit x -> fmod F <> fmod F' ->
  ser_witness w P x = Some b -> de_witness (F := F') w' P' (b ++ rest) = None.
Proof.
  intros F F' w w' P P' x b rest [H1 H2] [H3 H4] [A1 [A2 A3]] Hne Hb. unfold ser_witness in Hb. destruct (match values x with Scalar _ => _ | SimdV _ => _ end) as [vs|]; [|discriminate]. cbn [obind] in Hb.
  match type of Hb with Some ?t = _ => assert (Hbe : b = t) by congruence end. rewrite Hbe.
  unfold de_witness. rewrite <- !app_assoc. do 3 (unfold rbind at 1; rewrite rt_usize by auto). unfold rbind at 1. pose proof (fmod_pos F). rewrite rt_u256 by lia.
  rewrite (proj2 (Z.eqb_neq _ _)) by auto. reflexivity.
Qed.
Print Assumptions C24_other_field_rejected.
Theorem C24_header : forall F w P l (x : @Witness F) r, is_file l -> de_witness w P l = Some (x, r) -> firstn 32 (skipn 24 l) = ser_u256 (fmod F).
Proof.
  intros F w P l x r Hl H. destruct (witness_header w P l x r Hl H) as [t ->]. unfold ser_usize, ser_u64. 
  set (a := enc 8 _). set (b := enc 8 _). set (c := enc 8 _).
  change (skipn 24 (a ++ b ++ c ++ ser_u256 (fmod F) ++ t)) with (ser_u256 (fmod F) ++ t). reflexivity.
Qed.
Print Assumptions C24_header.
Example C24_instance : wit_ok 2 PropSolver.w7 /\ fit_wit PropSolver.w7 /\ (exists vs, values PropSolver.w7 = Scalar vs) /\
  option_map (@length N) (ser_witness 1 2 PropSolver.w7) = Some 65 /\
  (exists y, convert_to_simd 2 PropSolver.w7 = Some y /\ ser_witness 1 2 y = ser_witness 1 2 PropSolver.w7).
Proof.
  split; [reflexivity|]. split; [repeat split; unfold fit; vm_compute; reflexivity|]. split; [eexists; reflexivity|]. split; [vm_compute; reflexivity|].
  eexists. split; [reflexivity|]. vm_compute. reflexivity.
Qed.
