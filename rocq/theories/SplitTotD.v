(* Totality of ir_split.rs: split_to_single_layer does not panic. *)
From Verif Require Import Prelude Field Sorting Expr Topo Ir IrFacts IrInst Sim Builder BuilderFacts Kinds LaySched Layering IrSplit SplitCut SplitSegs SplitComb SplitRoot SplitTot SplitTotB SplitTotC.
From Coq Require Import Sorted.
Open Scope nat_scope.

Section LayD.
  Context {F : Fld}.
  Notation DI := (DestI F false).
  Notation Pool := (CPool (F := F)).
  Variables (random : bool) (cs : list (nat * Circuit DI)) (rank : nat -> nat).
  Hypothesis W : wf_circuits DI cs.
  Hypothesis R : ranked DI cs rank.
  Hypothesis U : forall id c, lookup id cs = Some c -> ~ In 0 (calls c).

  Lemma call_known id c o l n : lookup id cs = Some c -> In (DCall o l n) (instructions c) -> exists c', lookup o cs = Some c' /\ length l = num_inputs c' /\ n = length (outputs c') /\ rank o < rank id /\ o <> 0.
  Proof.
    intros Hc Hi. pose proof (wf_calls _ _ W _ _ Hc) as Hw. rewrite Forall_forall in Hw. destruct (Hw _ Hi o l n eq_refl) as [c' [A [B C]]]. exists c'. assert (Ho : In o (calls c)) by (eapply in_calls; [exact Hi|reflexivity]). split; auto. split; auto. split; auto. split; [eapply R; eauto|]. intros ->. exact (U _ _ Hc Ho).
  Qed.
  Lemma output_layers_total f : forall id c ins, lookup id cs = Some c -> rank id < f -> exists r, output_layers f cs id ins = Some r /\ length (fst r) = length (outputs c).
  Proof.
    induction f as [|f IH]; intros id c ins Hc Hr; [lia|]. cbn [output_layers]. rewrite Hc. cbn [obind]. destruct (layer_insns_total (output_layers f cs) (instructions c) (0 :: ins) []) as [ml' [cc' [A _]]].
    - apply Forall_forall. intros i Hi o l n -> ins' Hl. destruct (call_known _ _ _ _ _ Hc Hi) as [c' [B1 [B2 [B3 [B4 _]]]]]. destruct (IH o c' ins' B1) as [r [R1 R2]]; [lia|]. exists r. split; auto. congruence.
    - rewrite A. cbn [obind fst snd]. eexists. split; [reflexivity|]. cbn [fst]. apply map_length.
  Qed.
  Lemma sorted_strong l : Sorted lt l -> StronglySorted lt l.
  Proof. apply Sorted_StronglySorted. intros x y z. apply Nat.lt_trans. Qed.
  Lemma in_sort_layers l x : In x (sort_layers l) <-> In x l.
  Proof. unfold sort_layers. rewrite <- (nodup_In Nat.eq_dec l x). split; intros H; [eapply Permutation_in; [|exact H]; apply isort_perm|eapply Permutation_in; [|exact H]; apply Permutation_sym, isort_perm]. Qed.
  Lemma sort_layers_head l : In 0 l -> exists rest, sort_layers l = 0 :: rest.
  Proof.
    intros H. apply in_sort_layers in H. pose proof (sorted_strong _ (sort_layers_sorted l)) as Hs. destruct (sort_layers l) as [|x rest]; [destruct H|]. destruct H as [->|H]; eauto. exfalso. inversion Hs as [|? ? _ Hf]; subst. rewrite Forall_forall in Hf. specialize (Hf 0 H). lia.
  Qed.
  Lemma pick_vnew (vnew xs : list nat) : Forall (fun x => 0 < x < length vnew) xs -> omap (nth_error vnew) xs = Some (map (getn vnew) xs).
  Proof. induction 1 as [|x xs H H' IH]; auto. cbn [omap map]. rewrite (nth_error_nth' vnew 0) by lia. cbn [obind]. rewrite IH. auto. Qed.
  (* the expanded circuit *)
  Lemma expanded_total lf (rec : list nat -> nat -> list nat -> Pool -> option (Spl * Pool)) id c il at0 pool : lookup id cs = Some c -> length il = num_inputs c -> rank id < S lf -> (random = false -> constraints c = []) ->
    (forall at_ o c' n ol pool il', lookup o cs = Some c' -> o <> 0 -> rank o < rank id -> n = length (outputs c') -> length il' = num_inputs c' -> In 0 at_ -> output_layers lf cs o il' = Some ol -> sub_tot at_ (rec at_) o n il' ol pool) -> In 0 at0 ->
    exists c' add ml sc at_ pool' ol, expanded random (output_layers (S lf) cs) rec cs id il at0 pool = Some (c', add, ml, sc, at_, pool') /\ output_layers (S lf) cs id il = Some ol /\ at_ = sort_layers (at0 ++ il ++ fst ol ++ snd ol) /\
      constraints c' = [] /\ num_inputs c' = num_inputs c /\
      (id <> 0 -> lay anyU ml at_ (instructions c') (num_inputs c) sc /\ length ml = S (num_inputs c + nouts DI (instructions c')) /\ firstn (S (num_inputs c)) ml = 0 :: il /\
        Forall (fun o => 0 < o < length ml) (outputs c') /\ map (getn ml) (outputs c') = fst ol /\ Forall (fun x => num_inputs c < x < length ml /\ In (getn ml x) (snd ol)) add).
  Proof.
    intros Hc Hil Hr Hcn Hrec H0. pose proof (wf_each _ _ W _ _ Hc) as [W1 W2 W3]. set (nin := num_inputs c) in *.
    assert (Hoc : Forall (lrec_total (output_layers lf cs)) (instructions c)).
    { apply Forall_forall. intros i Hi o l n -> ins' Hl. destruct (call_known _ _ _ _ _ Hc Hi) as [c' [B1 [B2 [B3 [B4 _]]]]]. destruct (output_layers_total lf o c' ins' B1) as [r [R1 R2]]; [lia|]. exists r. split; auto. congruence. }
    destruct (layer_insns_total (output_layers lf cs) (instructions c) (0 :: il) [] Hoc) as [oml [cc [L1 L2]]]. cbn [length] in L2. set (ol := (map (getn oml) (outputs c), cc ++ map (fun x => S (getn oml x)) (constraints c))).
    assert (Hol : output_layers (S lf) cs id il = Some ol) by (cbn [output_layers]; rewrite Hc; cbn [obind]; rewrite L1; reflexivity).
    unfold expanded. rewrite Hol. cbn [obind]. set (at_ := sort_layers (at0 ++ il ++ fst ol ++ snd ol)). rewrite Hc. cbn [obind]. unfold expand. fold nin.
    set (P0 := {| p_vnew := _ |}).
    assert (HP0 : PI at_ il nin P0 (0 :: il) []).
    { constructor; cbn [P0 p_ml p_insns p_vnew p_sub p_sc length]; try constructor; try reflexivity.
      - cbn [nouts]. lia.
      - cbn [firstn]. f_equal. rewrite <- Hil. apply firstn_all.
      - rewrite seq_length. lia.
      - change (0 :: seq 1 nin) with (seq 0 (S nin)). unfold getn. rewrite seq_nth by lia. lia.
      - change (0 :: seq 1 nin) with (seq 0 (S nin)). unfold getn. rewrite seq_nth by lia. auto. }
    destruct (expand_total at_ il nin (output_layers lf cs) (output_layers (S lf) cs) (rec at_) (output_layers_mono cs lf (S lf) (Nat.le_succ_diag_r _)) (instructions c) P0 (0 :: il) [] oml cc L1 HP0) as [P [HP1 HP2]].
    { cbn; lia. }
    { cbn [length Nat.sub]. rewrite Nat.sub_0_r, Hil. auto. }
    { intros o l n il' ol' pool' Hi Hl' Ho. destruct (call_known _ _ _ _ _ Hc Hi) as [c' [B1 [B2 [B3 [B4 B5]]]]]. eapply Hrec; eauto; [congruence|]. apply in_sort_layers. apply in_or_app. auto. }
    rewrite HP1. cbn [obind]. destruct HP2 as [A1 A2 A3 A4 A5 A6].
    assert (Rv : forall xs, Forall (fun x => 0 < x <= nin + nouts DI (instructions c)) xs -> Forall (fun x => 0 < x < length oml) xs). { intros xs. apply Forall_impl. intros. lia. }
    rewrite (pick_vnew (p_vnew P) (constraints c)) by (rewrite A3; apply Rv; auto). cbn [obind]. rewrite (pick_vnew (p_vnew P) (outputs c)) by (rewrite A3; apply Rv; auto). cbn [obind].
    set (cns := map (getn (p_vnew P)) (constraints c)). set (outs := map (getn (p_vnew P)) (outputs c)).
    assert (Ro : Forall (fun o => 0 < o < length (p_ml P)) outs). { apply Forall_forall. intros o Ho. apply in_map_iff in Ho. destruct Ho as [x [<- Hx]]. specialize (Rv _ W3). rewrite Forall_forall in Rv. specialize (Rv x Hx). destruct (A4 x) as [B1 [B2 B3]]; [lia|]. split; [apply B2; lia|auto]. }
    assert (Mo : map (getn (p_ml P)) outs = fst ol). { unfold outs. rewrite map_map. cbn [ol fst]. apply map_ext_in. intros x Hx. apply A4. specialize (Rv _ W3). rewrite Forall_forall in Rv. specialize (Rv x Hx). lia. }
    assert (Rc : Forall (fun x => 0 < x < length (p_ml P) /\ In (S (getn (p_ml P) x)) (snd ol)) cns). { apply Forall_forall. intros o Ho. apply in_map_iff in Ho. destruct Ho as [x [<- Hx]]. specialize (Rv _ W2). rewrite Forall_forall in Rv. specialize (Rv x Hx). destruct (A4 x) as [B1 [B2 B3]]; [lia|]. split; [split; [apply B2; lia|auto]|]. rewrite B3. cbn [ol snd]. apply in_or_app. right. apply in_map_iff. exists x. auto. }
    destruct random eqn:Er.
    - destruct (comb (id =? 0) (p_ml P) (p_sub P) cns (maxl (p_ml P) + 10) 0 (p_insns P) (p_ml P) [] None) as [[insns ml] add] eqn:Ec. do 7 eexists. split; [reflexivity|]. split; [reflexivity|]. split; [reflexivity|]. split; [reflexivity|]. split; [reflexivity|]. cbn [instructions outputs]. intros Hid. rewrite (proj2 (Nat.eqb_neq id 0) Hid) in Ec.
      apply (comb_lay (p_ml P) (p_sub P) cns at_ (snd ol) (p_sc P) nin) in Ec; auto; [|eapply Forall_impl; [|exact A6]; cbn beta; intros x [B1 B2]; split; auto; apply in_or_app; auto|rewrite A1; lia|apply firstn_all|discriminate].
      destruct Ec as [C1 [C2 [C3 [C4 C5]]]]. split; auto. split; auto.
      assert (Hget : forall x, x < length (p_ml P) -> getn ml x = getn (p_ml P) x). { intros x Hx. rewrite <- C4. unfold getn. rewrite <- (firstn_skipn (length (p_ml P)) ml) at 1. apply app_nth1. rewrite firstn_length. lia. }
      split; [rewrite <- A2, <- C4, firstn_firstn; f_equal; lia|]. split; [eapply Forall_impl; [|exact Ro]; cbn beta; intros; lia|]. split; auto. rewrite <- Mo. apply map_ext_in. intros x Hx. apply Hget. rewrite Forall_forall in Ro. apply Ro. auto.
    - do 7 eexists. split; [reflexivity|]. split; [reflexivity|]. split; [reflexivity|]. split; [cbn [constraints]; unfold cns; rewrite (Hcn eq_refl); reflexivity|]. split; [reflexivity|]. cbn [instructions outputs]. intros Hid. split; auto.
  Qed.
  Lemma split_circuit_total : (random = false -> forall id c, lookup id cs = Some c -> constraints c = []) -> forall fuel at0 id c il pool ol f, lookup id cs = Some c -> id <> 0 -> rank id < fuel -> length il = num_inputs c -> In 0 at0 -> output_layers f cs id il = Some ol ->
    sub_tot at0 (split_circuit random fuel cs at0) id (length (outputs c)) il ol pool.
  Proof.
    intros Hcn. induction fuel as [|fuel IH]; intros at0 id c il pool ol f Hc Hid Hr Hil H0 Hol; [lia|]. unfold sub_tot. cbn [split_circuit]. rewrite (proj2 (Nat.eqb_neq id 0) Hid). cbn [negb guard obind].
    destruct (expanded_total fuel (split_circuit random fuel cs) id c il at0 pool Hc Hil Hr) as [c' [add [ml [sc [at_ [pool' [ol' [E1 [E2 [E3 [E4 [E5 E6]]]]]]]]]]]]; auto.
    { intros Hf. eapply Hcn; eauto. }
    { intros at1 o c1 n ol1 pool1 il1 B1 B2 B3 -> B4 B5 B6. eapply IH; eauto. lia. }
    assert (ol' = ol) by (eapply output_layers_det; eauto). subst ol'. rewrite E1. cbn [obind]. destruct (E6 Hid) as [L1 [L2 [L3 [L4 [L5 L6]]]]]. clear E6. rewrite E5.
    destruct (sort_layers_head (at0 ++ il ++ fst ol ++ snd ol)) as [rest Hh]; [apply in_or_app; auto|]. rewrite <- E3 in Hh.
    assert (Hin : forall x, In x at0 \/ In x il \/ In x (fst ol) \/ In x (snd ol) -> In x at_). { intros x Hx. rewrite E3. apply in_sort_layers. rewrite !in_app_iff. auto. }
    assert (Hml : ml = 0 :: il ++ skipn (S (num_inputs c)) ml). { rewrite <- (firstn_skipn (S (num_inputs c)) ml) at 1. rewrite L3. reflexivity. }
    assert (Hfi : firstn (num_inputs c) (tl ml) = il). { rewrite Hml. cbn [tl]. rewrite firstn_app, <- Hil, Nat.sub_diag, firstn_all. cbn [firstn]. apply app_nil_r. }
    destruct (cut_total (num_inputs c) (instructions c') (outputs c' ++ add) ml sc at_ pool' rest L1 L2 Hh) as [sp [pool2 [ints [C1 [C2 [C3 C4]]]]]].
    { rewrite E3. apply sorted_strong, sort_layers_sorted. }
    { rewrite Hml. reflexivity. }
    { intros j Hj. apply Hin. right. left. rewrite Hml. destruct j as [|j]; [lia|]. change (getn (0 :: il ++ skipn (S (num_inputs c)) ml) (S j)) with (getn (il ++ skipn (S (num_inputs c)) ml) j). rewrite getn_app1 by lia. apply nth_In. lia. }
    { intros o Ho. apply in_app_or in Ho. rewrite Forall_forall in L4, L6. destruct Ho as [Ho|Ho].
      - split; auto. apply Hin. right. right. left. rewrite <- L5. apply in_map. auto.
      - destruct (L6 o Ho) as [B1 B2]. split; [lia|]. apply Hin. auto. }
    rewrite Hfi in C3, C4. exists sp, pool2, ints. split; auto. split.
    { eapply segs_lay_le; [apply pool_le_refl| |exact C3]. intros x Hx. apply Hin. auto. }
    apply Forall2_app_inv_l in C4. destruct C4 as [r1 [r2 [F1 [F2 Es]]]]. assert (Ln : length (outputs c) = length r1). { rewrite <- (Forall2_len _ _ _ F1). rewrite <- (map_length (getn ml) (outputs c')), L5. destruct (output_layers_total (S fuel) id c il Hc Hr) as [q [Q1 Q2]]. rewrite E2 in Q1. injection Q1 as <-. auto. }
    rewrite Es, Ln, firstn_app, skipn_app, Nat.sub_diag, firstn_all, skipn_all. cbn [firstn skipn]. rewrite app_nil_r. cbn [app]. split.
    - rewrite <- L5. clear - F1. induction F1 as [|o r os rs [H _] F1 IH]; cbn [map]; constructor; auto.
    - clear - F2 L6. induction F2 as [|o r os rs [H H'] F1 IH]; constructor; inversion L6 as [|? ? [A1 A2] A3]; subst; auto. destruct (H' ltac:(lia)) as [k ->]. exists k, (getn ml o). auto.
  Qed.
End LayD.

Lemma split_total {F : Fld} random (rc : RootCircuit (DestI F false)) : wf_root (DestI F false) rc -> uncalled (DestI F false) 0 rc -> (random = false -> forall id c, lookup id (circuits rc) = Some c -> constraints c = []) ->
  exists rc', split_to_single_layer random rc = Some rc'.
Proof.
  intros Wr Hu Hcn. destruct (wf_bounded_rank _ rc Wr) as [rank [R Hb]]. destruct Wr as [W _ [c0 [Hc0 _]]]. unfold split_to_single_layer. rewrite Hc0. cbn [obind]. set (cs := circuits rc) in *.
  assert (Hr0 : forall id c, lookup id cs = Some c -> rank id < S (length cs)) by (intros id c H; specialize (Hb id); assert (In id (keys cs)) by (apply lookup_keys; eauto); specialize (Hb H0); lia).
  destruct (expanded_total random cs rank W R Hu (length cs) (split_circuit random (S (length cs)) cs) 0 c0 (repeat 0 (num_inputs c0)) [0] []) as [c' [add [ml [sc [at_ [pool' [ol' [E1 [E2 [E3 [E4 [E5 E6]]]]]]]]]]]]; auto.
  - apply repeat_length.
  - eapply Hr0; eauto.
  - intros Hf. eapply Hcn; eauto.
  - intros at1 o c1 n ol1 pool1 il1 B1 B2 B3 -> B4 B5 B6. eapply split_circuit_total; eauto.
  - left; auto.
  - rewrite E1. cbn [obind]. rewrite E4. cbn [length Nat.eqb guard obind]. eauto.
Qed.
