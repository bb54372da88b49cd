(* Runs under another environment or beside another root circuit; runs of circuits that draw nothing; the placed outputs (Compile.v) *)
From Verif Require Import Prelude Field InputMapping Expr Topo Ir IrFacts IrInst Hints Sim AddBack FixedPoint HintExport Kinds Compile E2E.

Section Runs.
  Context {F : Fld} (I : IRC F).
  Notation Circuit := (Circuit I).
  Lemma exec_gen (E E' : Env F) cs cs' : forall is vals vals' b,
    (forall i g outs, In i is -> i_call i = None -> i_sem E i g outs -> i_sem E' i g outs) ->
    (forall i o l m, In i is -> i_call i = Some (o, l, m) -> forall ins outs b, run I E cs o ins outs b -> run I E' cs' o ins outs b) ->
    exec I E cs is vals vals' b -> exec I E' cs' is vals vals' b.
  Proof.
    induction is as [|i is IH]; intros vals vals' b Hs Hc Hx.
    - apply exec_nil in Hx. apply exec_nil. auto.
    - apply exec_cons in Hx. apply exec_cons. destruct Hx as [outs [b1 [b2 [H1 [H2 H3]]]]]. exists outs, b1, b2. split; [|split; auto].
      + unfold step in *. destruct (i_call i) as [[[o l] m]|] eqn:Ec.
        * destruct H1 as [A B]. split; auto. eapply (Hc i o l m); eauto. left; auto.
        * destruct H1 as [A [B C]]. split; auto. split; auto. apply Hs; auto. left; auto.
      + apply IH; auto. * intros; apply Hs; auto. right; auto. * intros; eapply (Hc i0); eauto. right; auto.
  Qed.
  Lemma run_gen (E E' : Env F) cs cs' rank : ranked I cs rank ->
    forall id, (forall o c, (rank o <= rank id)%nat -> lookup o cs = Some c -> lookup o cs' = Some c /\ forall i g outs, In i (instructions c) -> i_call i = None -> i_sem E i g outs -> i_sem E' i g outs) ->
    forall ins outs b, run I E cs id ins outs b -> run I E' cs' id ins outs b.
  Proof.
    intros R. apply (rank_ind rank (fun id => (forall o c, (rank o <= rank id)%nat -> lookup o cs = Some c -> lookup o cs' = Some c /\ forall i g outs, In i (instructions c) -> i_call i = None -> i_sem E i g outs -> i_sem E' i g outs) ->
      forall ins outs b, run I E cs id ins outs b -> run I E' cs' id ins outs b)).
    intros id IH H ins outs b Hr. apply run_iff in Hr. destruct Hr as [c [vals [b0 [X1 [X2 [X3 [X4 [-> ->]]]]]]]]. destruct (H id c (le_n _) X1) as [Hc Hs]. apply run_iff. exists c, vals, b0. split; auto. split; auto.
    apply (exec_gen E E' cs cs'); auto. intros i o l m Hi Ec ins0 outs0 b1. assert (Hlt : (rank o < rank id)%nat) by (apply (R id c o X1); eapply in_calls; eauto). apply IH; auto. intros o' c' Hle. apply H. lia.
  Qed.
  (* runs do not depend on what the instructions do not use *)
  Lemma root_run_env (E E' : Env F) (rc : RootCircuit I) : wf_root I rc -> (forall id c i g outs, lookup id (circuits rc) = Some c -> In i (instructions c) -> i_call i = None -> i_sem E i g outs -> i_sem E' i g outs) ->
    forall ins outs b, root_run I E rc ins outs b -> root_run I E' rc ins outs b.
  Proof.
    intros [W [rank R] _] H ins outs b [c [all [b0 [A1 [A2 [A3 A4]]]]]]. exists c, all, b0. split; auto. split; auto. split; auto. apply (run_gen E E' _ _ rank R); auto. intros o c1 _ Hc. split; auto. intros i g outs0 Hi. eapply H; eauto.
  Qed.
  Lemma run_det_gen (E : Env F) cs rank : ranked I cs rank -> (forall id c i g o o', lookup id cs = Some c -> In i (instructions c) -> i_call i = None -> i_sem E i g o -> i_sem E i g o' -> o = o') ->
    forall id ins o b o' b', run I E cs id ins o b -> run I E cs id ins o' b' -> o = o' /\ b = b'.
  Proof.
    intros R Hd. apply (rank_ind rank (fun id => forall ins o b o' b', run I E cs id ins o b -> run I E cs id ins o' b' -> o = o' /\ b = b')).
    intros id IH ins o b o' b' A B. apply run_iff in A, B. destruct A as [c [v [b0 [A1 [A2 [_ [_ [-> ->]]]]]]]]. destruct B as [c' [v' [b0' [B1 [B2 [_ [_ [-> ->]]]]]]]].
    rewrite A1 in B1. injection B1 as <-.
    assert (Hx : forall is v0 v b v' b', incl is (instructions c) -> exec I E cs is v0 v b -> exec I E cs is v0 v' b' -> v = v' /\ b = b').
    { clear -IH R A1 Hd. induction is as [|i is IHi]; intros v0 v b v' b' Hin A B.
      - apply exec_nil in A, B. destruct A as [-> ->], B as [-> ->]. auto.
      - apply exec_cons in A, B. destruct A as [o1 [b1 [b2 [A1' [A2 ->]]]]]. destruct B as [o1' [b1' [b2' [B1 [B2 ->]]]]].
        assert (o1 = o1' /\ b1 = b1') as [<- <-].
        { unfold step in A1', B1. destruct (i_call i) as [[[sb l] n]|] eqn:Ec.
          - eapply IH; [|apply A1'|apply B1]. apply (R id c); auto. eapply in_calls; [apply Hin; left; reflexivity|exact Ec].
          - destruct A1' as [_ [A1' ->]], B1 as [_ [B1 ->]]. split; auto. eapply Hd; eauto. apply Hin. left; auto. }
        destruct (IHi _ _ _ _ _ (fun x Hx => Hin x (or_intror Hx)) A2 B2) as [-> ->]. auto. }
    destruct (Hx _ _ _ _ _ _ (incl_refl _) A2 B2) as [-> ->]. auto.
  Qed.
  Lemma root_run_det (E : Env F) (rc : RootCircuit I) : wf_root I rc -> (forall id c i g o o', lookup id (circuits rc) = Some c -> In i (instructions c) -> i_call i = None -> i_sem E i g o -> i_sem E i g o' -> o = o') ->
    forall ins o b o' b', root_run I E rc ins o b -> root_run I E rc ins o' b' -> o = o' /\ b = b'.
  Proof.
    intros [W [rank R] _] H ins o b o' b' [c [all [b0 [A1 [A2 [A3 [A4 [-> ->]]]]]]]] [c' [all' [b0' [B1 [B2 [B3 [B4 [-> ->]]]]]]]]. destruct (run_det_gen E _ rank R H 0 _ _ _ _ _ A3 B3) as [-> ->]. auto.
  Qed.
End Runs.

(* ------------------------------------------------------------ the placed outputs *)
Section Place.
  Context {F : Fld} (K : Config).
  Notation EM := (EMPTY K). Notation HI := (HnI F).
  (* the values [ins] are where [im] says in [v]; nothing is said of the other places *)
  Definition placed {T} (im : InputMapping) (ins v : list T) : Prop := length ins = cur_size im /\ length v = next_size im /\
    forall i s, nth_error (mapping im) i = Some s -> s <> EM -> nth_error v s = nth_error ins i.
  Lemma place_outputs_run (im : InputMapping) (rc rc' : RootCircuit HI) : wf_root HI rc -> in_range EM im -> injective EM im -> place_outputs K im rc = Some rc' ->
    expected_num_output_zeroes rc = 0 -> expected_num_output_zeroes rc' = 0 ->
    keys (circuits rc') = keys (circuits rc) /\ num_public_inputs rc' = num_public_inputs rc /\ (forall n, root_inputs rc n -> root_inputs rc' n) /\
    forall (E : Env F) ins w b, validate _ rc' = true -> root_run HI E rc ins w b -> exists v, root_run HI E rc' ins v b /\ placed im w v.
  Proof.
    intros W Hr Hi H Hz Hz'. unfold place_outputs in H. apply obind_some in H. destruct H as [c0 [Hc0 H]]. apply obind_some in H. destruct H as [po [Hpo H]]. injection H as <-. cbn [circuits num_public_inputs expected_num_output_zeroes] in *.
    split; [apply set_circuit_keys; apply lookup_keys; eauto|]. split; auto. split.
    { intros n [c [Hc <-]]. eexists. cbn [circuits]. rewrite set_circuit_lookup. cbn. split; [reflexivity|]. cbn. congruence. }
    intros E ins w b Hv [c [all [b0 [A1 [A2 [A3 [A4 [-> ->]]]]]]]]. rewrite Hc0 in A1. injection A1 as <-. rewrite Hz. cbn [skipn firstn forallb]. rewrite andb_true_r.
    destruct W as [W [rank R] _]. apply run_iff in A3. destruct A3 as [c1 [vals [b1 [B1 [B2 [B3 [B4 [-> ->]]]]]]]]. rewrite Hc0 in B1. injection B1 as <-.
    set (c0' := {| instructions := instructions c0; constraints := constraints c0; outputs := map (Nat.max 1) po; num_inputs := num_inputs c0 |}).
    set (rc' := {| num_public_inputs := num_public_inputs rc; expected_num_output_zeroes := expected_num_output_zeroes rc; circuits := set_circuit HI 0 c0' (circuits rc) |}).
    assert (Wr : wf_root HI rc'). { apply validate_wf_root; auto. cbn [circuits rc']. rewrite set_circuit_keys by (apply lookup_keys; eauto). apply W. }
    assert (Hc0' : lookup 0 (circuits rc') = Some c0') by (cbn [circuits rc']; rewrite set_circuit_lookup; reflexivity).
    pose proof (wf_each _ _ (wr_cs _ _ Wr) 0 c0' Hc0') as Wc.
    assert (Hx : exec HI E (circuits rc') (instructions c0) (f0 :: ins) vals b1).
    { eapply exec_gen; [| |exact B2]; [auto|]. intros i o l m Hin Ec ins0 outs0 b2. assert (Hlt : (rank o < rank 0)%nat) by (apply (R 0 c0 o Hc0); eapply in_calls; eauto).
      apply (run_gen HI E E _ _ rank R). intros o' c' Hle Hc'. split; auto. cbn [circuits rc']. rewrite set_circuit_lookup. destruct (Nat.eqb_spec o' 0); auto. subst. lia. }
    assert (Hlen : length vals = S (num_inputs c0 + nouts HI (instructions c0))).
    { pose proof (exec_len HI (HnL F) E (circuits rc') (instructions c0) _ _ _ (wf_calls _ _ (wr_cs _ _ Wr) 0 c0' Hc0') Hx) as Hl. rewrite Hl. cbn [length]. lia. }
    exists (map (getv vals) (map (Nat.max 1) po)). pose proof (map_inputs_len EM _ _ _ _ Hpo) as L1. destruct (map_inputs_spec EM 0 im (outputs c0) Hr L1) as [po' [P1 [P2 P3]]]. rewrite Hpo in P1. injection P1 as <-. split.
    - exists c0', (map (getv vals) (map (Nat.max 1) po)), (b1 && forallb (fun k : Con HI => c_verify k (getv vals (c_var k))) (constraints c0)). split; auto. split; [auto|]. split.
      + apply run_iff. exists c0', vals, b1. split; auto. split; auto. split; auto. split; auto. apply Forall_forall. intros x Hxx. pose proof (wf_out _ _ Wc) as Wo. rewrite Forall_forall in Wo. specialize (Wo x Hxx). unfold inb. cbn [c0' num_inputs instructions] in Wo. lia.
      + cbn [expected_num_output_zeroes skipn firstn forallb]. rewrite andb_true_r. split; [lia|auto].
    - split; [rewrite map_length; exact L1|]. split; [rewrite !map_length; auto|]. intros i s His Hs. destruct (map_inputs_delivers EM 0 im (outputs c0) po i s Hr Hi Hpo His Hs) as [D1 D2].
      rewrite !nth_error_map, D1. destruct (nth_error (outputs c0) i) as [x|] eqn:Ex; auto. cbn [option_map]. do 2 f_equal.
      pose proof (wf_out _ _ (wf_each _ _ W 0 c0 Hc0)) as Wo. rewrite Forall_forall in Wo. specialize (Wo x (nth_error_In _ _ Ex)). lia.
  Qed.
End Place.
