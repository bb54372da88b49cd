(* The shape shared by the passes that rewrite every circuit on its own: `for (id, circuit) in self.circuits.iter()`, keeping
   which circuits are called and with how many inputs and outputs. *)
From Verif Require Import Prelude Field Expr Topo Ir IrFacts Sim.

Section LocalPass.
  Context {F : Fld} (I I' : IRC F).
  Variable f : Circuit I -> option (Circuit I').

  Definition local_circuits (cs : list (nat * Circuit I)) : option (list (nat * Circuit I')) :=
    omap (fun p => let* c' := f (snd p) in Some (fst p, c')) cs.
  Definition local_pass (rc : RootCircuit I) : option (RootCircuit I') :=
    let* cs' := local_circuits (circuits rc) in
    Some {| num_public_inputs := num_public_inputs rc; expected_num_output_zeroes := expected_num_output_zeroes rc; circuits := cs' |}.

  Lemma local_lookup cs : forall cs', local_circuits cs = Some cs' -> keys cs' = keys cs /\
    forall id, match lookup id cs with Some c => exists c', f c = Some c' /\ lookup id cs' = Some c' | None => lookup id cs' = None end.
  Proof.
    unfold local_circuits. induction cs as [|[k c] cs IH]; intros cs' H; cbn [omap] in H.
    - injection H as <-. split; auto. intros id; cbn; auto.
    - apply obind_some in H. destruct H as [[k2 c2] [H1 H2]]. cbn [fst snd] in H1. apply obind_some in H1. destruct H1 as [c3 [H3 H4]]. injection H4 as -> ->.
      apply obind_some in H2. destruct H2 as [r [H5 H6]]. injection H6 as <-. destruct (IH r H5) as [A B]. split.
      + cbn. f_equal; auto.
      + intros id. cbn [lookup]. destruct (k2 =? id); eauto. apply B.
  Qed.
  (* same interface, and every call of the new circuit is a call of the old one with as many inputs and outputs *)
  Definition local_ok (c : Circuit I) (c' : Circuit I') : Prop :=
    wf_circuit I' c' /\ num_inputs c' = num_inputs c /\ length (outputs c') = length (outputs c) /\
    (forall i' o l' n, In i' (instructions c') -> i_call i' = Some (o, l', n) ->
       exists i l, In i (instructions c) /\ i_call i = Some (o, l, n) /\ length l' = length l).

  Lemma local_pass_wf (rc : RootCircuit I) : wf_root I rc ->
    (forall id c, lookup id (circuits rc) = Some c -> exists c', f c = Some c' /\ local_ok c c') ->
    exists rc', local_pass rc = Some rc' /\ local_circuits (circuits rc) = Some (circuits rc') /\ wf_root I' rc' /\ num_public_inputs rc' = num_public_inputs rc /\
      expected_num_output_zeroes rc' = expected_num_output_zeroes rc.
  Proof.
    intros [W [rank R] [c0 [Hc0 Hz]]] Hf. unfold local_pass. set (cs := circuits rc) in *.
    assert (Hex : exists cs', local_circuits cs = Some cs').
    { unfold local_circuits. assert (G : forall l, incl l cs -> exists r, omap (fun p => let* c' := f (snd p) in Some (fst p, c')) l = Some r).
      { induction l as [|[k c] l IH]; intros Hi; cbn [omap]; eauto. destruct (IH (fun x Hx => Hi x (or_intror Hx))) as [r Hr].
        destruct (Hf k c) as [c' [E _]]. { apply In_lookup; [apply W|apply Hi; left; auto]. }
        cbn [fst snd]. rewrite E. cbn [obind]. rewrite Hr. cbn [obind]. eauto. }
      apply G. apply incl_refl. }
    destruct Hex as [cs' Hcs']. rewrite Hcs'. cbn [obind]. destruct (local_lookup cs cs' Hcs') as [Hk Hl].
    assert (Hb : forall id c', lookup id cs' = Some c' -> exists c, lookup id cs = Some c /\ f c = Some c' /\ local_ok c c').
    { intros id c' H. specialize (Hl id). destruct (lookup id cs) as [c|] eqn:Ec; [|congruence]. destruct Hl as [c2 [A B]]. rewrite H in B. injection B as <-.
      destruct (Hf id c Ec) as [c3 [A3 B3]]. rewrite A in A3. injection A3 as <-. eauto. }
    eexists. split; [reflexivity|]. split; [reflexivity|]. cbn [num_public_inputs expected_num_output_zeroes]. split; auto. split; cbn [circuits expected_num_output_zeroes].
    - split.
      + rewrite Hk. apply W.
      + intros id c' H. destruct (Hb id c' H) as [c [_ [_ [A _]]]]. auto.
      + intros id c' H. destruct (Hb id c' H) as [c [Hc [_ [_ [_ [_ A]]]]]]. apply Forall_forall. intros i' Hi' o l' n Ec'. destruct (A i' o l' n Hi' Ec') as [i [l [B1 [B2 B3]]]].
        pose proof (wf_calls _ _ W _ _ Hc) as Wl. rewrite Forall_forall in Wl. destruct (Wl i B1 o l n B2) as [co [C1 [C2 C3]]].
        destruct (Hf o co C1) as [co' [D1 [_ [D2 [D3 _]]]]]. exists co'. specialize (Hl o). fold cs in C1. rewrite C1 in Hl. destruct Hl as [co2 [E1 E2]]. rewrite D1 in E1. injection E1 as <-. split; auto. split; congruence.
    - exists rank. intros id c' o H Ho. destruct (Hb id c' H) as [c [Hc [_ [_ [_ [_ A]]]]]]. apply calls_in in Ho. destruct Ho as [i' [l' [n [Hi' Ec']]]]. destruct (A i' o l' n Hi' Ec') as [i [l [B1 [B2 _]]]].
      eapply R; eauto. eapply in_calls; eauto.
    - destruct (Hf 0 c0 Hc0) as [c0' [A [_ [_ [B _]]]]]. exists c0'. specialize (Hl 0). fold cs in Hc0. rewrite Hc0 in Hl. destruct Hl as [c2 [A2 B2]]. rewrite A in A2. injection A2 as <-. split; auto. lia.
  Qed.

  (* ---------- behaviour; [fw]: every outcome of the old circuit is one of the new, [bw]: conversely ---------- *)
  Section Behaviour.
    Variable E : Env F.
    Variable cs : list (nat * Circuit I). Variable cs' : list (nat * Circuit I').
    Definition fwd (id : nat) : Prop := forall c ins outs b, lookup id cs = Some c -> length ins = num_inputs c -> run I E cs id ins outs b -> run I' E cs' id ins outs b.
    Definition bwd (id : nat) : Prop := forall c ins outs b, lookup id cs = Some c -> length ins = num_inputs c -> run I' E cs' id ins outs b -> run I E cs id ins outs b.
    Lemma local_fwd rank : ranked I cs rank -> (forall id c, lookup id cs = Some c -> (forall o, In o (calls c) -> fwd o) -> fwd id) -> forall id, fwd id.
    Proof. intros R H. apply (rank_ind rank fwd). intros id IH c ins outs b Hc. eapply H; eauto. Qed.
    Lemma local_bwd rank : ranked I cs rank -> (forall id c, lookup id cs = Some c -> (forall o, In o (calls c) -> bwd o) -> bwd id) -> forall id, bwd id.
    Proof. intros R H. apply (rank_ind rank bwd). intros id IH c ins outs b Hc. eapply H; eauto. Qed.
  End Behaviour.

  Lemma local_root_fwd E (rc : RootCircuit I) (rc' : RootCircuit I') c0 c0' : lookup 0 (circuits rc) = Some c0 -> lookup 0 (circuits rc') = Some c0' -> num_inputs c0' = num_inputs c0 ->
    expected_num_output_zeroes rc' = expected_num_output_zeroes rc -> fwd E (circuits rc) (circuits rc') 0 ->
    forall ins outs b, root_run I E rc ins outs b -> root_run I' E rc' ins outs b.
  Proof.
    intros H0 H0' Hn Hz H ins outs b [c [all [b0 [A [B [C [D [-> ->]]]]]]]]. rewrite H0 in A. injection A as <-. exists c0', all, b0. split; auto. split; [congruence|]. split; [eapply H; eauto|]. rewrite Hz. auto.
  Qed.
  Lemma local_root_bwd E (rc : RootCircuit I) (rc' : RootCircuit I') c0 c0' : lookup 0 (circuits rc) = Some c0 -> lookup 0 (circuits rc') = Some c0' -> num_inputs c0' = num_inputs c0 ->
    expected_num_output_zeroes rc' = expected_num_output_zeroes rc -> bwd E (circuits rc) (circuits rc') 0 ->
    forall ins outs b, root_run I' E rc' ins outs b -> root_run I E rc ins outs b.
  Proof.
    intros H0 H0' Hn Hz H ins outs b [c [all [b0 [A [B [C [D [-> ->]]]]]]]]. rewrite H0' in A. injection A as <-. exists c0, all, b0. split; auto. split; [congruence|]. split; [eapply H; eauto; congruence|]. rewrite Hz in *. auto.
  Qed.

  (* everything together: the pass applied to a root circuit, given the per-circuit facts *)
  Theorem local_pass_spec (rc : RootCircuit I) : wf_root I rc ->
    (forall id c, lookup id (circuits rc) = Some c -> exists c', f c = Some c' /\ local_ok c c') ->
    exists rc', local_pass rc = Some rc' /\ wf_root I' rc' /\ num_public_inputs rc' = num_public_inputs rc /\
      expected_num_output_zeroes rc' = expected_num_output_zeroes rc /\
      (forall id c', lookup id (circuits rc') = Some c' -> exists c, lookup id (circuits rc) = Some c /\ f c = Some c' /\ local_ok c c') /\
      (forall id c, lookup id (circuits rc) = Some c -> exists c', lookup id (circuits rc') = Some c' /\ f c = Some c' /\ local_ok c c') /\
      (forall E, (forall id c c', lookup id (circuits rc) = Some c -> lookup id (circuits rc') = Some c' -> f c = Some c' -> (forall o, In o (calls c) -> fwd E (circuits rc) (circuits rc') o) -> fwd E (circuits rc) (circuits rc') id) ->
         forall ins outs b, root_run I E rc ins outs b -> root_run I' E rc' ins outs b) /\
      (forall E, (forall id c c', lookup id (circuits rc) = Some c -> lookup id (circuits rc') = Some c' -> f c = Some c' -> (forall o, In o (calls c) -> bwd E (circuits rc) (circuits rc') o) -> bwd E (circuits rc) (circuits rc') id) ->
         forall ins outs b, root_run I' E rc' ins outs b -> root_run I E rc ins outs b).
  Proof.
    intros W Hf. destruct (local_pass_wf rc W Hf) as [rc' [A [A2 [B [C D]]]]]. exists rc'. destruct (local_lookup _ _ A2) as [_ Hl]. destruct W as [W [rank R] [c0 [Hc0 Hz]]].
    assert (Hfw : forall id c, lookup id (circuits rc) = Some c -> exists c', lookup id (circuits rc') = Some c' /\ f c = Some c' /\ local_ok c c').
    { intros id c H. specialize (Hl id). rewrite H in Hl. destruct Hl as [c2 [X Y]]. destruct (Hf id c H) as [c3 [X3 Z]]. rewrite X in X3. injection X3 as <-. eauto. }
    destruct (Hfw 0 c0 Hc0) as [c0' [Hc0' [_ [_ [Hn _]]]]].
    repeat (split; auto).
    - intros id c' H. specialize (Hl id). destruct (lookup id (circuits rc)) as [c|] eqn:Ec; [|congruence]. destruct (Hfw id c Ec) as [c2 [X Y]]. rewrite H in X. injection X as <-. eauto.
    - intros E HE. eapply local_root_fwd; eauto. eapply local_fwd; eauto. intros id c Hc Ho. destruct (Hfw id c Hc) as [c' [X [Y _]]]. eapply HE; eauto.
    - intros E HE. eapply local_root_bwd; eauto. eapply local_bwd; eauto. intros id c Hc Ho. destruct (Hfw id c Hc) as [c' [X [Y _]]]. eapply HE; eauto.
  Qed.
End LocalPass.
