(* What the passes keep of the instructions of a circuit: a predicate on instructions that does not depend on the variables (nor, for
   calls, on the number of arguments and results) and holds of linear instructions is kept by the passes that remove or rename. *)
From Verif Require Import Prelude Field InputMapping Expr Topo Ir IrFacts IrInst Sim RevPass LocalPass Bfs RemoveUnreachable ReassignDup DetectChains.

Section Kinds.
  Context {F : Fld} (I : IRC F).
  Notation Circuit := (Circuit I). Notation RootCircuit := (RootCircuit I).
  Record ipred (P : Insn I -> Prop) : Prop := {
    ip_repl : forall f i, P i -> P (i_replace f i);
    ip_kxb : forall x k b, P (i_kxb I x k b);
    ip_call : forall i id l n l' n', P i -> i_call i = Some (id, l, n) -> P (i_mkcall I id l' n') }.
  Definition holds (P : Insn I -> Prop) (rc : RootCircuit) : Prop := forall id c, lookup id (circuits rc) = Some c -> Forall P (instructions c).
  Definition bare (rc : RootCircuit) : Prop := forall id c, lookup id (circuits rc) = Some c -> constraints c = [].

  Lemma Forall2_In_r {A B} (R : A -> B -> Prop) l l' : Forall2 R l l' -> forall y, In y l' -> exists x, In x l /\ R x y.
  Proof. induction 1 as [|a b l l' Hab H IH]; intros y Hy; [destruct Hy|]. destruct Hy as [<-|Hy]; [exists a; cbn; auto|]. destruct (IH y Hy) as [x [H1 H2]]. exists x. cbn; auto. Qed.
  Lemma lookup_map_snd {A B} (f : nat -> A -> B) (l : list (nat * A)) id : lookup id (map (fun p => (fst p, f (fst p) (snd p))) l) = option_map (f id) (lookup id l).
  Proof. induction l as [|[k a] l IH]; cbn; auto. destruct (Nat.eqb_spec k id); subst; auto. Qed.

  Variable P : Insn I -> Prop.
  Hypothesis HP : ipred P.
  Lemma rb_insns_P vis id : forall is k vm mx, Forall P is -> Forall P (fst (rb_insns I vis id k is vm mx)).
  Proof.
    induction is as [|i is IH]; intros k vm mx H; cbn [rb_insns]; [constructor|]. inversion H as [|? ? Hi His]; subst.
    destruct (vis (id, k, TInsn)); [|apply IH; auto]. destruct (i_call i) as [[[sub l] n]|] eqn:Ec.
    - destruct (rb_insns I vis id (S k) is (vm ++ assign (out_mask vis sub n) mx) (mx + ntrue (out_mask vis sub n))) as [is' vm'] eqn:E. cbn [fst]. constructor; [eapply ip_call; eauto|].
      change is' with (fst (is', vm')). rewrite <- E. auto.
    - destruct (rb_insns I vis id (S k) is (vm ++ seq (S mx) (i_nout i)) (mx + i_nout i)) as [is' vm'] eqn:E. cbn [fst]. constructor; [apply ip_repl; auto|].
      change is' with (fst (is', vm')). rewrite <- E. auto.
  Qed.
  Lemma ru_inv EMPTY (rc rc' : RootCircuit) im : remove_unreachable I EMPTY rc = Some (rc', im) -> exists vis, forall id c', lookup id (circuits rc') = Some c' -> exists c, In (id, c) (circuits rc) /\ lookup id (circuits rc) = Some c /\ c' = rb_circuit I vis id c.
  Proof.
    intros H. unfold remove_unreachable in H. apply obind_some in H. destruct H as [order [_ H]]. apply obind_some in H. destruct H as [ucs [Hu H]].
    apply obind_some in H. destruct H as [c0 [_ H]]. apply obind_some in H. destruct H as [V [_ H]]. injection H as <- _. cbn [circuits]. exists (visb V).
    intros id c' Hc'. rewrite (lookup_map_snd (rb_circuit I (visb V))) in Hc'. destruct (lookup id (rev ucs)) as [c|] eqn:Hl; [|discriminate]. cbn in Hc'. injection Hc' as <-. exists c.
    apply lookup_In in Hl. apply in_rev in Hl. apply omap_some in Hu. destruct (Forall2_In_r _ _ _ Hu _ Hl) as [x [_ Hx]]. apply obind_some in Hx. destruct Hx as [c1 [Hx1 Hx2]]. injection Hx2 as -> ->.
    split; [apply lookup_In; auto|]. auto.
  Qed.
  Lemma ru_holds EMPTY rc rc' im : remove_unreachable I EMPTY rc = Some (rc', im) -> holds P rc -> holds P rc'.
  Proof.
    intros H Hh id c' Hc'. destruct (ru_inv _ _ _ _ H) as [vis Hv]. destruct (Hv _ _ Hc') as [c [_ [Hc ->]]]. specialize (Hh _ _ Hc). unfold rb_circuit.
    destruct (rb_insns I vis id 0 (instructions c) (0 :: assign (in_mask vis id (num_inputs c)) 0) (ntrue (in_mask vis id (num_inputs c)))) as [is' vm'] eqn:E. cbn [instructions].
    change is' with (fst (is', vm')). rewrite <- E. apply rb_insns_P; auto.
  Qed.
  Lemma ra_insns_P om : forall is vm is' vm', ra_insns I om is vm = Some (is', vm') -> Forall P is -> Forall P is'.
  Proof.
    induction is as [|i is IH]; intros vm is' vm' H Hf; cbn [ra_insns] in H; [injection H as <- _; auto|]. inversion Hf as [|? ? Hi His]; subst.
    apply obind_some in H. destruct H as [vm1 [_ H]]. apply obind_some in H. destruct H as [[is1 vm2] [H1 H]]. injection H as <- _. constructor; [apply ip_repl; auto|eauto].
  Qed.
  Lemma ra_copy_P : forall om i outs mx, Forall P (fst (ra_copy I om i outs mx)).
  Proof.
    induction om as [|x om IH]; intros i outs mx; cbn [ra_copy]; [constructor|]. destruct (x <? i); auto.
    destruct (ra_copy I om (S i) (upd outs i (S mx)) (S mx)) as [is o] eqn:E. cbn [fst]. constructor; [apply (ip_kxb _ HP)|]. change is with (fst (is, o)). rewrite <- E. auto.
  Qed.
  Lemma rev_pass_inv {D S} (f : (nat -> option S) -> nat -> Circuit -> option (D * S)) cs : forall ro acc acc', rev_pass I f cs ro acc = Some acc' ->
    forall id r, In (id, r) acc' -> In (id, r) acc \/ exists m c, lookup id cs = Some c /\ f m id c = Some r.
  Proof.
    induction ro as [|x ro IH]; intros acc acc' H id r Hin; cbn [rev_pass] in H; [injection H as <-; auto|]. apply obind_some in H. destruct H as [c [Hc H]]. apply obind_some in H. destruct H as [r1 [Hr H]].
    destruct (IH _ _ H _ _ Hin) as [[E|Hi]|Hex]; auto. injection E as <- <-. right. eauto.
  Qed.
  Lemma ra_inv force (rc rc' : RootCircuit) : reassign_duplicates I force rc = Some rc' -> forall id c', lookup id (circuits rc') = Some c' ->
    lookup id (circuits rc) = Some c' \/ exists m c o, lookup id (circuits rc) = Some c /\ ra_circuit I force m id c = Some (c', o).
  Proof.
    intros H id c' Hc'. unfold reassign_duplicates in H. destruct (has_duplicate_outputs I rc); [|injection H as <-; auto].
    apply obind_some in H. destruct H as [q [_ H]]. apply obind_some in H. destruct H as [acc [Hr H]]. injection H as <-. cbn [circuits] in Hc'. right.
    rewrite (lookup_map_snd (fun _ x => fst x)) in Hc'. destruct (lookup id acc) as [[c1 o]|] eqn:Hl; [|discriminate]. cbn in Hc'. injection Hc' as <-. apply lookup_In in Hl.
    destruct (rev_pass_inv _ _ _ _ _ Hr _ _ Hl) as [[]|[m [c [Hc Hx]]]]. eauto.
  Qed.
  Lemma ra_holds force rc rc' : reassign_duplicates I force rc = Some rc' -> holds P rc -> holds P rc'.
  Proof.
    intros H Hh id c' Hc'. destruct (ra_inv _ _ _ H _ _ Hc') as [Hc|[m [c [o [Hc Hx]]]]]; [eauto|]. unfold ra_circuit in Hx. apply obind_some in Hx. destruct Hx as [[is' vm] [H1 Hx]].
    pose proof (ra_insns_P _ _ _ _ _ H1 (Hh _ _ Hc)) as H2. destruct ((id =? 0) || force).
    - destruct (ra_copy I _ 0 _ (length vm - 1)) as [cp outs'] eqn:E. injection Hx as <- _. cbn [instructions]. apply Forall_app. split; auto. change cp with (fst (cp, outs')). rewrite <- E. apply ra_copy_P.
    - injection Hx as <- _. cbn [instructions]. rewrite app_nil_r. auto.
  Qed.
End Kinds.

Section Bare.
  Context {F : Fld} (I : IRC F).
  Lemma ru_bare EMPTY rc rc' im : remove_unreachable I EMPTY rc = Some (rc', im) -> bare I rc -> bare I rc'.
  Proof.
    intros H Hb id c' Hc'. destruct (ru_inv I _ _ _ _ H) as [vis Hv]. destruct (Hv _ _ Hc') as [c [_ [Hc ->]]]. specialize (Hb _ _ Hc). unfold rb_circuit.
    destruct (rb_insns I vis id 0 (instructions c) (0 :: assign (in_mask vis id (num_inputs c)) 0) (ntrue (in_mask vis id (num_inputs c)))) as [is' vm'] eqn:E. cbn [constraints]. rewrite Hb. auto.
  Qed.
  Lemma ra_bare force rc rc' : reassign_duplicates I force rc = Some rc' -> bare I rc -> bare I rc'.
  Proof.
    intros H Hb id c' Hc'. destruct (ra_inv I _ _ _ H _ _ Hc') as [Hc|[m [c [o [Hc Hx]]]]]; [eauto|]. specialize (Hb _ _ Hc). unfold ra_circuit in Hx. apply obind_some in Hx. destruct Hx as [[is' vm] [H1 Hx]].
    destruct (if (id =? 0) || force then _ else _) as [cp outs']. injection Hx as <- _. cbn [constraints]. rewrite Hb. auto.
  Qed.
  (* a circuit that no circuit calls *)
  Definition uncalled (x : nat) (rc : RootCircuit I) : Prop := forall id c, lookup id (circuits rc) = Some c -> ~ In x (calls c).
  Definition not_call (x : nat) (i : Insn I) : Prop := forall l n, i_call i <> Some (x, l, n).
  Lemma uncalled_holds x (rc : RootCircuit I) : uncalled x rc <-> holds I (not_call x) rc.
  Proof.
    split; intros H id c Hc.
    - apply Forall_forall. intros i Hi l n Ec. apply (H id c Hc). eapply in_calls; eauto.
    - intros Hin. apply calls_in in Hin. destruct Hin as [i [l [n [Hi Ec]]]]. specialize (H id c Hc). rewrite Forall_forall in H. apply (H i Hi l n Ec).
  Qed.
  Lemma not_call_ipred (L : IRC_laws I) x : ipred I (not_call x).
  Proof.
    split.
    - intros f i H l n. rewrite (l_repl_call _ L). destruct (i_call i) as [[[id l'] n']|] eqn:Ec; [|discriminate]. intros E. injection E as -> _ _. eapply H; eauto.
    - intros y k b l n. destruct (l_kxb_call _ L y k b) as [-> _]. discriminate.
    - intros i id l n l' n' H Ec l2 n2. rewrite (l_mkcall _ L). intros E. injection E as -> _ _. eapply H; eauto.
  Qed.
  Lemma ra_uncalled (L : IRC_laws I) force rc rc' x : reassign_duplicates I force rc = Some rc' -> uncalled x rc -> uncalled x rc'.
  Proof. intros H Hu. apply uncalled_holds. eapply ra_holds; eauto; [apply not_call_ipred; auto|]. apply uncalled_holds; auto. Qed.
End Bare.

(* ------------------------------------------------------------ chains *)
Section Chains.
  Context {F : Fld}.
  Notation SI := (SrcI F).
  Variable P : SInsn F -> Prop.
  Hypothesis Hlin : forall l, P (SLin l).
  Hypothesis Hmul : forall l, P (SMul l).
  Lemma upd_P (is : list (SInsn F)) k i : Forall P is -> P i -> Forall P (upd is k i).
  Proof. revert k. induction is as [|j is IH]; intros [|k] H Hi; cbn [upd]; auto; inversion H; subst; constructor; auto. Qed.
  Lemma dc_terms_P vid cnt add : forall ts is const rem lcs is' c' r' l', dc_terms vid cnt add ts is const rem lcs = Some (is', c', r', l') -> Forall P is -> Forall P is'.
  Proof.
    induction ts as [|[x co] ts IH]; intros is const rem lcs is' c' r' l' H Hf; cbn [dc_terms] in H; [injection H as <- _ _ _; auto|].
    apply obind_some in H. destruct H as [k [_ H]]. apply obind_some in H. destruct H as [a [_ H]]. apply obind_some in H. destruct H as [c [_ H]].
    destruct (a && (c =? 1)); [|eapply IH; eauto]. destruct (nth_error is k) as [[]|]; try discriminate. eapply IH; [exact H|]. apply upd_P; auto.
  Qed.
  Lemma dc_vars_P vid cnt mul : forall xs is rem vs is' r' v', dc_vars (F := F) vid cnt mul xs is rem vs = Some (is', r', v') -> Forall P is -> Forall P is'.
  Proof.
    induction xs as [|x xs IH]; intros is rem vs is' r' v' H Hf; cbn [dc_vars] in H; [injection H as <- _ _; auto|].
    apply obind_some in H. destruct H as [k [_ H]]. apply obind_some in H. destruct H as [a [_ H]]. apply obind_some in H. destruct H as [c [_ H]].
    destruct (a && (c =? 1)); [|eapply IH; eauto]. destruct (nth_error is k) as [[]|]; try discriminate. eapply IH; [exact H|]. apply upd_P; auto.
  Qed.
  Lemma dc_loop_P f : (forall i is is', f i is = Some is' -> Forall P is -> Forall P is') -> forall idx is is', dc_loop (F := F) f idx is = Some is' -> Forall P is -> Forall P is'.
  Proof.
    intros Hf. induction idx as [|i idx IH]; intros is is' H HP; cbn [dc_loop] in H; [injection H as <-; auto|]. apply obind_some in H. destruct H as [is1 [H1 H]]. eapply IH; eauto.
  Qed.
  Lemma dc_circuit_P (c c' : Circuit SI) : dc_circuit c = Some c' -> Forall P (instructions c) -> Forall P (instructions c').
  Proof.
    intros H Hf. unfold dc_circuit in H. apply obind_some in H. destruct H as [[[[vid cnt] add] mul] [_ H]]. apply obind_some in H. destruct H as [cnt1 [_ H]]. apply obind_some in H. destruct H as [cnt2 [_ H]].
    apply obind_some in H. destruct H as [is1 [H1 H]]. apply obind_some in H. destruct H as [is2 [H2 H]]. injection H as <-. cbn [instructions].
    eapply dc_loop_P; [|exact H2|eapply dc_loop_P; [|exact H1|exact Hf]].
    - intros i is is' H Hi. unfold dc_mul1 in H. apply obind_some in H. destruct H as [m [_ H]]. destruct m; [|injection H as <-; auto]. destruct (nth_error is i) as [[]|]; try discriminate.
      apply obind_some in H. destruct H as [fl [_ H]]. destruct fl; [|injection H as <-; auto]. apply obind_some in H. destruct H as [[[a b] d] [H3 H]]. injection H as <-. apply upd_P; auto. eapply dc_vars_P; eauto.
    - intros i is is' H Hi. unfold dc_add1 in H. apply obind_some in H. destruct H as [m [_ H]]. destruct m; [|injection H as <-; auto]. destruct (nth_error is i) as [[]|]; try discriminate.
      apply obind_some in H. destruct H as [fl [_ H]]. destruct fl; [|injection H as <-; auto]. apply obind_some in H. destruct H as [[[[a b] d] e] [H3 H]]. injection H as <-. apply upd_P; auto. eapply dc_terms_P; eauto.
  Qed.
  Lemma dc_holds (rc rc' : RootCircuit SI) : wf_root SI rc -> detect_chains rc = Some rc' -> holds SI P rc -> holds SI P rc'.
  Proof.
    intros W H Hh id c' Hc'. destruct (detect_chains_spec rc W) as [rc1 [E [_ [_ [_ [Hl _]]]]]]. rewrite H in E. injection E as <-. destruct (Hl _ _ Hc') as [c [Hc [Hd _]]]. eapply dc_circuit_P; eauto.
  Qed.
End Chains.
