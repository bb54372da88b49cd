(* Towards totality of the compiler: the conditions each pass needs are kept by the passes before it. *)
From Verif Require Import Prelude Field InputMapping Expr Topo Ir IrFacts IrInst Hints Sim RemoveUnreachable ReassignDup AddBack FixedPoint Kinds DetectChains
  Builder HnTrans HnSim HnCirc HintExport FinalBuild FbFacts FbSim MulFanout ExportConstraints SolveDuplicates LocalPass Terminate.
Open Scope nat_scope.

(* ------------------------------------------------------------ limiting the fan-out keeps distinct outputs distinct *)
Section FoDistinct.
  Context {F : Fld}.
  Notation DI := (DestI F false).
  Variable limit : nat.
  Lemma upd_dflt (nid : list Q) x q : dflt q = dflt (nth x nid (q_new 0)) -> map dflt (upd nid x q) = map dflt nid.
  Proof.
    revert x. induction nid as [|a nid IH]; intros [|x] H; cbn [upd map nth] in *; try reflexivity; [f_equal; auto|f_equal; apply IH; auto].
  Qed.
  Lemma fo_relays_dflt : forall k q new is' q', fo_relays (F := F) limit k q new = (is', q') -> dflt q' = dflt q.
  Proof.
    induction k as [|k IH]; intros q new is' q' H; cbn [fo_relays] in H; [injection H as _ <-; auto|]. destruct (q_get q) as [y q1] eqn:Eq. destruct (fo_relays limit k _ (S new)) as [a b] eqn:E. injection H as _ <-.
    destruct (q_get_ids _ _ _ Eq) as [_ [_ Hd]]. rewrite (IH _ _ _ _ E). cbn. auto.
  Qed.
  Lemma fo_pend1_dflt a r l q new ks q' : fo_pend1 (F := F) limit a r l q new = Some (ks, q') -> dflt q' = dflt q.
  Proof.
    unfold fo_pend1. intros H. destruct ((a =? 0) && (r =? 0)); [injection H as _ <-; auto|]. apply obind_some in H. destruct H as [k1 [_ H]]. destruct (fo_relays limit r _ _) as [rs q2] eqn:E. injection H as _ <-. apply fo_relays_dflt in E. auto.
  Qed.
  Lemma fo_pend_dflt add relay : forall xs nid l new ks nid', fo_pend (F := F) limit add relay xs nid l new = Some (ks, nid') -> map dflt nid' = map dflt nid.
  Proof.
    induction xs as [|x xs IH]; intros nid l new ks nid' H; cbn [fo_pend] in H; [injection H as _ <-; auto|]. apply obind_some in H. destruct H as [q [Hq H]]. apply obind_some in H. destruct H as [[k1 q1] [H1 H]]. apply obind_some in H. destruct H as [[k2 n2] [H2 H]]. injection H as _ <-.
    rewrite (IH _ _ _ _ _ H2). apply upd_dflt. rewrite (nth_error_nth nid x (q_new 0) Hq). eapply fo_pend1_dflt; eauto.
  Qed.
  Lemma fo_term_dflt nid (t : Term F) t' nid' : fo_term nid t = (t', nid') -> map dflt nid' = map dflt nid.
  Proof.
    unfold fo_term. destruct (vars t) as [|x|x y|g l|x]; intros H; try (injection H as _ <-; reflexivity).
    destruct (q_get (nth x nid (q_new 0))) as [x' q] eqn:E1. destruct (q_get (nth y (upd nid x q) (q_new 0))) as [y' q2] eqn:E2. injection H as _ <-.
    destruct (q_get_ids _ _ _ E1) as [_ [_ D1]]. destruct (q_get_ids _ _ _ E2) as [_ [_ D2]]. rewrite upd_dflt by auto. apply upd_dflt; auto.
  Qed.
  Lemma fo_terms_dflt : forall (ts : list (Term F)) nid ts' nid', fo_terms nid ts = (ts', nid') -> map dflt nid' = map dflt nid.
  Proof.
    induction ts as [|t ts IH]; intros nid ts' nid' H; cbn [fo_terms] in H; [injection H as _ <-; auto|]. destruct (fo_term nid t) as [t1 n1] eqn:E1. destruct (fo_terms n1 ts) as [t2 n2] eqn:E2. injection H as _ <-. rewrite (IH _ _ _ E2). eapply fo_term_dflt; eauto.
  Qed.
  Lemma fo_exprs_dflt (e : Expression F) : forall k nid is' nid', fo_exprs k e nid = (is', nid') -> map dflt nid' = map dflt nid.
  Proof.
    induction k as [|k IH]; intros nid is' nid' H; cbn [fo_exprs] in H; [injection H as _ <-; auto|]. destruct (fo_terms nid e) as [t1 n1] eqn:E1. destruct (fo_exprs k e n1) as [t2 n2] eqn:E2. injection H as _ <-. rewrite (IH _ _ _ E2). eapply fo_terms_dflt; eauto.
  Qed.
  Definition sep (nid : list Q) (new : nat) : Prop := NoDup (map dflt nid) /\ Forall (fun y => y <= new) (map dflt nid).
  Lemma sep_app nid new l new' : sep nid new -> NoDup (map dflt l) -> Forall (fun y => new < y <= new') (map dflt l) -> new <= new' -> sep (nid ++ l) new'.
  Proof.
    intros [A B] C D H. unfold sep. rewrite map_app. rewrite Forall_forall in B, D. split; [apply NoDup_app_iff; split; [auto|split; [auto|]]; intros x Hx Hy; specialize (B x Hx); specialize (D x Hy); lia|].
    apply Forall_app. split; apply Forall_forall; intros x Hx; [specialize (B x Hx)|specialize (D x Hx)]; lia.
  Qed.
  Lemma sep_eq nid nid' new new' : map dflt nid' = map dflt nid -> new <= new' -> sep nid new -> sep nid' new'.
  Proof. intros E H [A B]. unfold sep. rewrite E. split; auto. eapply Forall_impl; [|exact B]. cbn. intros; lia. Qed.
  Lemma fo_insns_sep add relay : forall is nid lst new solved is' nid', fo_insns (F := F) limit add relay is nid lst new solved = Some (is', nid') -> sep nid new -> NoDup (map dflt nid') /\ length nid' = length nid + nouts DI is.
  Proof.
    induction is as [|i is IH]; intros nid lst new solved is' nid' H S; cbn [fo_insns] in H; [injection H as _ <-; split; [apply S|cbn [nouts]; rewrite Nat.add_0_r; reflexivity]|].
    apply obind_some in H. destruct H as [[ks n1] [H1 H]]. apply fo_pend_dflt in H1. apply (sep_eq nid n1 new (new + length ks) H1 (Nat.le_add_r _ _)) in S. assert (L1 : length n1 = length nid) by (rewrite <- (map_length dflt n1), H1; apply map_length). destruct i as [e|id l n|c]; cbn [nouts].
    - destruct ((nth (length n1) add 0 =? 0) || (nth (length n1) relay 0 =? 0)); [|discriminate]. destruct (fo_exprs (Datatypes.S (nth (length n1) add 0)) e n1) as [es n2] eqn:Ee. apply obind_some in H. destruct H as [[is2 n3] [H2 H]]. injection H as _ <-.
      apply fo_exprs_dflt in Ee. assert (L2 : length n2 = length n1) by (rewrite <- (map_length dflt n2), Ee; apply map_length). destruct (IH _ _ _ _ _ _ H2) as [A B].
      + eapply sep_app; [eapply sep_eq; [exact Ee|apply le_n|exact S]| | |lia]; cbn [map dflt]; [repeat constructor; auto|]. repeat constructor; lia.
      + split; auto. rewrite B, app_length. cbn [length]. change (i_nout (i := DI) ?x) with 1. lia.
    - destruct (forallb _ _); [|discriminate]. apply obind_some in H. destruct H as [[is2 n3] [H2 H]]. injection H as _ <-. destruct (IH _ _ _ _ _ _ H2) as [A B].
      + eapply sep_app; [exact S| | |lia]; rewrite map_map; cbn [q_new dflt]; rewrite map_id; [apply seq_NoDup|]. apply Forall_forall. intros x Hx. apply in_seq in Hx. lia.
      + split; auto. rewrite B, app_length, map_length, seq_length. change (i_nout (i := DI) (DCall id l n)) with n. lia.
    - apply obind_some in H. destruct H as [[is2 n3] [H2 H]]. injection H as _ <-. destruct (IH _ _ _ _ _ _ H2) as [A B].
      + eapply sep_app; [exact S| | |lia]; cbn [map dflt q_new]; [repeat constructor; auto|]. repeat constructor; lia.
      + split; auto. rewrite B, app_length. cbn [length]. change (i_nout (i := DI) ?x) with 1. lia.
  Qed.
  Lemma fo_circuit_nodup (c c' : Circuit DI) : wf_circuit DI c -> fo_circuit limit c = Some c' -> NoDup (outputs c) -> NoDup (outputs c').
  Proof.
    intros Wc H Hn. unfold fo_circuit in H. destruct (_ =? 1); [injection H as <-; auto|]. destruct (fo_plan limit _ _ _ _ _ _) as [[m' a'] r'] eqn:Ep. apply obind_some in H. destruct H as [[is' nid] [H1 H2]]. injection H2 as <-. cbn [outputs].
    destruct (fo_insns_sep _ _ _ _ _ _ _ _ _ H1) as [Hd Hlen].
    { unfold sep. rewrite map_map. cbn [q_new dflt]. rewrite map_id. split; [apply seq_NoDup|]. apply Forall_forall. intros x Hx. apply in_seq in Hx. lia. }
    rewrite map_length, seq_length in Hlen.
    pose proof (wf_out _ _ Wc) as Ho. clear -Hn Hd Hlen Ho. induction (outputs c) as [|x l IH]; cbn [map]; [constructor|]. apply NoDup_cons_iff in Hn. destruct Hn as [N1 N2]. apply Forall_cons_iff in Ho. destruct Ho as [O1 O2]. constructor; [|auto].
    intros Hi. apply in_map_iff in Hi. destruct Hi as [y [Ey Hy]]. rewrite Forall_forall in O2. specialize (O2 y Hy). cbn in O1, O2. assert (x = y); [|congruence].
    rewrite NoDup_nth in Hd. apply (Hd x y); rewrite ?map_length; try lia. rewrite !(nth_indep (map dflt nid) _ (dflt (q_new 0))) by (rewrite map_length; lia). rewrite !map_nth. symmetry. exact Ey.
  Qed.
  Lemma fo_distinct (rc rc' : RootCircuit DI) : wf_root DI rc -> solve_mul_fanout_limit limit rc = Some rc' -> distinct DI rc -> distinct DI rc'.
  Proof.
    intros W H Hd id c' Hc'. unfold solve_mul_fanout_limit in H. destruct (limit <=? 1); [discriminate|].
    unfold local_pass in H. apply obind_some in H. destruct H as [cs' [H H2]]. injection H2 as <-. cbn [circuits] in Hc'. destruct (local_lookup _ _ _ _ _ H) as [_ G]. specialize (G id).
    destruct (lookup id (circuits rc)) as [c|] eqn:Hl; [|congruence]. destruct G as [c2 [B2 B3]]. rewrite Hc' in B3. injection B3 as <-.
    eapply fo_circuit_nodup; [eapply (wf_each _ _ (wr_cs _ _ W)); eauto|exact B2|]. eapply Hd; eauto.
  Qed.
End FoDistinct.
