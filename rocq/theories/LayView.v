(* Layers of slots and runs of a circuit: the two directions, for instances of any depth. *)
From Verif Require Import Prelude Field Zp Sorting Expr Topo Ir IrInst InputMapping Layered SolveDuplicates LayeredFacts LayeredOpt LayeredOptFacts LayeredExpand LayeredCommon IrFacts Sim Layering LaySem LaySched LayInst LayLayout LayOwn.
Open Scope nat_scope.

Section LayView.
  Context {F : Fld}.
  Notation DI := (DestI F true).
  Notation Ctx := (Ctx (F := F)).
  Notation UG := (UG F).
  Variable cross : bool.
  Variable cs : list (nat * Circuit DI).
  Variable ctxs : list (nat * Ctx).
  Hypothesis Hwf : wf_circuits DI cs.
  Hypothesis Hok : forall id X, lookup id ctxs = Some X -> ctx_ok cross cs ctxs id X.
  Variable E : Env F.

  Lemma inst_gok : forall n id layouts G, Inst cross ctxs n id layouts G -> forall X, lookup id ctxs = Some X -> forall i g, 1 <= i <= x_out X -> In g (G i) -> gok layouts X i g.
  Proof.
    induction n as [|n IH]; intros id layouts G H X HX; [destruct H|]. cbn [Inst] in H. destruct H as [X' [lqs [ch [GK [OW [HX' [Hlen [Hl [Hlq [Hpl [Hcall HG]]]]]]]]]]]. rewrite HX in HX'. apply Some_inj in HX'. subst X'.
    apply (level_ok cross cs ctxs Hwf Hok n id layouts G X lqs ch GK OW HX Hlen Hl Hlq Hcall HG). intros k l Y Hk HY. destruct (Hcall k l Hk) as [_ HI]. apply (IH _ _ _ HI Y HY).
  Qed.
  Theorem inst_A : (exists r, e_rnd E r) -> forall n id layouts G, Inst cross ctxs n id layouts G -> forall X V, lookup id ctxs = Some X -> Sat E layouts G V ->
    exists ins outs w, LS cross ctxs E n id ins outs w /\ agrees X layouts V ins outs w.
  Proof.
    intros Hr. induction n as [|n IH]; intros id layouts G H X V HX HS; [destruct H|]. cbn [Inst] in H. destruct H as [X' [lqs [ch [GK [OW [HX' [Hlen [Hl [Hlq [Hpl [Hcall HG]]]]]]]]]]]. rewrite HX in HX'. apply Some_inj in HX'. subst X'.
    assert (Hgk : forall k l Y, nth_error (x_calls X) k = Some l -> lookup (cl_sub l) ctxs = Some Y -> forall j g, 1 <= j <= x_out Y -> In g (GK k j) -> gok (map fst (ch k)) Y j g) by (intros k l Y Hk HY; destruct (Hcall k l Hk) as [_ HI]; apply (inst_gok _ _ _ _ HI Y HY)).
    apply (step_A cross cs ctxs Hwf Hok n id layouts G X lqs ch GK OW HX Hlen Hl Hlq Hpl Hcall HG Hgk E V HS Hr). intros k l Y Hk HY. destruct (Hcall k l Hk) as [_ HI]. apply (IH _ _ _ HI Y _ HY).
    eapply (sat_child cross cs ctxs Hwf Hok n id layouts G X lqs ch GK OW); eauto.
  Qed.
  Theorem inst_B : forall n id layouts G, Inst cross ctxs n id layouts G -> forall X ins outs w, lookup id ctxs = Some X -> LS cross ctxs E n id ins outs w -> exists V, Sat E layouts G V /\ agrees X layouts V ins outs w.
  Proof.
    induction n as [|n IH]; intros id layouts G H X ins outs w HX HL; [destruct H|]. cbn [Inst] in H. destruct H as [X' [lqs [ch [GK [OW [HX' [Hlen [Hl [Hlq [Hpl [Hcall HG]]]]]]]]]]]. rewrite HX in HX'. apply Some_inj in HX'. subst X'.
    cbn [LS] in HL. destruct HL as [X' [W [co [cw [HX' [Hin0 [Hin [Houts [Hc [Hvar [Hw0 Hw]]]]]]]]]]]. rewrite HX in HX'. apply Some_inj in HX'. subst X'.
    assert (Hgk : forall k l Y, nth_error (x_calls X) k = Some l -> lookup (cl_sub l) ctxs = Some Y -> forall j g, 1 <= j <= x_out Y -> In g (GK k j) -> gok (map fst (ch k)) Y j g) by (intros k l Y Hk HY; destruct (Hcall k l Hk) as [_ HI]; apply (inst_gok _ _ _ _ HI Y HY)).
    destruct (F2_choice_k (fun k l V' => forall Y, lookup (cl_sub l) ctxs = Some Y -> Sat E (map fst (ch k)) (GK k) V' /\ agrees Y (map fst (ch k)) V' (map (W (start_of X k)) (cl_ins l)) (map (W (end_of X k)) (cl_outs l)) (cw k)) (x_calls X)) as [VKs [Vl Vs]].
    { intros k l Hk. destruct (ok_sub _ _ _ _ _ (Hok _ _ HX) _ _ Hk) as [_ [Y [HY _]]]. destruct (Hcall k l Hk) as [_ HI]. destruct (Hc k l Hk) as [HLS Hco]. rewrite <- Hco in HLS. destruct (IH _ _ _ HI Y _ _ _ HY HLS) as [V' HV']. exists V'. intros Y' HY'. rewrite HY in HY'. apply Some_inj in HY'. subst Y'. auto. }
    eexists. apply (step_B cross cs ctxs Hwf Hok n id layouts G X lqs ch GK OW HX Hlen Hl Hlq Hpl Hcall HG Hgk E W cw w ins outs Hin0 Hin Houts Hvar Hw0 Hw VKs).
    intros k l Y Hk HY. destruct (nth_error_Some_ex VKs k) as [V' HV']; [rewrite Vl; eapply nth_error_Some_lt; eauto|]. rewrite (nth_error_nth _ _ _ HV'). apply (Vs k l V' Hk HV' Y HY).
  Qed.
End LayView.
