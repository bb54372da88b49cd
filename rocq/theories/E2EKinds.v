(* What kinds of instructions the compiled circuits have: coins and custom gates only where the source circuit has them *)
From Verif Require Import Prelude Sorting Field InputMapping Expr Topo Containers Ir IrFacts IrInst Hints Sim RemoveUnreachable ReassignDup AddBack FixedPoint Kinds
  Builder HnTrans HnSim HnCirc HintExport VarMap Layered Compile E2E E2ERun PropIr PropPasses PropHn PropFb E2ESteps E2ELow E2EFinal.

Section HnKinds.
  Context {F : Fld}.
  Variables d g : Prop.
  (* if [d], no coins; if [g], no custom gates *)
  Definition KS (i : SInsn F) : Prop := (d -> i <> SConst CRandom /\ forall l, i <> SCommit l) /\ (g -> forall t l, i <> SGate t l).
  Definition KH (i : HInsn F) : Prop := (d -> i <> HConst CRandom) /\ (g -> forall t l, i <> HGate t l).
  Definition KL (i : LInsn F) : Prop := d -> i <> LConst CRandom.
  Notation Builder := (@Builder F). Notation Act := (@Act F). Notation SI := (SrcI F). Notation HI := (HnI F). Notation LI := (HlI F).
  Definition kb (B : Builder) : Prop := Forall KH (b_insns B).
  Lemma KH_kxb x k b : KH (i_kxb HI x k b). Proof. split; intros; discriminate. Qed.
  Lemma kb_last l i l' : set_last (F := F) l i = Some l' -> Forall KH l -> KH i -> Forall KH l'.
  Proof.
    unfold set_last. destruct l as [|a l]; [discriminate|]. intros X Hl Hi. injection X as <-. apply Forall_app. split; [|constructor; auto].
    rewrite (app_removelast_last a (l := a :: l)) in Hl by discriminate. apply Forall_app in Hl. apply Hl.
  Qed.
  Lemma kb_fix_one n B id r : fix_one n B id = Some r -> kb B -> kb (fst r).
  Proof.
    unfold fix_one, kb. intros X Hk. apply obind_some in X. destruct X as [e [_ X]]. apply obind_some in X. destruct X as [[p [[eid c] k]] [_ X]]. destruct (Nat.eqb eid 0).
    - destruct (_ && _); [|discriminate]. apply obind_some in X. destruct X as [l [Hl X]]. injection X as <-. cbn. eapply kb_last; eauto. apply KH_kxb.
    - apply obind_some in X. destruct X as [[[[x ok] ob]|] [_ X]].
      + destruct (Nat.eqb n 1); [|discriminate]. apply obind_some in X. destruct X as [l [Hl X]]. injection X as <-. cbn. eapply kb_last; eauto. apply KH_kxb.
      + destruct (is0 F c); [discriminate|]. injection X as <-. auto.
  Qed.
  Lemma kb_fix n : forall is B B', fix_loop n B is = Some B' -> kb B -> kb B'.
  Proof.
    induction is as [|i is IH]; intros B B' X Hk; cbn [fix_loop] in X; [injection X as <-; auto|]. apply obind_some in X. destruct X as [id [_ X]]. apply obind_some in X. destruct X as [r [Hr X]].
    pose proof (kb_fix_one _ _ _ _ Hr Hk) as Hk'. destruct (snd r); [injection X as <-; auto|]. eapply IH; eauto.
  Qed.
  Lemma kb_out_vars B n B' : add_out_vars B n = Some B' -> kb B -> kb B'.
  Proof. unfold add_out_vars. intros X Hk. apply obind_some in X. destruct X as [r [_ X]]. eapply kb_fix; eauto. Qed.
  Lemma kb_call_inputs : forall l B B', call_inputs (F := F) B l = Some B' -> kb B -> kb B'.
  Proof. induction l as [|x l IH]; intros B B' X Hk; cbn [call_inputs] in X; [injection X as <-; auto|]. apply obind_some in X. destruct X as [e [_ X]]. apply obind_some in X. destruct X as [r [_ X]]. eapply IH; eauto. Qed.
  Lemma kb_push B i B' : push_insn B i = Some B' -> kb B -> KH i -> kb B'.
  Proof.
    unfold push_insn. intros X Hk Hi. assert (Hk' : kb (set_insns B (b_insns B ++ [i]))) by (unfold kb; cbn; apply Forall_app; auto). revert X Hk'. generalize (set_insns B (b_insns B ++ [i])). clear B Hk Hi. intros B X Hk.
    destruct i as [l|l|h l n|[k| |k]|id l n|t l]; cbn [execute_out] in X; try (eapply kb_out_vars; eauto; fail).
    - unfold add_lin_comb in X. apply obind_some in X. destruct X as [ops [_ X]]. apply obind_some in X. destruct X as [r [_ X]]. eapply kb_fix; eauto.
    - unfold add_mul_vec in X. apply obind_some in X. destruct X as [es [_ X]]. destruct (isort _ es) as [|a [|b rest]]; try discriminate. apply obind_some in X. destruct X as [r [_ X]]. apply obind_some in X. destruct X as [r' [_ X]]. eapply kb_fix; eauto.
    - unfold add_const in X. eapply kb_fix; eauto.
    - unfold sub_circuit_call in X. apply obind_some in X. destruct X as [B1 [X1 X]]. eapply kb_out_vars; eauto. eapply kb_call_inputs; eauto.
  Qed.
  Definition ka (a : Act) : Prop := match a with APush i => KH i | _ => True end.
  Lemma kb_acts : forall l B B', do_acts B l = Some B' -> kb B -> Forall ka l -> kb B'.
  Proof.
    induction l as [|a l IH]; intros B B' X Hk Ha; cbn [do_acts] in X; [injection X as <-; auto|]. apply obind_some in X. destruct X as [B1 [X1 X]]. inversion Ha; subst. eapply IH; eauto.
    destruct a as [i|x|x]; cbn [do_act] in X1; [eapply kb_push; eauto| |]; unfold b_assert, b_mark in X1; apply obind_some in X1; destruct X1 as [e [_ X1]]; injection X1 as <-; auto.
  Qed.
  (* the transformations *)
  Definition kw {A} (R : A -> Prop) (w : @W F A) : Prop := forall n, Forall ka (fst (fst (w n))) /\ R (snd (w n)).
  Lemma kw_ret {A} (R : A -> Prop) (a : A) : R a -> kw R (wret a). Proof. intros H n. split; [constructor|auto]. Qed.
  Lemma kw_bind {A C} (R : A -> Prop) (R' : C -> Prop) w (f : A -> @W F C) : kw R w -> (forall a, R a -> kw R' (f a)) -> kw R' (wbind w f).
  Proof.
    intros Hw Hf n. unfold wbind. destruct (Hw n) as [A1 A2]. destruct (w n) as [[acts n'] a]. cbn [fst snd] in *. destruct (Hf a A2 n') as [B1 B2]. destruct (f a n') as [[acts' n''] c]. cbn [fst snd] in *. split; auto. apply Forall_app. auto.
  Qed.
  Lemma kw_push i : KH i -> kw (fun _ => True) (push i). Proof. intros H n. split; auto. constructor; auto. Qed.
  Lemma kw_pushm i : KH i -> kw (fun _ => True) (push_multi i). Proof. intros H n. split; auto. constructor; auto. Qed.
  Lemma kw_assert x : kw (fun _ => True) (@wassert F x). Proof. intros n. split; auto. repeat constructor. Qed.
  Lemma kw_mark x : kw (fun _ => True) (@wmark F x). Proof. intros n. split; auto. repeat constructor. Qed.
  Lemma KH_of i : match i with HConst CRandom | HGate _ _ => False | _ => True end -> KH i.
  Proof. intros H. split; intros; intros ->; exact H. Qed.
  Definition kr (r : @TRes F) : Prop := match r with TInsn i => KH i | _ => True end.
  Ltac kw := repeat lazymatch goal with
    | |- kw _ (wret _) => apply kw_ret; try exact Logic.I
    | |- kw _ (wbind _ _) => apply (kw_bind (fun _ => True)); [|intros ? _]
    | |- kw _ (push _) => apply kw_push, KH_of; exact Logic.I
    | |- kw _ (push_multi _) => apply kw_pushm, KH_of; exact Logic.I
    | |- kw _ (wassert _) => apply kw_assert
    | |- kw _ (wmark _) => apply kw_mark end.
  Lemma kw_bool x : kw (fun _ => True) (@bool_cond F x). Proof. unfold bool_cond, push_const, push_sub, push_mul, push_add. kw; auto. Qed.
  Lemma kw_bin : forall bits sum c, kw (fun _ => True) (@to_bin_loop F bits sum c).
  Proof. induction bits as [|b bits IH]; intros sum c; cbn [to_bin_loop]; unfold assert_bool, push_add; kw; auto; try apply kw_bool; apply kw_push, KH_of; exact Logic.I. Qed.
  Ltac kw2 := repeat (kw; lazymatch goal with
    | |- kw _ (bool_cond _) => apply kw_bool
    | |- kw _ (to_bin_loop _ _ _) => apply kw_bin
    | |- kr (TInsn _) => apply KH_of; exact Logic.I end).
  Lemma kw_transform cv i : KS i -> kw kr (transform cv i).
  Proof.
    intros [H1 H2]. destruct i as [l|l|x y ck|x y op|x|l|h l k|c|id l k|x y op|c t e|gt l|x k]; cbn [transform]; unfold push_const, push_mul, push_sub, push_add, assert_bool, mark_bool; try (kw2; fail).
    - destruct (cv y) as [yv|]; [destruct (is0 F yv)|destruct ck]; kw2.
    - kw2. destruct op; kw2.
    - destruct (cv x); kw2.
    - apply kw_ret. split; [|discriminate]. intros Hd. exfalso. eapply (proj2 (H1 Hd)); reflexivity.
    - apply kw_ret. split; [|discriminate]. intros Hd X. apply (proj1 (H1 Hd)). congruence.
    - destruct (cv x), (cv y); kw2. destruct (unop_eval op _ _); kw2.
    - destruct (cv c) as [v|]; [destruct (is0 F v)|]; kw2.
    - apply kw_ret. split; [discriminate|]. intros Hg t0 l0 X. injection X as -> ->. eapply (H2 Hg); reflexivity.
  Qed.
  Lemma KS_replace f i : KS i -> KS (s_replace F f i).
  Proof. intros [H1 H2]. split; intros X; [specialize (H1 X)|specialize (H2 X)]; destruct i; cbn [s_replace]; try (split; [discriminate|intros; discriminate]); try (intros; discriminate); auto; try (destruct H1 as [_ H1]; exfalso; eapply H1; reflexivity); exfalso; eapply H2; reflexivity. Qed.
  Lemma kb_insn B i B' : process_insn B i = Ok B' -> kb B -> KS i -> kb B'.
  Proof.
    unfold process_insn. intros X Hk Hi. destruct (forallb _ _); [|discriminate]. pose proof (kw_transform (const_of B) _ (KS_replace (i2o B) i Hi) (nvars B)) as [A1 A2]. destruct (transform _ _ _) as [[acts n'] r]. cbn [fst snd] in A1, A2.
    destruct (do_acts B acts) as [B1|] eqn:E1; [|discriminate]. pose proof (kb_acts _ _ _ E1 Hk A1) as Hk1. destruct r as [oi|l|]; [| |discriminate].
    - destruct (Nat.eqb _ _); [|discriminate]. destruct (push_insn B1 oi) as [B2|] eqn:E2; [|discriminate]. injection X as <-. exact (kb_push _ _ _ E2 Hk1 A2).
    - destruct (Nat.eqb _ _); [|discriminate]. injection X as <-. exact Hk1.
  Qed.
  Lemma kb_con B c B' : process_con (F := F) B c = Ok B' -> kb B -> kb B'.
  Proof.
    unfold process_con. intros X Hk. destruct (_ <? _); [|discriminate]. assert (A : kw (fun _ => True) (@transform_con F (fst c, i2o B (snd c)))).
    { unfold transform_con. cbn [fst snd]. unfold push_const, push_mul, push_sub. destruct (fst c); [apply kw_ret; auto|kw|apply kw_bool] || destruct (fst c); try apply kw_bool; kw; auto. }
    destruct (A (nvars B)) as [A1 _]. destruct (transform_con _ _) as [[acts n'] x]. cbn [fst snd] in A1. destruct (do_acts B (acts ++ [AAssert x])) as [B1|] eqn:E1; [|discriminate]. injection X as <-. eapply kb_acts; eauto. apply Forall_app. split; auto. repeat constructor.
  Qed.
  Lemma process_circuit_kinds (c : Circuit SI) c' : process_circuit c = Ok c' -> Forall KS (instructions c : list (SInsn F)) -> Forall KH (instructions c' : list (HInsn F)).
  Proof.
    unfold process_circuit, process_body. intros X Hc. destruct (add_input (num_inputs c)) as [B|] eqn:E0; [|discriminate]. cbn [of_opt rbind] in X.
    assert (Hk : kb B). { unfold add_input in E0. apply obind_some in E0. destruct E0 as [B0 [E0 X0]]. injection X0 as <-. apply (kb_out_vars _ _ _ E0). constructor. }
    destruct (rfold process_insn B (instructions c)) as [B1| | |] eqn:E1; try discriminate. cbn [rbind] in X. destruct (rfold process_con B1 (constraints c)) as [B2| | |] eqn:E2; try discriminate. cbn [rbind] in X.
    destruct (final_cons B2); [|discriminate]. cbn [of_opt rbind] in X. destruct (forallb _ _); [|discriminate]. injection X as <-. cbn [instructions].
    assert (Hk1 : kb B1).
    { clear E0 E2. revert B B1 Hk E1 Hc. clear. change (list (Insn SI)) with (list (SInsn F)). generalize (instructions c : list (SInsn F)). induction l as [|i l IH]; intros B B1 Hk E1 Hc; cbn [rfold] in E1; [injection E1 as <-; auto|]. inversion Hc; subst.
      destruct (process_insn B i) as [B'| | |] eqn:E; try discriminate. cbn [rbind] in E1. eapply IH; [|exact E1|auto]. eapply kb_insn; eauto. }
    clear E1. revert B1 B2 Hk1 E2. clear. change (list (Con SI)) with (list (ConType * nat)). generalize (constraints c : list (ConType * nat)). induction l as [|i l IH]; intros B1 B2 Hk E2; cbn [rfold] in E2; [injection E2 as <-; auto|].
    destruct (process_con B1 i) as [B'| | |] eqn:E; try discriminate. cbn [rbind] in E2. eapply IH; [|exact E2]. eapply kb_con; eauto.
  Qed.
  Lemma hn_kinds (rc : RootCircuit SI) hn : wf_root SI rc -> insns_valid rc -> hn_process rc = Ok hn -> holds SI KS rc -> holds HI KH hn.
  Proof.
    intros W Hv X Hh. destruct (hn_process_spec rc W Hv) as [E|[hn' [E R]]]; [congruence|]. rewrite X in E. injection E as <-. intros id c' Hc'. destruct (hr_bwd _ _ R id c' Hc') as [c [Hc E]]. apply (process_circuit_kinds c c' E). apply (Hh id c Hc).
  Qed.
  Lemma KH_replace f i : KH i -> KH (h_replace F f i).
  Proof. intros [H1 H2]. split; intros X; [specialize (H1 X)|specialize (H2 X)]; destruct i; cbn [h_replace]; try discriminate; auto; intros; try discriminate. exfalso. eapply H2; reflexivity. Qed.
  Lemma KS_ipred : ipred SI KS.
  Proof. split; [apply KS_replace| |]; intros; split; intros; try split; intros; discriminate. Qed.
  Lemma KH_ipred : ipred HI KH.
  Proof. split; [apply KH_replace| |]; intros; split; intros; try split; intros; discriminate. Qed.
  (* the hint-less and the exported circuit *)
  Lemma rh_kinds sz : forall is vm own sub new is' vm' s, rh_insns (F := F) sz is vm own sub new = Some (is', vm', s) -> Forall KH is -> Forall KL is'.
  Proof.
    induction is as [|i is IH]; intros vm own sub new is' vm' s X H; cbn [rh_insns] in X; [injection X as <- _ _; constructor|]. inversion H as [|? ? Hi Hr]; subst. destruct (h2l (vmap vm) i) as [j|] eqn:Ej; [|eapply IH; eauto].
    apply obind_some in X. destruct X as [p [Hp X]]. apply obind_some in X. destruct X as [[[is1 vm1] s1] [Hr1 X]]. injection X as <- _ _. constructor; [|eapply IH; eauto].
    destruct Hi as [Hi _]. destruct i; cbn [h2l] in Ej; try discriminate; injection Ej as <-; cbn [h2l] in Hp; try (injection Hp as <-; cbn [fst]; intros Hd; discriminate || (intros X; apply (Hi Hd); congruence)).
    apply obind_some in Hp. destruct Hp as [q [_ Hp]]. injection Hp as <-. cbn [fst]. intros _. discriminate.
  Qed.
  Lemma ex_kinds sz : forall is vm new own sub is' vm' o' s', ex_insns (F := F) sz is vm new own sub = Some (is', vm', o', s') -> Forall KH is -> Forall KH is'.
  Proof.
    induction is as [|i is IH]; intros vm new own sub is' vm' o' s' X H; cbn [ex_insns] in X; [injection X as <- _ _ _; constructor|]. inversion H as [|? ? Hi Hr]; subst. apply obind_some in X. destruct X as [[[[is1 vm1] o1] s1] [Hr1 X]].
    apply obind_some in X. destruct X as [j [Hj X]]. injection X as <- _ _ _. constructor.
    - apply (KH_replace (vmap (vm ++ seq (S new) (h_nout F i)))) in Hi. revert Hj Hi. generalize (h_replace F (vmap (vm ++ seq (S new) (h_nout F i))) i). clear. intros i Hj Hi. destruct i; cbn [ex_call] in Hj; try (injection Hj as <-; auto). apply obind_some in Hj. destruct Hj as [p [_ Hj]]. injection Hj as <-. split; intros; discriminate.
    - destruct i; try (eapply IH; eauto; fail). apply obind_some in Hr1. destruct Hr1 as [p [_ Hr1]]. eapply IH; eauto.
  Qed.
  Lemma omap_lookup {A B} (f : nat * A -> option B) (cs : list (nat * A)) cs' : omap (fun p => let* c := f p in Some (fst p, c)) cs = Some cs' -> forall id b, lookup id cs' = Some b -> exists a, lookup id cs = Some a /\ f (id, a) = Some b.
  Proof.
    intros X. apply omap_some in X. induction X as [|[k a] [k' b'] cs cs' Hab X IH]; intros id b Hl; [discriminate|]. apply obind_some in Hab. destruct Hab as [c [Hf Hab]]. cbn [fst] in Hab. injection Hab as -> ->. cbn [lookup] in *.
    destruct (Nat.eqb_spec k' id); subst; [injection Hl as <-; eauto|auto].
  Qed.
  Lemma export_kinds (hn : RootCircuit HI) hl ex : remove_and_export_hints hn = Some (hl, ex) -> holds HI KH hn -> holds LI KL hl /\ holds HI KH ex.
  Proof.
    unfold remove_and_export_hints. intros X Hh. apply obind_some in X. destruct X as [sz [_ X]]. apply obind_some in X. destruct X as [rm [X1 X]]. apply obind_some in X. destruct X as [xp [X2 X]]. injection X as <- <-. split; intros id c Hc; cbn [circuits] in Hc.
    - destruct (omap_lookup (fun p => remove_hints sz (fst p) (snd p)) _ _ X1 id c Hc) as [a [Ha E]]. cbn [fst snd] in E. unfold remove_hints in E. apply obind_some in E. destruct E as [[tot self] [_ E]]. apply obind_some in E. destruct E as [[[is' vm] s] [E1 E]]. destruct (s =? _); [|discriminate]. injection E as <-. cbn [instructions]. eapply rh_kinds; [exact E1|]. exact (Hh id a Ha).
    - destruct (omap_lookup (fun p => export_hints (fst p =? 0) sz (snd p)) _ _ X2 id c Hc) as [a [Ha E]]. cbn [fst snd] in E. unfold export_hints in E. apply obind_some in E. destruct E as [[[[is' vm] o1] s] [E1 E]]. injection E as <-. cbn [instructions]. eapply ex_kinds; [exact E1|]. exact (Hh id a Ha).
  Qed.
  Lemma rn_kinds is : forall vm new is' vm', rn_insns HI is vm new = (is', vm') -> Forall KH is -> Forall KH is'.
  Proof.
    induction is as [|i is IH]; intros vm new is' vm' X H; cbn [rn_insns] in X; [injection X as <- _; constructor|]. destruct (rn_insns HI is _ _) as [is1 vm1] eqn:E. injection X as <- _. inversion H; subst. constructor; [apply KH_replace; auto|eapply IH; eauto].
  Qed.
  Lemma back_kinds EM im (rc rc' : RootCircuit HI) : add_back_removed_inputs HI EM im rc = Some rc' -> holds HI KH rc -> holds HI KH rc'.
  Proof.
    unfold add_back_removed_inputs. intros X Hh. apply obind_some in X. destruct X as [c0 [Hc0 X]]. apply obind_some in X. destruct X as [c1 [H1 X]]. injection X as <-. intros id c Hc. cbn [circuits] in Hc. rewrite set_circuit_lookup in Hc. destruct (id =? 0); [|apply (Hh id c Hc)]. injection Hc as <-.
    unfold add_back1 in H1. apply obind_some in H1. destruct H1 as [ids [_ H1]]. destruct (rn_insns HI _ _ _) as [is' vm] eqn:E. injection H1 as <-. cbn [instructions]. eapply rn_kinds; [exact E|]. exact (Hh 0 c0 Hc0).
  Qed.
  Lemma place_kinds K im (rc rc' : RootCircuit HI) : place_outputs K im rc = Some rc' -> holds HI KH rc -> holds HI KH rc'.
  Proof.
    unfold place_outputs. intros X Hh. apply obind_some in X. destruct X as [c0 [Hc0 X]]. apply obind_some in X. destruct X as [outs [_ X]]. injection X as <-. intros id c Hc. cbn [circuits] in Hc. rewrite set_circuit_lookup in Hc. destruct (id =? 0); [|apply (Hh id c Hc)]. injection Hc as <-. apply (Hh 0 c0 Hc0).
  Qed.
End HnKinds.

(* ------------------------------------------------------------ through the whole compilation *)
Section SrcKinds.
  Context {F : Fld} (K : Config) (o : Options) (rc : RootCircuit (SrcI F)) (t : Trace (F := F)) (ex : RootCircuit (HnI F)) (lc : LCircuit F).
  Hypothesis H : compiles K o rc t ex lc.
  Hypothesis Hk : NoDup (keys (circuits rc)).
  Variable c0 : Circuit (SrcI F).
  Hypothesis Hc0 : lookup 0 (circuits rc) = Some c0.
  Hypothesis Hsz : num_inputs c0 <= EMPTY K.
  Variables d g : Prop.
  Hypothesis Hrc : holds (SrcI F) (KS d g) rc.
  Notation SI := (SrcI F). Notation HI := (HnI F). Notation LI := (HlI F).
  Lemma src_kinds : holds SI (KS d g) (t_src t).
  Proof.
    apply (src_ok K o rc t ex lc H Hk c0 Hc0 Hsz (fun _ => False) (KS d g)); auto; [apply KS_ipred|intros l|intros l|intros z E _ []]; split; intros; try split; intros; discriminate.
  Qed.
  Lemma thn_kinds : holds HI (KH d g) (t_hn t).
  Proof.
    destruct (hn_ok K o rc t ex lc H Hk c0 Hc0 Hsz) as [hn [E1 [Hin [_ [Wh _]]]]]. pose proof (src_any K o rc t ex lc H Hk c0 Hc0 Hsz) as S. pose proof (src_valid K o rc t ex lc H Hk c0 Hc0 Hsz) as V.
    pose proof (hn_kinds d g (t_src t) hn (st_wf _ _ _ _ _ _ S) (validate_insns_valid _ V) E1 src_kinds) as Hh. destruct (stage_out _ _ _ _ _ _ S) as [O1 [G1 _]].
    pose proof (c_hn _ _ _ _ _ _ H) as X. unfold step_1_hints in X. apply obind_some in X. destruct X as [hn' [X1 X]]. apply ok_some in X1. rewrite E1 in X1. injection X1 as <-. apply obind_some in X. destruct X as [[y1 im1] [X2 X]]. apply obind_some in X. destruct X as [u [_ X]]. injection X as -> ->.
    destruct (opt_stage_ok K o (HnL F) (fun _ => False) (KH d g) False h_eqb hn (t_src_im t) (t_hn t) (t_hn_im t)) as [_ [A _]]; auto.
    - intros a b. apply root_eqb_spec.
    - apply KH_ipred.
    - intros z E _ [].
    - apply (opts K o rc t ex lc H).
    - apply Hin; auto.
    - intros [].
  Qed.
  Lemma split_kinds : holds LI (KL d) (t_hl t) /\ holds HI (KH d g) (t_ex t).
  Proof. apply (export_kinds d g (t_hn t)); [|apply thn_kinds]. apply (c_split _ _ _ _ _ _ H). Qed.
  Lemma solver_kinds : holds HI (KH d g) ex.
  Proof.
    pose proof (c_back _ _ _ _ _ _ H) as B. apply (back_kinds d g _ _ _ _ B). pose proof (c_placed _ _ _ _ _ _ H) as P. pose proof (place_kinds d g _ _ _ _ P (proj2 split_kinds)) as Hp.
    pose proof (c_solver _ _ _ _ _ _ H) as S. unfold step_4 in S. apply obind_some in S. destruct S as [u [_ S]]. destruct (2 <=? opt_level o); [|injection S as <- _; auto].
    assert (Hf : forall x y imy, remove_unreachable HI (EMPTY K) x = Some (y, imy) -> holds HI (KH d g) x -> holds HI (KH d g) y) by (intros x y imy X Y; exact (ru_holds HI (KH d g) (KH_ipred d g) (EMPTY K) x y imy X Y)).
    assert (Hloop : forall fl x im y im', opt_loop (EMPTY K) h_eqb (remove_unreachable HI (EMPTY K)) fl x im = Some (y, im') -> holds HI (KH d g) x -> holds HI (KH d g) y).
    { induction fl as [|fl IH]; intros x im y im' X Hx; cbn [opt_loop] in X; [discriminate|]. apply obind_some in X. destruct X as [[z imz] [X1 X]]. cbn [fst snd] in X. destruct (h_eqb x z); [injection X as <- _; auto|]. apply obind_some in X. destruct X as [im2 [_ X]]. eapply IH; eauto. }
    unfold optimize_until_fixed_point in S. apply obind_some in S. destruct S as [[z imz] [X1 X]]. cbn [fst snd] in X. destruct (h_eqb _ z); [injection X as X _; rewrite <- X; eapply Hf; eauto|]. apply obind_some in X. destruct X as [im2 [_ X]]. eapply Hloop; eauto.
  Qed.
End SrcKinds.
