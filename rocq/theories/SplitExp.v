(* Facts about ir_split.rs: replacing sub-circuit calls by calls of their segments (phase one) keeps what a circuit computes. *)
From Verif Require Import Prelude Field Sorting Expr Topo Ir IrFacts IrInst Sim Builder BuilderFacts LaySched Layering IrSplit SplitComb SplitCut SplitSegs SplitSem.
Open Scope nat_scope.

Section Exp.
  Context {F : Fld}.
  Notation DI := (DestI F false).
  Add Field Fse : (fth F).
  Let L : IRC_laws DI := DestL F false.
  Notation Pool := (CPool (F := F)).

  Lemma app_inj_len {A} (a b c d : list A) : a ++ b = c ++ d -> length a = length c -> a = c /\ b = d.
  Proof. revert c. induction a as [|x a IH]; intros [|y c] H Hl; cbn in *; try discriminate; auto. inversion H; subst. destruct (IH c) as [-> ->]; auto. Qed.
  (* the circuits cs contain the pool and can be run *)
  Record ctx (E : Env F) (cs : list (nat * Circuit DI)) (Pf : Pool) : Prop := {
    x_cs : forall id c, cpool_get Pf id = Some c -> lookup id cs = Some c;
    x_ok : pool_ok Pf;
    x_ncon : forall id c, lookup id cs = Some c -> constraints c = [];
    x_r : exists r, e_rnd E r;
    x_tot : forall id c ins, cpool_get Pf id = Some c -> length ins = num_inputs c -> exists outs, run DI E cs id ins outs true }.
  (* the sums of constraints a circuit with verdict b may give *)
  Definition T (E : Env F) (b : bool) (a : F) : Prop := (b = true /\ a = f0) \/ (b = false /\ forall r, e_rnd E r).
  Lemma T_split E b1 b2 a : T E (b1 && b2) a -> exists a1 a2, a = fadd a1 a2 /\ T E b1 a1 /\ T E b2 a2.
  Proof.
    intros [[H ->]|[H HR]].
    - apply andb_true_iff in H. destruct H as [-> ->]. exists f0, f0. split; [ring|]. split; left; auto.
    - destruct b1; cbn in H; [subst b2; exists f0, a; split; [ring|]; split; [left; auto|right; auto]|]. exists a, f0. split; [ring|]. split; [right; auto|]. destruct b2; [left; auto|right; auto].
  Qed.

  Variable cs0 : list (nat * Circuit DI).
  (* the circuits whose constraints show up as extra outputs *)
  Variable need : nat -> Prop.
  Definition sub_ok (id : nat) (pool : Pool) (sp : Spl) (pool' : Pool) : Prop :=
    forall c, lookup id cs0 = Some c -> pool_ok pool -> pool_ok pool' /\ pool_le pool pool' /\ (exists k, spl_ok pool' (num_inputs c) (length (outputs c) + k) sp /\ (need id -> 0 < k)) /\
      forall E cs Pf, ctx E cs Pf -> pool_le pool' Pf ->
        (forall ins all, length ins = num_inputs c -> spl_run E cs ins sp all -> exists b, run DI E cs0 id ins (firstn (length (outputs c)) all) b /\ (b = true -> fsum F (skipn (length (outputs c)) all) = f0)) /\
        (spl_known sp -> forall ins outs b a, length ins = num_inputs c -> run DI E cs0 id ins outs b -> T E b a -> exists ccs, spl_run E cs ins sp (outs ++ ccs) /\ fsum F ccs = a).

  (* ------------------------------------------------------------ the calls of the segments *)
  Section Call.
    Variable vnew l : list nat.
    Variable base : nat.
    Hypothesis Hb : 0 < base.
    Hypothesis Hvn : forall y x, In y l -> nth_error vnew y = Some x -> 0 < x < base.
    Notation inv nv := (map (fun x => getv nv (getn vnew x)) l).
    Lemma deref_spec r x cnt : deref vnew l (base - 1) r = Some x -> sref_ok (length l) cnt r ->
      known r /\ 0 < x < base + cnt /\ forall (nv ints : list F), length nv = base -> length ints = cnt -> rval (inv nv) ints r = Some (getv (nv ++ ints) x).
    Proof.
      intros H Hr. destruct r as [i|i|]; cbn [deref sref_ok] in *; [| |discriminate]; (split; [discriminate|]).
      - apply obind_some in H. destruct H as [y [Hy Hx]]. pose proof (Hvn y x (nth_error_In _ _ Hy) Hx) as Hrange. split; [lia|]. intros nv ints Hn Hi. cbn [rval]. rewrite nth_error_map, Hy. cbn [option_map]. f_equal. unfold getn. rewrite (nth_error_nth _ _ _ Hx). rewrite getv_app_l by lia. auto.
      - inversion H; subst. split; [lia|]. intros nv ints Hn Hi. cbn [rval]. rewrite getv_app_r by lia. unfold getv. rewrite Hn. replace (base - 1 + i + 1 - base) with i by lia. apply nth_error_nth'. lia.
    Qed.
    Lemma derefs_spec rs xs cnt : omap (deref vnew l (base - 1)) rs = Some xs -> Forall (sref_ok (length l) cnt) rs ->
      Forall known rs /\ Forall (fun x => 0 < x < base + cnt) xs /\ forall (nv ints : list F), length nv = base -> length ints = cnt -> omap (rval (inv nv) ints) rs = Some (map (getv (nv ++ ints)) xs).
    Proof.
      intros H Hr. apply omap_some in H. induction H as [|r x rs xs Hx H IH]; [split; [constructor|]; split; [constructor|reflexivity]|]. inversion Hr; subst. destruct (deref_spec r x cnt Hx H2) as [A1 [A2 A3]]. destruct (IH H3) as [B1 [B2 B3]].
      split; [constructor; auto|]. split; [constructor; auto|]. intros nv ints Hn Hi. cbn [omap map]. rewrite (A3 nv ints Hn Hi), (B3 nv ints Hn Hi). reflexivity.
    Qed.
    Lemma call_segs_spec (pool : Pool) segs : forall insns ml sc insns' ml' sc' cnt cnt', call_segs pool vnew l (base - 1) segs insns ml sc = Some (insns', ml', sc') ->
      segs_ok pool (length l) cnt segs cnt' -> length ml = base + cnt ->
      exists more, insns' = insns ++ more /\ length ml' = base + cnt' /\ cnt' = cnt + nouts DI more /\ wf_insns DI more (base + cnt - 1) /\ Forall (pcall pool) more /\ (forall s, In s segs -> Forall known (sg_ins s)) /\
        forall E cs Pf, ctx E cs Pf -> pool_le pool Pf -> forall nv ints nv', length nv = base -> length ints = cnt ->
          exec DI E cs more (nv ++ ints) nv' true <-> exists ints', nv' = nv ++ ints' /\ length ints' = cnt' /\ segs_run E cs (inv nv) segs ints ints'.
    Proof.
      induction segs as [|s segs IH]; intros insns ml sc insns' ml' sc' cnt cnt' H Hok Hml; cbn [call_segs segs_ok] in H, Hok.
      - inversion H; subst. exists []. rewrite app_nil_r. split; auto. split; auto. split; [cbn; lia|]. split; [constructor|]. split; [constructor|]. split; [intros s []|]. intros E cs Pf HX Hle nv ints nv' Hn Hi. rewrite exec_nil. cbn [segs_run]. split.
        + intros [-> _]. exists ints. auto.
        + intros [ints' [-> [_ ->]]]. auto.
      - destruct Hok as [c [K1 [K2 [K3 K4]]]]. rewrite K1 in H. cbn [obind] in H. apply obind_some in H. destruct H as [ci [Hci H]]. apply obind_some in H. destruct H as [[] [_ H]].
        destruct (derefs_spec _ _ _ Hci K3) as [D1 [D2 D3]]. assert (Hlci : length ci = num_inputs c) by (apply omap_length in Hci; congruence).
        destruct (IH _ _ _ _ _ _ (cnt + length (outputs c)) cnt' H K4) as [more [M1 [M2 [M3 [M4 [M5 [M6 M7]]]]]]]; [rewrite app_length, repeat_length; lia|].
        exists (DCall (sg_id s) ci (length (outputs c)) :: more). split; [rewrite M1, <- app_assoc; auto|]. split; auto. split; [cbn [nouts]; change (@i_nout F DI (DCall (sg_id s) ci (length (outputs c)))) with (length (outputs c)); lia|].
        split. { split; [eapply Forall_impl; [|exact D2]; cbn; intros; lia|]. change (@i_nout F DI (DCall (sg_id s) ci (length (outputs c)))) with (length (outputs c)). replace (base + cnt - 1 + length (outputs c)) with (base + (cnt + length (outputs c)) - 1) by lia. auto. }
        split. { constructor; auto. intros id l0 n0 E0. inversion E0; subst. exists c. auto. }
        split. { intros s' [<-|Hs']; auto. }
        intros E cs Pf HX Hle nv ints nv' Hn Hi. rewrite exec_cons. cbn [segs_run]. split.
        + intros [outs [b1 [b2 [X1 [X2 Eb]]]]]. unfold step in X1. cbn [i_call DestI d_call] in X1. destruct X1 as [_ X1]. pose proof (run_true E cs (x_ncon _ _ _ HX) _ _ _ _ X1) as ->. pose proof (exec_true E cs (x_ncon _ _ _ HX) _ _ _ _ X2) as ->.
          assert (Hlo : length outs = length (outputs c)) by (eapply run_len; [exact X1|]; eapply x_cs; eauto; eapply pool_le_get; eauto).
          rewrite <- app_assoc in X2. apply (M7 E cs Pf HX Hle) in X2; auto; [|rewrite app_length; lia]. destruct X2 as [ints' [-> [Hl' Hr]]]. exists ints'. split; auto. split; auto. exists (map (getv (nv ++ ints)) ci), outs. split; auto.
        + intros [ints' [-> [Hl' [lv [outs [R1 [R2 R3]]]]]]]. rewrite (D3 nv ints Hn Hi) in R1. inversion R1; subst lv. exists outs, true, true. assert (Hlo : length outs = length (outputs c)) by (eapply run_len; [exact R2|]; eapply x_cs; eauto; eapply pool_le_get; eauto). split; [|split; auto].
          * unfold step. cbn [i_call DestI d_call]. split; auto. eapply Forall_impl; [|exact D2]. unfold inb. rewrite app_length. cbn. intros; lia.
          * rewrite <- app_assoc. apply (M7 E cs Pf HX Hle); auto; [rewrite app_length; lia|]. exists ints'. auto.
    Qed.
  End Call.

  (* ------------------------------------------------------------ one instruction *)
  Variable nin : nat.
  Record Pst (P : P1 (F := F)) : Prop := {
    q_len : length (p_ml P) = S (nin + nouts DI (p_insns P));
    q_vn : forall j x, nth_error (p_vnew P) j = Some x -> x < length (p_ml P) /\ (0 < j -> 0 < x);
    q_wf : wf_insns DI (p_insns P) nin;
    q_sub : Forall (fun x => 0 < x < length (p_ml P)) (p_sub P);
    q_pc : Forall (pcall (p_pool P)) (p_insns P);
    q_ok : pool_ok (p_pool P) }.
  Definition rel (P : P1 (F := F)) (ov nv : list F) : Prop :=
    length ov = length (p_vnew P) /\ length nv = length (p_ml P) /\ forall j x, nth_error (p_vnew P) j = Some x -> getv ov j = getv nv x.

  Variable layers : nat -> list nat -> option (list nat * list nat).
  Variable rec : nat -> list nat -> Pool -> option (Spl * Pool).
  Hypothesis Hrec : forall id il pool sp pool', rec id il pool = Some (sp, pool') -> (forall c, lookup id cs0 = Some c -> length il = num_inputs c) -> sub_ok id pool sp pool'.
  Definition sim (old : list (DInsn F)) (P P' : P1 (F := F)) : Prop :=
    Pst P' /\ length (p_vnew P') = length (p_vnew P) + nouts DI old /\ pool_le (p_pool P) (p_pool P') /\
    exists more msub, p_insns P' = p_insns P ++ more /\ p_sub P' = p_sub P ++ msub /\ (forall o l n, In (DCall o l n) old -> need o -> msub <> []) /\
      forall E cs Pf, ctx E cs Pf -> pool_le (p_pool P') Pf -> forall ov nv, rel P ov nv ->
        (forall nv', exec DI E cs more nv nv' true -> exists ov' b, exec DI E cs0 old ov ov' b /\ rel P' ov' nv' /\ (b = true -> vsum (getv nv') msub = f0)) /\
        (forall ov' b a, exec DI E cs0 old ov ov' b -> T E b a -> exists nv', exec DI E cs more nv nv' true /\ rel P' ov' nv' /\ vsum (getv nv') msub = a).
  Lemma exec_one E cs (i : DInsn F) vals vals' b : exec DI E cs [i] vals vals' b <-> exists outs, step DI E cs i vals outs b /\ vals' = vals ++ outs.
  Proof.
    rewrite exec_cons. split.
    - intros [outs [b1 [b2 [H1 [H2 ->]]]]]. apply exec_nil in H2. destruct H2 as [-> ->]. exists outs. rewrite andb_true_r. auto.
    - intros [outs [H1 ->]]. exists outs, b, true. rewrite andb_true_r. split; auto. split; auto. constructor.
  Qed.
  Lemma ext_rel P P' ov nv u : rel P ov nv -> Pst P -> p_vnew P' = p_vnew P ++ [length (p_ml P)] -> length (p_ml P') = S (length (p_ml P)) -> rel P' (ov ++ [u]) (nv ++ [u]).
  Proof.
    intros [R1 [R2 R3]] HP Ev Em. split; [rewrite Ev, !app_length; cbn; lia|]. split; [rewrite app_length, Em; cbn; lia|]. intros j x Hj. rewrite Ev in Hj. destruct (Nat.lt_ge_cases j (length (p_vnew P))) as [Hlt|Hge].
    - rewrite nth_error_app1 in Hj by auto. destruct (q_vn P HP j x Hj) as [Hx _]. rewrite !getv_app_l by lia. auto.
    - rewrite nth_error_app2 in Hj by auto. destruct (j - length (p_vnew P)) as [|k] eqn:Ek; [|destruct k; discriminate]. cbn in Hj. inversion Hj; subst x. rewrite !getv_app_r by lia. rewrite R1, Ek, R2, Nat.sub_diag. reflexivity.
  Qed.
  Lemma ext_pst P P' i : Pst P -> p_vnew P' = p_vnew P ++ [length (p_ml P)] -> length (p_ml P') = S (length (p_ml P)) -> p_insns P' = p_insns P ++ [i] -> p_sub P' = p_sub P -> p_pool P' = p_pool P ->
    d_nout F i = 1 -> pcall (p_pool P) i -> Forall (fun x => 0 < x < length (p_ml P)) (d_inputs F i) -> Pst P'.
  Proof.
    intros HP Ev Em Ei Es Ep Hn Hpc Hin. destruct HP as [Q1 Q2 Q3 Q4 Q5 Q6]. constructor.
    - rewrite Ei, nouts_app, Em, Q1. cbn [nouts]. change (@i_nout F DI i) with (d_nout F i). lia.
    - intros j x Hj. rewrite Ev in Hj. rewrite Em. destruct (Nat.lt_ge_cases j (length (p_vnew P))) as [Hlt|Hge].
      + rewrite nth_error_app1 in Hj by auto. destruct (Q2 j x Hj). split; [lia|auto].
      + rewrite nth_error_app2 in Hj by auto. destruct (j - length (p_vnew P)) as [|k] eqn:Ek; [|destruct k; discriminate]. cbn in Hj. inversion Hj; subst x. split; [lia|]. intros _. lia.
    - rewrite Ei. apply wf_insns_app. split; auto. split; [|constructor]. change (@i_inputs F DI i) with (d_inputs F i). eapply Forall_impl; [|exact Hin]. cbn. intros; lia.
    - rewrite Es, Em. eapply Forall_impl; [|exact Q4]. cbn. intros; lia.
    - rewrite Ei, Ep. apply Forall_app. split; auto.
    - rewrite Ep. auto.
  Qed.
  Lemma segs_run_len E cs Pf (pool : Pool) n ins : ctx E cs Pf -> pool_le pool Pf -> forall segs cnt cnt' ints ints', segs_ok pool n cnt segs cnt' -> segs_run E cs ins segs ints ints' -> length ints = cnt -> length ints' = cnt'.
  Proof.
    intros HX Hle. induction segs as [|s segs IH]; intros cnt cnt' ints ints' Hok Hr Hl; cbn [segs_ok segs_run] in *; [congruence|]. destruct Hok as [c [K1 [K2 [K3 K4]]]]. destruct Hr as [lv [outs [R1 [R2 R3]]]].
    eapply IH; eauto. rewrite app_length. assert (Hlo : length outs = length (outputs c)) by (eapply run_len; [exact R2|]; eapply x_cs; eauto; eapply pool_le_get; eauto). lia.
  Qed.
  Lemma deref_cc_deref vnew l pre rs xs : omap (deref_cc pre) rs = Some xs -> omap (deref vnew l pre) rs = Some xs.
  Proof. intros H. apply omap_some in H. apply omap_some. induction H as [|[i|i|] x rs xs Hx H IH]; constructor; auto; cbn in *; try discriminate; auto. Qed.
  Lemma call_sim id l n P P' : expand1 layers rec (DCall id l n) P = Some P' -> Pst P -> length (p_vnew P) > 0 -> Forall (fun x => 0 < x < length (p_vnew P)) l -> call_wf DI cs0 (DCall id l n) -> sim [DCall id l n] P P'.
  Proof.
    intros H HP Hne Hin Hcw. pose proof HP as [Q1 Q2 Q3 Q4 Q5 Q6]. destruct (Hcw id l n eq_refl) as [c [Hc [Hll Hn]]]. rewrite Forall_forall in Hin. cbn [expand1] in H. set (il := map _ l) in H.
    apply obind_some in H. destruct H as [[sp pool'] [Hrc H]]. apply obind_some in H. destruct H as [ol [_ H]]. cbv zeta in H. apply obind_some in H. destruct H as [[[insns' ml'] sc'] [Hcs H]]. cbn [fst snd] in *. apply obind_some in H. destruct H as [outs [Ho H]]. apply obind_some in H. destruct H as [[] [_ H]]. apply obind_some in H. destruct H as [ccs [Hcc H]]. inversion H; subst P'. clear H.
    destruct (Hrec _ _ _ _ _ Hrc) with (c := c) as [A1 [A2 [[k [[cnt [A3 [A4 A5]]] A7]] A6]]]; auto; [intros c1 Hc1; unfold il; rewrite map_length; congruence|]. set (base := length (p_ml P)) in *. assert (Hbase : 0 < base) by lia.
    assert (Hvn : forall y x, In y l -> nth_error (p_vnew P) y = Some x -> 0 < x < base). { intros y x Hy Hx. destruct (Q2 y x Hx) as [H1 H2]. specialize (Hin y Hy). split; [apply H2; lia|auto]. }
    rewrite <- Hll in A3, A4. destruct (call_segs_spec (p_vnew P) l base Hbase Hvn pool' _ _ _ _ _ _ _ 0 cnt Hcs A3) as [more [M1 [M2 [M3 [M4 [M5 [M6 M7]]]]]]]; [lia|]. cbn [Nat.add] in M3. rewrite Nat.add_0_r in M4.
    apply deref_cc_deref with (vnew := p_vnew P) (l := l) in Hcc. rewrite <- (firstn_skipn n (sp_outs sp)) in A4. apply Forall_app in A4. destruct A4 as [A4a A4b].
    destruct (derefs_spec (p_vnew P) l base Hbase Hvn _ _ _ Ho A4a) as [O1 [O2 O3]]. destruct (derefs_spec (p_vnew P) l base Hbase Hvn _ _ _ Hcc A4b) as [C1 [C2 C3]].
    assert (Hlo : length outs = n). { apply omap_length in Ho. rewrite Ho, firstn_length. lia. }
    assert (Hall : forall nv ints : list F, length nv = base -> length ints = cnt -> omap (rval (map (fun x => getv nv (getn (p_vnew P) x)) l) ints) (sp_outs sp) = Some (map (getv (nv ++ ints)) outs ++ map (getv (nv ++ ints)) ccs)).
    { intros nv ints H1 H2. rewrite <- (firstn_skipn n (sp_outs sp)) at 1. rewrite omap_app, (O3 nv ints H1 H2), (C3 nv ints H1 H2). reflexivity. }
    set (P' := {| p_vnew := _ |}). assert (HP' : Pst P').
    { constructor; cbn [P' p_ml p_insns p_vnew p_sub p_pool].
      - rewrite M1, nouts_app, M2. lia.
      - intros j x Hj. rewrite M2. destruct (Nat.lt_ge_cases j (length (p_vnew P))) as [Hlt|Hge].
        + rewrite nth_error_app1 in Hj by auto. destruct (Q2 j x Hj). fold base in H. split; [lia|auto].
        + rewrite nth_error_app2 in Hj by auto. rewrite Forall_forall in O2. specialize (O2 x (nth_error_In _ _ Hj)). split; [lia|intros _; lia].
      - rewrite M1. apply wf_insns_app. split; auto. replace (nin + nouts DI (p_insns P)) with (base - 1) by (fold base in Q1; lia). auto.
      - rewrite M2. apply Forall_app. split; [eapply Forall_impl; [|exact Q4]; cbn; fold base; intros; lia|]. eapply Forall_impl; [|exact C2]. cbn. intros; lia.
      - rewrite M1. apply Forall_app. split; auto. eapply Forall_impl; [|exact Q5]. intros i. apply pcall_le. auto.
      - auto. }
    split; auto. cbn [P' p_vnew p_pool p_insns p_sub]. split; [rewrite app_length; cbn [nouts]; change (@i_nout F DI (DCall id l n)) with n; lia|]. split; auto. exists more, ccs. split; auto. split; auto. split.
    { intros o l1 n1 [Hi|[]] Hneed. inversion Hi; subst o l1 n1. specialize (A7 Hneed). intros ->. apply omap_length in Hcc. rewrite skipn_length in Hcc. cbn [length] in Hcc. lia. }
    intros E cs Pf HX Hle ov nv Hrel. pose proof Hrel as [R1 [R2 R3]]. fold base in R2. destruct (A6 E cs Pf HX Hle) as [SA SB].
    assert (Hins : map (getv ov) l = map (fun x => getv nv (getn (p_vnew P) x)) l). { apply map_ext_in. intros x Hx. apply R3. apply nth_error_nth'. specialize (Hin x Hx). lia. }
    assert (Hrel' : forall (ints ovs : list F), length ints = cnt -> ovs = map (getv (nv ++ ints)) outs -> rel P' (ov ++ ovs) (nv ++ ints)).
    { intros ints ovs Hli ->. split; [cbn [P' p_vnew]; rewrite !app_length, map_length; lia|]. split; [cbn [P' p_ml]; rewrite app_length; lia|]. intros j x Hj. cbn [P' p_vnew] in Hj. destruct (Nat.lt_ge_cases j (length (p_vnew P))) as [Hlt|Hge].
      - rewrite nth_error_app1 in Hj by auto. destruct (Q2 j x Hj). fold base in H. rewrite !getv_app_l by lia. auto.
      - rewrite nth_error_app2 in Hj by auto. rewrite (getv_app_r ov) by lia. rewrite R1. unfold getv at 1. apply nth_error_nth. rewrite nth_error_map, Hj. reflexivity. }
    split.
    - intros nv' Hx. rewrite <- (app_nil_r nv) in Hx. apply (M7 E cs Pf HX Hle) in Hx; auto. destruct Hx as [ints [-> [Hli Hr]]].
      destruct (SA (map (fun x => getv nv (getn (p_vnew P) x)) l) (map (getv (nv ++ ints)) outs ++ map (getv (nv ++ ints)) ccs)) as [b [B1 B2]]; [rewrite map_length; auto|exists ints; auto|].
      assert (Hm : length (map (getv (nv ++ ints)) outs) = length (outputs c)) by (rewrite map_length; lia). rewrite <- Hm in B1, B2. rewrite firstn_app, Nat.sub_diag, firstn_all, firstn_O, app_nil_r in B1. rewrite skipn_app, Nat.sub_diag, skipn_all, skipn_O in B2. cbn [app] in B2.
      exists (ov ++ map (getv (nv ++ ints)) outs), b. split; [|split; auto]. apply exec_one. exists (map (getv (nv ++ ints)) outs). split; auto. unfold step. cbn [i_call DestI d_call]. split; [apply Forall_forall; intros x Hx; unfold inb; specialize (Hin x Hx); lia|]. rewrite Hins. auto.
    - intros ov' b a Hx HT. apply exec_one in Hx. destruct Hx as [ovs [Hs ->]]. unfold step in Hs. cbn [i_call DestI d_call] in Hs. destruct Hs as [_ Hs]. rewrite Hins in Hs.
      assert (Hkn : spl_known sp). { split; auto. rewrite <- (firstn_skipn n (sp_outs sp)). apply Forall_app. auto. }
      destruct (SB Hkn _ _ _ a ltac:(rewrite map_length; exact Hll) Hs HT) as [ccv [[ints [Hr Hv]] Hsum]]. assert (Hli : length ints = cnt) by (eapply (segs_run_len E cs Pf pool'); eauto; reflexivity).
      rewrite (Hall nv ints R2 Hli) in Hv. inversion Hv as [Hv']. assert (Hlv : length (map (getv (nv ++ ints)) outs) = length ovs). { rewrite map_length, Hlo, Hn. symmetry. eapply run_len; eauto. }
      apply app_inj_len in Hv'; auto. destruct Hv' as [Hv1 Hv2]. exists (nv ++ ints). split; [|split].
      + rewrite <- (app_nil_r nv) at 1. apply (M7 E cs Pf HX Hle); auto. exists ints. auto.
      + apply Hrel'; auto.
      + unfold vsum. rewrite Hv2. auto.
  Qed.
  Lemma expand1_sim i P P' : expand1 layers rec i P = Some P' -> Pst P -> length (p_vnew P) > 0 -> Forall (fun x => 0 < x < length (p_vnew P)) (d_inputs F i) -> call_wf DI cs0 i -> sim [i] P P'.
  Proof.
    intros H HP Hne Hin Hcw. pose proof HP as [Q1 Q2 Q3 Q4 Q5 Q6]. assert (Hgx : forall x, 0 < x < length (p_vnew P) -> nth_error (p_vnew P) x = Some (getn (p_vnew P) x)) by (intros x Hx; apply nth_error_nth'; lia).
    rewrite Forall_forall in Hin. destruct i as [e|id l n|k]; cbn [expand1] in H.
    - inversion H; subst P'. cbn [d_inputs] in Hin. assert (HP' : Pst {| p_vnew := p_vnew P ++ [length (p_ml P)]; p_insns := p_insns P ++ [DVar (e_replace F (fun x => getn (p_vnew P) x) e)]; p_sub := p_sub P; p_ml := p_ml P ++ [expr_layer (p_ml P) (e_replace F (fun x => getn (p_vnew P) x) e)]; p_sc := p_sc P; p_pool := p_pool P |}).
      { eapply (ext_pst P _ (DVar (e_replace F (fun x => getn (p_vnew P) x) e))); auto; cbn [p_ml].
        - rewrite app_length. cbn. lia.
        - intros ? ? ? ?; discriminate.
        - cbn [d_inputs]. rewrite e_replace_vars. apply Forall_forall. intros y Hy. apply in_map_iff in Hy. destruct Hy as [x [<- Hx]]. specialize (Hin x Hx). destruct (Q2 x _ (Hgx x Hin)). lia. }
      split; auto. cbn [p_vnew p_pool p_insns p_sub]. split; [rewrite app_length; cbn; lia|]. split; [apply pool_le_refl|]. exists [DVar (e_replace F (fun x => getn (p_vnew P) x) e)], []. split; auto. split; [rewrite app_nil_r; auto|]. split; [intros o l n [Hi|[]]; discriminate|].
      intros E cs Pf HX Hle ov nv Hrel. pose proof Hrel as [R1 [R2 R3]].
      assert (Hes : forall u, expr_sem F E (getv nv) (e_replace F (fun x => getn (p_vnew P) x) e) u <-> expr_sem F E (getv ov) e u).
      { intros u. rewrite expr_sem_replace. split; apply expr_sem_ext; intros x Hx; [symmetry|]; apply R3, Hgx, Hin; auto. }
      assert (Hst1 : forall u, step DI E cs (DVar (e_replace F (fun x => getn (p_vnew P) x) e)) nv [u] true <-> expr_sem F E (getv ov) e u).
      { intros u. unfold step. cbn [i_call DestI d_call i_inputs d_inputs i_sem d_sem]. split.
        - intros [_ [[u' [Eu Hu]] _]]. inversion Eu; subst. apply Hes. auto.
        - intros Hu. split; [|split; auto]. + rewrite e_replace_vars. apply Forall_forall. intros y Hy. apply in_map_iff in Hy. destruct Hy as [x [<- Hx]]. unfold inb. rewrite R2. apply (Q2 x _ (Hgx x (Hin x Hx))). + exists u. split; auto. apply Hes. auto. }
      assert (Hst0 : forall u, expr_sem F E (getv ov) e u -> step DI E cs0 (DVar e) ov [u] true).
      { intros u Hu. unfold step. cbn [i_call DestI d_call i_inputs d_inputs i_sem d_sem]. split; [apply Forall_forall; intros x Hx; unfold inb; rewrite R1; apply Hin; auto|]. split; auto. exists u. auto. }
      split.
      + intros nv' Hx. apply exec_one in Hx. destruct Hx as [outs [Hs ->]]. assert (Hu : exists u, outs = [u] /\ expr_sem F E (getv ov) e u). { unfold step in Hs. cbn in Hs. destruct Hs as [_ [[u [-> Hu]] _]]. exists u. split; auto. apply Hes. auto. }
        destruct Hu as [u [-> Hu]]. exists (ov ++ [u]), true. split; [apply exec_one; eauto|]. split; [|intros _; reflexivity]. eapply ext_rel; eauto. cbn. rewrite app_length. cbn. lia.
      + intros ov' b a Hx HT. apply exec_one in Hx. destruct Hx as [outs [Hs ->]]. unfold step in Hs. cbn in Hs. destruct Hs as [_ [[u [-> Hu]] ->]]. exists (nv ++ [u]). split; [apply exec_one; exists [u]; split; auto; apply Hst1; auto|]. split; [eapply ext_rel; eauto; cbn; rewrite app_length; cbn; lia|]. destruct HT as [[_ ->]|[HT _]]; [reflexivity|discriminate].
    - apply call_sim; auto. apply Forall_forall. auto.
    - inversion H; subst P'. assert (HP' : Pst {| p_vnew := p_vnew P ++ [length (p_ml P)]; p_insns := p_insns P ++ [DConst k]; p_sub := p_sub P; p_ml := p_ml P ++ [1]; p_sc := p_sc P; p_pool := p_pool P |}).
      { eapply (ext_pst P _ (DConst k)); auto; cbn [p_ml].
        - rewrite app_length. cbn. lia.
        - intros ? ? ? ?; discriminate.
        - constructor. }
      split; auto. cbn [p_vnew p_pool p_insns p_sub]. split; [rewrite app_length; cbn; lia|]. split; [apply pool_le_refl|]. exists [DConst k], []. split; auto. split; [rewrite app_nil_r; auto|]. split; [intros o l n [Hi|[]]; discriminate|].
      intros E cs Pf HX Hle ov nv Hrel. pose proof Hrel as [R1 [R2 R3]]. split.
      + intros nv' Hx. apply exec_one in Hx. destruct Hx as [outs [Hs ->]]. unfold step in Hs. cbn in Hs. destruct Hs as [_ [[u [-> Hu]] _]]. exists (ov ++ [u]), true. split; [apply exec_one; exists [u]; split; auto; unfold step; cbn; split; [constructor|]; split; auto; exists u; auto|]. split; [|intros _; reflexivity]. eapply ext_rel; eauto. cbn. rewrite app_length. cbn. lia.
      + intros ov' b a Hx HT. apply exec_one in Hx. destruct Hx as [outs [Hs ->]]. unfold step in Hs. cbn in Hs. destruct Hs as [_ [[u [-> Hu]] ->]]. exists (nv ++ [u]). split; [apply exec_one; exists [u]; split; auto; unfold step; cbn; split; [constructor|]; split; auto; exists u; auto|]. split; [eapply ext_rel; eauto; cbn; rewrite app_length; cbn; lia|]. destruct HT as [[_ ->]|[HT _]]; [reflexivity|discriminate].
  Qed.
  Lemma expand_sim is : forall P P', ofold (fun P i => expand1 layers rec i P) is P = Some P' -> Pst P -> length (p_vnew P) > 0 -> wf_insns DI is (length (p_vnew P) - 1) -> Forall (call_wf DI cs0) is -> sim is P P'.
  Proof.
    induction is as [|i is IH]; intros P P' H HP Hne W Hcw; cbn [ofold] in H.
    - inversion H; subst P'. split; auto. split; [cbn; lia|]. split; [apply pool_le_refl|]. exists [], []. rewrite !app_nil_r. split; auto. split; auto. split; [intros o l n []|]. intros E cs Pf HX Hle ov nv Hrel. split.
      + intros nv' Hx. apply exec_nil in Hx. destruct Hx as [-> _]. exists ov, true. split; [constructor|]. split; auto.
      + intros ov' b a Hx HT. apply exec_nil in Hx. destruct Hx as [-> ->]. exists nv. split; [constructor|]. split; auto. destruct HT as [[_ ->]|[HT _]]; [reflexivity|discriminate].
    - apply obind_some in H. destruct H as [P1 [H1 H]]. destruct W as [W1 W2]. inversion Hcw as [|? ? Hcw1 Hcw2]; subst. change (@i_inputs F DI i) with (d_inputs F i) in W1. change (@i_nout F DI i) with (d_nout F i) in W2.
      destruct (expand1_sim i P P1 H1 HP Hne) as [HP1 [Hl1 [Hle1 [more1 [sub1 [Ei1 [Es1 [Nd1 Sem1]]]]]]]]; auto; [eapply Forall_impl; [|exact W1]; cbn; intros; lia|]. cbn [nouts] in Hl1. change (@i_nout F DI i) with (d_nout F i) in Hl1.
      destruct (IH P1 P' H HP1) as [HP' [Hl' [Hle' [more2 [sub2 [Ei2 [Es2 [Nd2 Sem2]]]]]]]]; auto; [lia|replace (length (p_vnew P1) - 1) with (length (p_vnew P) - 1 + d_nout F i) by lia; auto|].
      split; auto. split; [cbn [nouts]; change (@i_nout F DI i) with (d_nout F i); lia|]. split; [eapply pool_le_trans; eauto|]. exists (more1 ++ more2), (sub1 ++ sub2). split; [rewrite Ei2, Ei1, app_assoc; auto|]. split; [rewrite Es2, Es1, app_assoc; auto|]. split.
      { intros o l n [Hi|Hi] Hneed Hz; apply app_eq_nil in Hz; destruct Hz as [Hz1 Hz2]; [apply (Nd1 o l n (or_introl Hi) Hneed Hz1)|apply (Nd2 o l n Hi Hneed Hz2)]. }
      intros E cs Pf HX Hle ov nv Hrel. destruct (Sem1 E cs Pf HX (pool_le_trans _ _ _ Hle' Hle) ov nv Hrel) as [SA1 SB1].
      assert (Hsub : forall (nv1 ext : list F), rel P1 (ov ++ []) nv1 \/ length nv1 = length (p_ml P1) -> vsum (getv (nv1 ++ ext)) sub1 = vsum (getv nv1) sub1).
      { intros nv1 ext Hl. apply vsum_ext. intros x Hx. apply getv_app_l. pose proof (q_sub _ HP1) as Hs. rewrite Es1, Forall_app in Hs. destruct Hs as [_ Hs]. rewrite Forall_forall in Hs. specialize (Hs x Hx). destruct Hl as [[_ [Hl _]]|Hl]; lia. }
      split.
      + intros nv' Hx. apply exec_app in Hx. destruct Hx as [nv1 [c1 [c2 [X1 [X2 Eb]]]]]. symmetry in Eb. apply andb_true_iff in Eb. destruct Eb as [-> ->]. destruct (SA1 nv1 X1) as [ov1 [b1 [Y1 [Y2 Y3]]]]. destruct (Sem2 E cs Pf HX Hle ov1 nv1 Y2) as [SA2 _]. destruct (SA2 nv' X2) as [ov2 [b2 [Z1 [Z2 Z3]]]].
        exists ov2, (b1 && b2). split; [change (i :: is) with ([i] ++ is); apply exec_app; eauto 8|]. split; auto. intros Hb. apply andb_true_iff in Hb. destruct Hb as [-> ->]. rewrite vsum_app, (Z3 eq_refl). destruct (exec_prefix DI _ _ _ _ _ _ X2) as [ext ->]. rewrite Hsub by (right; apply Y2). rewrite (Y3 eq_refl). ring.
      + intros ov' b a Hx HT. change (i :: is) with ([i] ++ is) in Hx. apply exec_app in Hx. destruct Hx as [ov1 [b1 [b2 [X1 [X2 ->]]]]]. apply T_split in HT. destruct HT as [a1 [a2 [-> [T1 T2]]]]. destruct (SB1 ov1 b1 a1 X1 T1) as [nv1 [Y1 [Y2 Y3]]]. destruct (Sem2 E cs Pf HX Hle ov1 nv1 Y2) as [_ SB2]. destruct (SB2 ov' b2 a2 X2 T2) as [nv2 [Z1 [Z2 Z3]]].
        exists nv2. split; [apply exec_app; exists nv1, true, true; auto|]. split; auto. rewrite vsum_app, Z3. destruct (exec_prefix DI _ _ _ _ _ _ Z1) as [ext ->]. rewrite Hsub by (right; apply Y2). rewrite Y3. auto.
  Qed.
End Exp.
