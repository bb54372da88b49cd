(* Tools for relating the executions of a circuit before and after a pass. *)
From Verif Require Import Prelude Field Expr Topo Ir IrFacts.
From Coq Require Import Wf_nat.

Section Sim.
  Context {F : Fld} (I : IRC F) (L : IRC_laws I).
  Open Scope fld_scope.
  Notation Circuit := (Circuit I). Notation RootCircuit := (RootCircuit I).

  (* what the compiler passes maintain: the structural part of validate *)
  Record wf_root (rc : RootCircuit) : Prop := {
    wr_cs : wf_circuits I (circuits rc);
    wr_rank : exists rank, ranked I (circuits rc) rank;
    wr_root : exists c0, lookup 0 (circuits rc) = Some c0 /\ (expected_num_output_zeroes rc <= length (outputs c0))%nat
  }.
  Lemma validate_wf_root rc : NoDup (keys (circuits rc)) -> validate I rc = true -> wf_root rc.
  Proof.
    intros Hk Hv. destruct (validate_wf I rc Hk Hv) as [H1 [[r [H2 _]] H3]]. split; eauto.
  Qed.

  (* one instruction *)
  Definition step (E : Env F) (cs : list (nat * Circuit)) (i : Insn I) (vals outs : list F) (b : bool) : Prop :=
    match i_call i with
    | None => Forall (inb vals) (i_inputs i) /\ i_sem E i (getv vals) outs /\ b = true
    | Some (id, l, _) => Forall (inb vals) l /\ run I E cs id (map (getv vals) l) outs b
    end.
  Lemma exec_cons E cs i is vals vals' b : exec I E cs (i :: is) vals vals' b <->
    exists outs b1 b2, step E cs i vals outs b1 /\ exec I E cs is (vals ++ outs) vals' b2 /\ b = b1 && b2.
  Proof.
    unfold step. split.
    - intros H. inversion H; subst.
      + match goal with H : i_call i = None |- _ => rewrite H end. exists outs, true, b. auto.
      + match goal with H : i_call i = Some _ |- _ => rewrite H end. exists outs, b1, b2. auto.
    - intros [outs [b1 [b2 [H1 [H2 ->]]]]]. destruct (i_call i) as [[[id l] n]|] eqn:Ec.
      + destruct H1. eapply ECall; eauto.
      + destruct H1 as [H3 [H4 ->]]. eapply ESem; eauto.
  Qed.
  Lemma exec_nil E cs vals vals' b : exec I E cs [] vals vals' b <-> vals' = vals /\ b = true.
  Proof. split; [intros H; inversion H; auto|intros [-> ->]; constructor]. Qed.
  Lemma exec_snoc E cs is i vals vals' b : exec I E cs (is ++ [i]) vals vals' b <->
    exists mid outs b1 b2, exec I E cs is vals mid b1 /\ step E cs i mid outs b2 /\ vals' = mid ++ outs /\ b = b1 && b2.
  Proof.
    rewrite exec_app. split.
    - intros [mid [c1 [c2 [H1 [H2 ->]]]]]. apply exec_cons in H2. destruct H2 as [outs [b1 [b2 [H3 [H4 ->]]]]].
      apply exec_nil in H4. destruct H4 as [-> ->]. exists mid, outs, c1, b1. rewrite andb_true_r. auto.
    - intros [mid [outs [b1 [b2 [H1 [H2 [-> ->]]]]]]]. exists mid, b1, b2. split; auto. split; auto.
      apply exec_cons. exists outs, b2, true. rewrite andb_true_r. repeat split; auto. constructor.
  Qed.
  Lemma run_iff E cs id ins outs b : run I E cs id ins outs b <->
    exists c vals b0, lookup id cs = Some c /\ exec I E cs (instructions c) (0 :: ins) vals b0 /\
      Forall (fun k => inb vals (c_var k)) (constraints c) /\ Forall (inb vals) (outputs c) /\
      outs = map (getv vals) (outputs c) /\
      b = b0 && forallb (fun k => c_verify k (getv vals (c_var k))) (constraints c).
  Proof.
    split.
    - intros H. inversion H; subst. eexists _, _, _; eauto 8.
    - intros [c [vals [b0 [H1 [H2 [H3 [H4 [-> ->]]]]]]]]. apply Run; auto.
  Qed.
  Lemma step_len E cs i vals outs b : call_wf I cs i -> step E cs i vals outs b -> length outs = i_nout i.
  Proof.
    unfold step, call_wf. intros Hw. destruct (i_call i) as [[[id l] n]|] eqn:Ec.
    - intros [_ H]. destruct (Hw _ _ _ eq_refl) as [c [Hc [_ Hn]]]. rewrite (run_len I _ _ _ _ _ _ _ H Hc), <- Hn.
      destruct (l_call I L _ _ _ _ Ec); auto.
    - intros [_ [H _]]. eapply l_sem_len; eauto.
  Qed.
  (* strong induction along the call graph *)
  Lemma rank_ind (rank : nat -> nat) (P : nat -> Prop) :
    (forall id, (forall o, (rank o < rank id)%nat -> P o) -> P id) -> forall id, P id.
  Proof.
    intros H id. remember (rank id) as k eqn:Ek. revert id Ek. induction k as [k IH] using lt_wf_ind. intros id ->.
    apply H. intros o Ho. apply (IH (rank o)); auto.
  Qed.

  (* every instruction of the circuits other than a call has an outcome, whatever its operands *)
  Definition total (E : Env F) (cs : list (nat * Circuit)) : Prop :=
    forall id c (i : Insn I) g, lookup id cs = Some c -> In i (instructions c) -> i_call i = None -> exists outs, i_sem E i g outs.
  Lemma total_exec E cs :
    forall is vals, (forall (i : Insn I) g, In i is -> i_call i = None -> exists outs, i_sem E i g outs) -> wf_insns I is (length vals - 1) -> vals <> [] -> Forall (call_wf I cs) is ->
      (forall id l n i, In i is -> i_call i = Some (id, l, n) -> forall ins, length ins = length l -> exists outs b, run I E cs id ins outs b) ->
      exists vals' b, exec I E cs is vals vals' b.
  Proof.
    induction is as [|i is IH]; intros vals T Hw Hne Hc Hs.
    - exists vals, true. constructor.
    - destruct Hw as [Hi Hw]. inversion Hc as [|? ? Hci Hc2]; subst.
      assert (Hlen : (1 <= length vals)%nat) by (destruct vals; [contradiction|cbn; lia]).
      assert (Hin : Forall (inb vals) (i_inputs i)) by (eapply Forall_impl; [|exact Hi]; unfold inb; cbn; intros; lia).
      assert (Hstep : exists outs b, step E cs i vals outs b).
      { unfold step. destruct (i_call i) as [[[id l] n]|] eqn:Ec.
        - destruct (l_call I L _ _ _ _ Ec) as [El _]. destruct (Hs id l n i (or_introl eq_refl) Ec (map (getv vals) l)) as [outs [b Hr]].
          { apply map_length. } exists outs, b. rewrite El in Hin. auto.
        - destruct (T i (getv vals) (or_introl eq_refl) Ec) as [outs Ho]. exists outs, true. auto. }
      destruct Hstep as [outs [b1 H1]]. pose proof (step_len _ _ _ _ _ _ Hci H1) as Hlo.
      destruct (IH (vals ++ outs)) as [vals' [b2 H2]]; auto.
      + intros j g Hj; apply T; right; auto.
      + rewrite app_length, Hlo. replace (length vals + i_nout i - 1)%nat with (length vals - 1 + i_nout i)%nat by lia. auto.
      + destruct vals; [contradiction|discriminate].
      + intros; eapply Hs; eauto. right; auto.
      + exists vals', (b1 && b2). apply exec_cons. exists outs, b1, b2; auto.
  Qed.
  Lemma total_run E cs rank : total E cs -> wf_circuits I cs -> ranked I cs rank ->
    forall id c ins, lookup id cs = Some c -> length ins = num_inputs c -> exists outs b, run I E cs id ins outs b.
  Proof.
    intros T W R. apply (rank_ind rank (fun id => forall c ins, lookup id cs = Some c -> length ins = num_inputs c -> exists outs b, run I E cs id ins outs b)).
    intros id IH c ins Hc Hl. pose proof (wf_each _ _ W _ _ Hc) as Wc. pose proof (wf_calls _ _ W _ _ Hc) as Wl.
    destruct (total_exec E cs (instructions c) (0 :: ins)) as [vals [b Hx]]; auto; try discriminate.
    - intros i g Hi Ec. eapply T; eauto.
    - cbn [length]. rewrite Hl. replace (S (num_inputs c) - 1)%nat with (num_inputs c) by lia. apply Wc.
    - intros o l n i Hi Ec ins2 Hl2. rewrite Forall_forall in Wl. destruct (Wl i Hi _ _ _ Ec) as [c2 [Hc2 [Hn _]]].
      eapply IH; eauto; [|congruence]. apply (R id c); auto. eapply in_calls; eauto.
    - pose proof (exec_len I L _ _ _ _ _ _ Wl Hx) as Hlen. cbn [length] in Hlen.
      eexists _, _. apply run_iff. exists c, vals, b. split; auto. split; auto. split; [|split; [|split; reflexivity]].
      + eapply Forall_impl; [|apply Wc]. unfold inb; cbn; intros; lia.
      + eapply Forall_impl; [|apply Wc]. unfold inb; cbn; intros; lia.
  Qed.

  Lemma getv_0 ins : getv (F := F) (0 :: ins) 0 = 0.
  Proof. reflexivity. Qed.
  Lemma wf_insns_app a b cur : wf_insns I (a ++ b) cur <-> wf_insns I a cur /\ wf_insns I b (cur + nouts I a).
  Proof.
    revert cur. induction a as [|i a IH]; intros cur; cbn [app wf_insns nouts].
    - rewrite Nat.add_0_r. tauto.
    - rewrite IH, Nat.add_assoc. tauto.
  Qed.
  Lemma root_run_len E rc ins outs b : root_run I E rc ins outs b -> exists c0, lookup 0 (circuits rc) = Some c0 /\ length ins = num_inputs c0.
  Proof. intros [c [all [b0 [H1 [H2 _]]]]]. eauto. Qed.
  (* common/mod.rs:276-281 *)
  Definition root_order (rc : RootCircuit) : option (list nat) := topo_order (graph_vertices I rc) (graph_edges I rc).
  Lemma wf_incl rc : wf_circuits I (circuits rc) -> forall id c, lookup id (circuits rc) = Some c -> incl (calls c) (keys (circuits rc)).
  Proof.
    intros W id c Hc o Ho. destruct (calls_in I c o Ho) as [i [l [n [Hi Ec]]]].
    pose proof (wf_calls _ _ W id c Hc) as Hw. rewrite Forall_forall in Hw. destruct (Hw i Hi _ _ _ Ec) as [c' [Hl _]].
    apply lookup_keys; eauto.
  Qed.
  Lemma root_order_spec rc : wf_circuits I (circuits rc) -> (exists rank, ranked I (circuits rc) rank) ->
    exists q, root_order rc = Some q /\ NoDup q /\
    (forall x, In x q <-> In x (keys (circuits rc))) /\
    (forall pre id post c o, q = pre ++ id :: post -> lookup id (circuits rc) = Some c -> In o (calls c) -> In o post).
  Proof.
    intros W [rank R]. pose proof (wf_keys _ _ W) as Hk.
    destruct (topo_dag_spec _ _ (graph_ok_of I rc Hk (wf_incl rc W))) as [q [b [T1 [T2 T3]]]].
    assert (Ha : acyclic (graph_edges I rc)).
    { intros v Hv. assert (forall u w, Relation_Operators.clos_trans nat (edge (graph_edges I rc)) u w -> (rank w < rank u)%nat) as Hlt.
      { intros u w Hc. induction Hc as [u w He|u w z H1 IH1 H2 IH2]; [|lia].
        apply (edge_iff I rc Hk) in He. destruct He as [c [Hc Ho]]. apply (R u c); auto. }
      specialize (Hlt _ _ Hv). lia. }
    apply T2 in Ha. subst b. destruct (T3 eq_refl) as [T4 T5]. unfold topo_order_and_is_dag in T1. unfold root_order.
    destruct (topo_order (graph_vertices I rc) (graph_edges I rc)) as [q'|]; [|discriminate]. injection T1 as -> _.
    assert (Hnd : NoDup q) by (apply (Permutation_NoDup (Permutation_sym T4)); auto).
    exists q. split; auto. split; auto. split.
    - intros x. split; intros H; [apply (Permutation_in _ T4)|apply (Permutation_in _ (Permutation_sym T4))]; auto.
    - intros pre id post c o -> Hc Ho.
      assert (Hoq : In o (pre ++ id :: post)). { apply (Permutation_in _ (Permutation_sym T4)). apply (wf_incl rc W _ _ Hc); auto. }
      apply In_nth_error in Hoq. destruct Hoq as [j Hj]. pose proof (T5 j o Hj id ltac:(apply edge_iff; eauto)) as Hin.
      destruct (Nat.le_gt_cases j (length pre)) as [Hle|Hgt].
      + rewrite firstn_app in Hin. replace (j - length pre)%nat with 0%nat in Hin by lia. cbn [firstn] in Hin. rewrite app_nil_r in Hin.
        assert (Hp : In id pre). { rewrite <- (firstn_skipn j pre). apply in_or_app; auto. }
        apply NoDup_remove_2 in Hnd. exfalso. apply Hnd. apply in_or_app; auto.
      + rewrite nth_error_app2 in Hj by lia. destruct (j - length pre)%nat as [|k] eqn:E; [lia|]. cbn in Hj. eapply nth_error_In; eauto.
  Qed.
  (* a rank below the number of circuits *)
  Fixpoint rk (l : list nat) (x : nat) : nat := match l with [] => 0%nat | y :: l => if (y =? x)%nat then length l else rk l x end.
  Lemma rk_lt l x : In x l -> (rk l x < length l)%nat.
  Proof. induction l as [|y l IH]; intros H; [destruct H|]. cbn. destruct (Nat.eqb_spec y x); [lia|]. destruct H as [|H]; [contradiction|]. specialize (IH H). lia. Qed.
  Lemma rk_app pre x post : ~ In x pre -> rk (pre ++ x :: post) x = length post.
  Proof. induction pre as [|y pre IH]; intros H; cbn; [rewrite Nat.eqb_refl; auto|]. destruct (Nat.eqb_spec y x); [subst; exfalso; apply H; left; auto|]. apply IH. intros Hx. apply H; right; auto. Qed.
  Lemma rk_skip pre l x : ~ In x pre -> rk (pre ++ l) x = rk l x.
  Proof. induction pre as [|y pre IH]; intros H; cbn; auto. destruct (Nat.eqb_spec y x); [subst; exfalso; apply H; left; auto|]. apply IH. intros Hx. apply H; right; auto. Qed.
  Lemma wf_bounded_rank rc : wf_root rc -> exists rank, ranked I (circuits rc) rank /\ forall id, In id (keys (circuits rc)) -> (rank id < length (circuits rc))%nat.
  Proof.
    intros [W R _]. destruct (root_order_spec rc W R) as [q [_ [Hnd [Hk Ho]]]]. exists (rk q). split.
    - intros id c o Hc Hin. assert (Hid : In id q) by (apply Hk; apply lookup_keys; eauto). destruct (in_split _ _ Hid) as [pre [post ->]].
      pose proof (Ho pre id post c o eq_refl Hc Hin) as Hpost. apply NoDup_remove in Hnd as Hnd'. destruct Hnd' as [Hn1 Hn2].
      rewrite rk_app by (intros H; apply Hn2; apply in_or_app; auto).
      replace (pre ++ id :: post) with ((pre ++ [id]) ++ post) by (rewrite <- app_assoc; auto). rewrite rk_skip; [apply rk_lt; auto|].
      intros H. apply in_app_or in H. destruct H as [H|[<-|[]]].
      + clear -Hn1 H Hpost. induction pre as [|y pre IH]; [destruct H|]. cbn in Hn1. inversion Hn1; subst. destruct H as [<-|H]; [apply H2; apply in_or_app; auto|auto].
      + apply Hn2. apply in_or_app; auto.
    - intros id Hid. apply Hk in Hid. apply rk_lt in Hid. assert (length q = length (circuits rc)); [|lia].
      replace (length (circuits rc)) with (length (keys (circuits rc))) by (unfold keys; apply map_length). apply Permutation_length. apply NoDup_Permutation; auto. apply (wf_keys _ _ W).
  Qed.
End Sim.
