(* Consequences of RootCircuit::validate and the link between the evaluator and the execution relation. *)
From Verif Require Import Prelude Field Expr Topo Ir.
From Coq Require Import Relations.

Section Facts.
  Context {F : Fld} (I : IRC F) (L : IRC_laws I).
  Open Scope fld_scope.
  Notation Circuit := (Circuit I). Notation RootCircuit := (RootCircuit I).

  Fixpoint nouts (is : list (Insn I)) : nat := match is with [] => 0 | i :: is => i_nout i + nouts is end.
  (* every instruction only reads variables defined before it *)
  Fixpoint wf_insns (is : list (Insn I)) (cur : nat) : Prop :=
    match is with
    | [] => True
    | i :: is => Forall (fun x => 0 < x <= cur)%nat (i_inputs i) /\ wf_insns is (cur + i_nout i)
    end.
  Record wf_circuit (c : Circuit) : Prop := {
    wf_is : wf_insns (instructions c) (num_inputs c);
    wf_con : Forall (fun k => 0 < c_var k <= num_inputs c + nouts (instructions c))%nat (constraints c);
    wf_out : Forall (fun x => 0 < x <= num_inputs c + nouts (instructions c))%nat (outputs c)
  }.
  Definition call_wf (cs : list (nat * Circuit)) (i : Insn I) : Prop :=
    forall id l n, i_call i = Some (id, l, n) ->
      exists c, lookup id cs = Some c /\ length l = num_inputs c /\ n = length (outputs c).
  Record wf_circuits (cs : list (nat * Circuit)) : Prop := {
    wf_keys : NoDup (keys cs);
    wf_each : forall id c, lookup id cs = Some c -> wf_circuit c;
    wf_calls : forall id c, lookup id cs = Some c -> Forall (call_wf cs) (instructions c)
  }.
  Definition ranked (cs : list (nat * Circuit)) (rank : nat -> nat) : Prop :=
    forall id c o, lookup id cs = Some c -> In o (calls c) -> (rank o < rank id)%nat.

  (* ---------- basic ---------- *)
  Lemma getv_app_l (vals l : list F) x : (x < length vals)%nat -> getv (vals ++ l) x = getv vals x.
  Proof. intros H. unfold getv. apply app_nth1; auto. Qed.
  Lemma getv_app_r (vals l : list F) x : (length vals <= x)%nat -> getv (vals ++ l) x = getv l (x - length vals).
  Proof. intros H. unfold getv. apply app_nth2; lia. Qed.
  Lemma inb_app (vals l : list F) x : inb vals x -> inb (vals ++ l) x.
  Proof. unfold inb. rewrite app_length. lia. Qed.
  Lemma in_calls (c : Circuit) i id l n : In i (instructions c) -> i_call i = Some (id, l, n) -> In id (calls c).
  Proof. intros H E. unfold calls. apply in_flat_map. exists i; split; auto. rewrite E; left; auto. Qed.
  Lemma calls_in (c : Circuit) o : In o (calls c) -> exists i l n, In i (instructions c) /\ i_call i = Some (o, l, n).
  Proof.
    unfold calls. rewrite in_flat_map. intros [i [Hi H]]. destruct (i_call i) as [[[id l] n]|] eqn:E; [|destruct H].
    destruct H as [<-|[]]. exists i, l, n; auto.
  Qed.
  Lemma nouts_app a b : nouts (a ++ b) = (nouts a + nouts b)%nat.
  Proof. induction a as [|i a IH]; cbn; auto. rewrite IH; lia. Qed.
  Lemma num_variables_nouts (c : Circuit) : num_variables c = (num_inputs c + nouts (instructions c))%nat.
  Proof.
    unfold num_variables. generalize (num_inputs c). induction (instructions c) as [|i is IH]; intros m; cbn; [lia|]. rewrite IH; lia.
  Qed.

  (* ---------- validate ---------- *)
  Lemma validate_insns_spec npub is : forall cur m, validate_insns I npub is cur = Some m ->
    wf_insns is cur /\ m = (cur + nouts is)%nat /\ Forall (fun i => i_validate npub i = true) is /\
    Forall (fun i => forall id l n, i_call i = Some (id, l, n) -> dup_ins I = false -> NoDup l) is.
  Proof.
    induction is as [|i is IH]; intros cur m H; cbn [validate_insns] in H.
    - inversion H; subst. cbn. repeat split; auto; lia.
    - destruct (forallb _ (i_inputs i)) eqn:E1; [|discriminate].
      destruct (i_validate npub i) eqn:E2; [|discriminate].
      destruct (match i_call i with Some (_, l, _) => _ | None => true end) eqn:E3; [|discriminate].
      apply IH in H. destruct H as [H1 [H2 [H3 H4]]]. cbn [wf_insns nouts]. repeat split; auto; try lia.
      + rewrite forallb_forall in E1. apply Forall_forall. intros x Hx. specialize (E1 x Hx).
        apply andb_true_iff in E1. destruct E1 as [A B]. apply Nat.leb_le in A. apply negb_true_iff, Nat.eqb_neq in B. lia.
      + constructor; auto. intros id l n Ec Hd. rewrite Ec, Hd in E3. cbn in E3. revert E3. clear.
        induction l as [|x l IHl]; cbn; [constructor|]. rewrite andb_true_iff, negb_true_iff. intros [H1 H2].
        constructor; auto. intros Hin. apply memb_spec in Hin. congruence.
  Qed.
  Lemma validate_refs_wf npub c : validate_variable_references I npub c = true -> wf_circuit c.
  Proof.
    unfold validate_variable_references. destruct (validate_insns _ _ _ _) as [m|] eqn:E; [|discriminate].
    apply validate_insns_spec in E. destruct E as [H1 [-> _]]. rewrite !andb_true_iff. intros [[[H2 _] H3] _].
    rewrite forallb_forall in H2, H3. split; auto; apply Forall_forall; intros x Hx;
      [specialize (H2 x Hx); rename H2 into G | specialize (H3 x Hx); rename H3 into G];
      apply andb_true_iff in G; destruct G as [A B]; apply Nat.leb_le in A; apply negb_true_iff, Nat.eqb_neq in B; lia.
  Qed.

  Lemma edge_iff (rc : RootCircuit) : NoDup (keys (circuits rc)) -> forall u v,
    edge (graph_edges I rc) u v <-> exists c, lookup u (circuits rc) = Some c /\ In v (calls c).
  Proof.
    intros Hk u v. unfold edge, graph_edges. set (cs := circuits rc) in *. clearbody cs. clear rc.
    induction cs as [|[id c] cs IH].
    - cbn. split; intros [x [Hx _]]; discriminate.
    - cbn in Hk. inversion Hk as [|? ? Hn Hk2]; subst. specialize (IH Hk2). cbn [flat_map fst snd].
      assert (Hnot : forall w, lookup id (flat_map (fun p : nat * Circuit => match calls (snd p) with [] => [] | l => [(fst p, nodup Nat.eq_dec l)] end) cs) = Some w -> False).
      { intros w Hw. apply Hn. apply lookup_In in Hw. apply in_flat_map in Hw. destruct Hw as [[a b] [Ha Hb]]. cbn in Hb.
        destruct (calls b); [destruct Hb|]. destruct Hb as [Hb|[]]. inversion Hb; subst. apply (in_map fst) in Ha; auto. }
      destruct (calls c) as [|o os] eqn:Ec; cbn [app lookup].
      + rewrite IH. destruct (Nat.eqb_spec id u) as [->|Hne]; [|reflexivity]. split.
        * intros [c' [Hc _]]. exfalso. apply Hn. apply lookup_keys; eauto.
        * intros [c' [Hc Hv]]. inversion Hc; subst. rewrite Ec in Hv; destruct Hv.
      + destruct (Nat.eqb_spec id u) as [->|Hne].
        * split; intros [x [Hx Hv]]; injection Hx as <-.
          -- exists c; split; auto. rewrite Ec. apply (proj1 (nodup_In Nat.eq_dec (o :: os) v)) in Hv; auto.
          -- eexists; split; [reflexivity|]. apply nodup_In. rewrite <- Ec; auto.
        * apply IH.
  Qed.
  Lemma graph_ok_of (rc : RootCircuit) : NoDup (keys (circuits rc)) ->
    (forall id c, lookup id (circuits rc) = Some c -> incl (calls c) (keys (circuits rc))) ->
    graph_ok (graph_vertices I rc) (graph_edges I rc).
  Proof.
    intros Hk Hin. unfold graph_vertices. split; [auto|].
    assert (Hsub : forall cs : list (nat * Circuit), NoDup (keys cs) ->
      NoDup (keys (flat_map (fun p : nat * Circuit => match calls (snd p) with [] => [] | l => [(fst p, nodup Nat.eq_dec l)] end) cs)) /\
      incl (keys (flat_map (fun p : nat * Circuit => match calls (snd p) with [] => [] | l => [(fst p, nodup Nat.eq_dec l)] end) cs)) (keys cs)).
    { induction cs as [|[id c] cs IH]; intros H; cbn [flat_map fst snd keys map] in *; [split; auto; apply incl_nil_l|].
      inversion H as [|? ? Hn Hk2]; subst. destruct (IH Hk2) as [A B].
      destruct (calls c); cbn [app map fst].
      - split; auto. intros x Hx; right; auto.
      - split. constructor; auto. intros x [<-|Hx]; [left|right]; auto. }
    destruct (Hsub _ Hk) as [A B]. split; [auto|].
    intros u tos Hu. assert (Hu2 := Hu). unfold graph_edges in Hu2. apply in_flat_map in Hu2. destruct Hu2 as [[id c] [Hc Ht]].
    cbn [fst snd] in Ht. destruct (calls c) as [|o os] eqn:Ec; [destruct Ht|]. destruct Ht as [Ht|[]]. injection Ht as <- <-.
    apply In_lookup in Hc; auto. split; [|split].
    - apply lookup_keys; eauto.
    - apply (NoDup_nodup Nat.eq_dec (o :: os)).
    - intros x Hx. apply (Hin _ _ Hc). rewrite Ec. apply (proj1 (nodup_In Nat.eq_dec (o :: os) x)) in Hx; auto.
  Qed.

  Lemma call_ok_wf rc i : call_ok I rc i = true -> call_wf (circuits rc) i.
  Proof.
    unfold call_ok, call_wf. intros H id l n E. rewrite E in H. destruct (lookup id (circuits rc)) as [c|]; [|discriminate].
    apply andb_true_iff in H. destruct H as [H1 H2]. apply Nat.eqb_eq in H1, H2. exists c; auto.
  Qed.
  (* from a topological order: positions counted from the end *)
  Lemma topo_rank vs edges q : NoDup q ->
    (forall j v, nth_error q j = Some v -> forall u, edge edges u v -> In u (firstn j q)) -> incl q vs -> incl vs q ->
    exists rank : nat -> nat, (forall u v, edge edges u v -> In v vs -> (rank v < rank u)%nat) /\ forall v, In v vs -> (rank v < length q)%nat.
  Proof.
    intros Hnd Hord Hi1 Hi2.
    set (pos := fix pos (l : list nat) (x : nat) : nat := match l with [] => 0%nat | y :: l => if Nat.eqb y x then 0%nat else S (pos l x) end).
    assert (P1 : forall l x, In x l -> nth_error l (pos l x) = Some x).
    { induction l as [|y l IH]; intros x Hx; [destruct Hx|]. cbn. destruct (Nat.eqb_spec y x); subst; auto.
      destruct Hx; [contradiction|]. apply IH; auto. }
    exists (fun x => (length q - 1 - pos q x)%nat).
    assert (P2 : forall v, In v vs -> nth_error q (pos q v) = Some v) by (intros; apply P1; auto).
    split.
    - intros u v Hu Hv. specialize (P2 v Hv). pose proof (Hord _ _ P2 u Hu) as Hin.
      assert (Hlt : (pos q v < length q)%nat) by (eapply nth_error_Some_lt; eauto).
      assert (Hu2 : (pos q u < pos q v)%nat).
      { clear -Hin Hlt. revert Hin Hlt. generalize (pos q v) as k. induction q as [|y q IH]; intros k Hin Hlt; cbn in Hlt; [lia|].
        destruct k as [|k]; [destruct Hin|]. cbn in Hin. cbn. destruct (Nat.eqb_spec y u); [lia|].
        destruct Hin; [contradiction|]. specialize (IH k H ltac:(lia)). lia. }
      lia.
    - intros v Hv. specialize (P2 v Hv). apply nth_error_Some_lt in P2. lia.
  Qed.

  Lemma validate_wf rc : NoDup (keys (circuits rc)) -> validate I rc = true ->
    wf_circuits (circuits rc) /\
    (exists rank, ranked (circuits rc) rank /\ forall id, In id (keys (circuits rc)) -> (rank id < length (circuits rc))%nat) /\
    (exists c0, lookup 0 (circuits rc) = Some c0 /\ (expected_num_output_zeroes rc <= length (outputs c0))%nat).
  Proof.
    intros Hk H. unfold validate in H. destruct (lookup 0 (circuits rc)) as [c0|] eqn:E0; [|discriminate].
    rewrite !andb_true_iff in H. destruct H as [[H1 H2] H3]. rewrite forallb_forall in H1, H2.
    assert (W : wf_circuits (circuits rc)).
    { split; auto.
      - intros id c Hc. apply lookup_In in Hc. apply H1 in Hc. cbn in Hc. eapply validate_refs_wf; eauto.
      - intros id c Hc. apply lookup_In in Hc. apply H2 in Hc. cbn in Hc. rewrite forallb_forall in Hc.
        apply Forall_forall. intros i Hi. apply call_ok_wf; auto. }
    split; auto.
    assert (Hincl : forall id c, lookup id (circuits rc) = Some c -> incl (calls c) (keys (circuits rc))).
    { intros id c Hc o Ho. destruct (calls_in c o Ho) as [i [l [n [Hi Ec]]]].
      pose proof (wf_calls _ W id c Hc) as Hw. rewrite Forall_forall in Hw. destruct (Hw i Hi _ _ _ Ec) as [c' [Hl _]].
      apply lookup_keys; eauto. }
    destruct (topo_dag_spec _ _ (graph_ok_of rc Hk Hincl)) as [q [b [T1 [T2 T3]]]].
    rewrite T1 in H3. rewrite !andb_true_iff in H3. destruct H3 as [[-> _] H4]. specialize (T3 eq_refl). destruct T3 as [T3 T4].
    split; [|exists c0; split; auto; apply Nat.leb_le; auto].
    assert (Hnd : NoDup q). { apply (Permutation_NoDup (Permutation_sym T3)); auto. }
    destruct (topo_rank (graph_vertices I rc) (graph_edges I rc) q Hnd T4) as [rank [R1 R2]].
    { intros x Hx. apply (Permutation_in _ T3); auto. } { intros x Hx. apply (Permutation_in _ (Permutation_sym T3)); auto. }
    exists rank. split.
    - intros id c o Hc Ho. apply R1. apply edge_iff; eauto. apply (Hincl _ _ Hc); auto.
    - intros id Hid. specialize (R2 id Hid). rewrite (Permutation_length T3) in R2. unfold graph_vertices, keys in R2.
      rewrite map_length in R2; auto.
  Qed.

  (* ---------- lengths ---------- *)
  Lemma run_len E cs id ins outs b c : run I E cs id ins outs b -> lookup id cs = Some c -> length outs = length (outputs c).
  Proof. intros H Hc. inversion H; subst. rewrite H0 in Hc; inversion Hc; subst. apply map_length. Qed.
  Lemma exec_len E cs is vals vals' b : Forall (call_wf cs) is -> exec I E cs is vals vals' b ->
    length vals' = (length vals + nouts is)%nat.
  Proof.
    intros Hw H. revert Hw. induction H as [vals|i is vals outs vals' b Ec Hi Hs Hx IH|i is id l n vals outs b1 vals' b2 Ec Hi Hr Hx IH]; intros Hw; cbn [nouts]; try lia.
    - inversion Hw; subst. rewrite IH by auto. rewrite app_length, (l_sem_len I L _ _ _ _ Hs). lia.
    - inversion Hw as [|? ? Hi2 Hw2]; subst. rewrite IH by auto. rewrite app_length.
      destruct (Hi2 _ _ _ Ec) as [c [Hc [_ Hn]]]. rewrite (run_len _ _ _ _ _ _ _ Hr Hc), <- Hn.
      destruct (l_call I L _ _ _ _ Ec) as [_ ->]. lia.
  Qed.
  Lemma exec_prefix E cs is vals vals' b : exec I E cs is vals vals' b -> exists l, vals' = vals ++ l.
  Proof.
    induction 1 as [vals|i is vals outs vals' b Ec Hi Hs Hx IH|i is id l n vals outs b1 vals' b2 Ec Hi Hr Hx IH].
    - exists []; rewrite app_nil_r; auto.
    - destruct IH as [l' ->]. rewrite <- app_assoc; eauto.
    - destruct IH as [l' ->]. rewrite <- app_assoc; eauto.
  Qed.
  Lemma exec_app E cs a b vals vals' c : exec I E cs (a ++ b) vals vals' c <->
    exists mid c1 c2, exec I E cs a vals mid c1 /\ exec I E cs b mid vals' c2 /\ c = c1 && c2.
  Proof.
    revert vals c. induction a as [|i a IH]; intros vals c; cbn [app].
    - split.
      + intros H. exists vals, true, c. split; [constructor|]. auto.
      + intros [mid [c1 [c2 [H1 [H2 ->]]]]]. inversion H1; subst. auto.
    - split.
      + intros H. inversion H; subst.
        * match goal with H : exec _ _ _ (a ++ b) _ _ _ |- _ => apply IH in H; destruct H as [mid [c1 [c2 [G1 [G2 G3]]]]] end.
          exists mid, c1, c2. split; auto. apply ESem with outs; auto.
        * match goal with H : exec _ _ _ (a ++ b) _ _ _ |- _ => apply IH in H; destruct H as [mid [c1 [c2 [G1 [G2 G3]]]]] end.
          exists mid, (b1 && c1), c2. split; [|split; auto]. apply ECall with id l n outs; auto.
          subst. rewrite andb_assoc; auto.
      + intros [mid [c1 [c2 [H1 [H2 ->]]]]]. inversion H1; subst.
        * apply ESem with outs; auto. apply IH. exists mid, c1, c2; auto.
        * rewrite <- andb_assoc. apply ECall with id l n outs; auto. apply IH. exists mid, b2, c2; auto.
  Qed.

  (* ---------- evaluator and relation ---------- *)
  Lemma inbb_spec vals x : inbb vals x = true <-> inb (F := F) vals x.
  Proof. unfold inbb, inb. apply Nat.ltb_lt. Qed.
  Lemma forallb_Forall {A} (f : A -> bool) (P : A -> Prop) l : (forall x, f x = true <-> P x) ->
    (forallb f l = true <-> Forall P l).
  Proof. intros H. rewrite forallb_forall, Forall_forall. split; intros G x Hx; apply H; auto. Qed.

  Lemma eval_insns_run sub O cs k is vals cond vals' cond' k' :
    (forall k id ins outs b k', sub k id ins = Ok (outs, b, k') -> run I (env_of O) cs id ins outs b) ->
    eval_insns I sub O k is vals cond = Ok (vals', cond', k') ->
    exists b, exec I (env_of O) cs is vals vals' b /\ cond' = cond && b.
  Proof.
    intros Hs. revert k vals cond. induction is as [|i is IH]; intros k vals cond H; cbn [eval_insns] in H.
    - inversion H; subst. exists true. split; [constructor|]. rewrite andb_true_r; auto.
    - destruct (forallb (inbb vals) (i_inputs i)) eqn:Ei; [|discriminate].
      apply (forallb_Forall (inbb vals) (inb vals)) in Ei; [|apply inbb_spec].
      destruct (i_call i) as [[[id l] n]|] eqn:Ec.
      + destruct (sub k id (map (getv vals) l)) as [[[outs b] k1]| | |] eqn:Esub; try discriminate.
        apply IH in H. destruct H as [b' [H1 ->]]. exists (b && b'). rewrite andb_assoc. split; auto.
        destruct (l_call I L _ _ _ _ Ec) as [El _]. apply ECall with id l n outs; auto. congruence. eapply Hs; eauto.
      + destruct (i_eval O k i (getv vals)) as [[outs|] k1] eqn:Ee; [|discriminate].
        apply IH in H. destruct H as [b' [H1 ->]]. exists b'. split; auto. apply ESem with outs; auto.
        eapply l_eval_sem; eauto.
  Qed.
  Lemma eval_sub_run fuel O cs : forall k id ins outs b k', eval_sub I fuel O cs k id ins = Ok (outs, b, k') ->
    run I (env_of O) cs id ins outs b.
  Proof.
    induction fuel as [|fuel IH]; intros k id ins outs b k' H; cbn [eval_sub] in H; [discriminate|].
    destruct (lookup id cs) as [c|] eqn:Ec; [|discriminate].
    destruct (eval_insns I _ O k (instructions c) (0 :: ins) true) as [[[vals cond] k1]| | |] eqn:Ee; try discriminate.
    destruct (_ && _) eqn:Eb; [|discriminate]. inversion H; subst; clear H.
    apply andb_true_iff in Eb. destruct Eb as [B1 B2].
    apply (eval_insns_run _ O cs) in Ee; [|exact IH]. destruct Ee as [b' [H1 ->]]. cbn [andb].
    apply Run; auto.
    - apply (forallb_Forall _ (fun q => inb vals (c_var q))) in B1; auto. intros; apply inbb_spec.
    - apply (forallb_Forall _ (inb vals)) in B2; auto. intros; apply inbb_spec.
  Qed.
  Lemma eval_root_run O rc ins outs b : eval_root I O rc ins = Ok (outs, b) -> root_run I (env_of O) rc ins outs b.
  Proof.
    unfold eval_root. destruct (lookup 0 (circuits rc)) as [c|] eqn:Ec; [|discriminate].
    destruct (Nat.eqb_spec (length ins) (num_inputs c)); [|discriminate].
    destruct (eval_sub _ _ _ _ _ _ _) as [[[res cond] k]| | |] eqn:Ee; try discriminate.
    destruct (Nat.leb_spec (expected_num_output_zeroes rc) (length res)); [|discriminate].
    intros H1; inversion H1; subst. exists c, res, cond. repeat split; auto. eapply eval_sub_run; eauto.
  Qed.

  (* progress: on a validated circuit the evaluator neither panics nor runs out of depth *)
  Definition good {A} (r : Res A) : Prop := match r with Panic => False | OutOfFuel => False | _ => True end.
  Lemma eval_insns_good sub O cs : forall is k vals cond,
    (forall k id ins, In id (flat_map (fun i => match i_call i with Some (id, _, _) => [id] | None => [] end) is) ->
       (forall c, lookup id cs = Some c -> length ins = num_inputs c) ->
       good (sub k id ins) /\ forall outs b k', sub k id ins = Ok (outs, b, k') -> forall c, lookup id cs = Some c -> length outs = length (outputs c)) ->
    vals <> [] -> wf_insns is (length vals - 1) -> Forall (call_wf cs) is ->
    good (eval_insns I sub O k is vals cond) /\
    forall vals' b k', eval_insns I sub O k is vals cond = Ok (vals', b, k') -> length vals' = (length vals + nouts is)%nat.
  Proof.
    induction is as [|i is IH]; intros k vals cond Hs Hv Hw Hc; cbn [eval_insns].
    - split; cbn; auto. intros vals' b k' H; inversion H; subst; cbn; lia.
    - destruct Hw as [Hi Hw]. inversion Hc as [|? ? Hci Hc2]; subst.
      assert (Hlen : (1 <= length vals)%nat) by (destruct vals; [contradiction|cbn; lia]).
      assert (Eb : forallb (inbb vals) (i_inputs i) = true).
      { apply (forallb_Forall (inbb vals) (inb vals)); [apply inbb_spec|]. eapply Forall_impl; [|exact Hi]. unfold inb; cbn. intros; lia. }
      rewrite Eb.
      assert (Hrest : forall k vals2 cond, length vals2 = (length vals + i_nout i)%nat ->
        good (eval_insns I sub O k is vals2 cond) /\
        forall vals' b k', eval_insns I sub O k is vals2 cond = Ok (vals', b, k') -> length vals' = (length vals + nouts (i :: is))%nat).
      { intros k2 vals2 cond2 Hl2. destruct (IH k2 vals2 cond2) as [A B]; auto.
        - intros k3 id ins Hin. apply Hs. cbn [flat_map]. apply in_or_app; right; auto.
        - destruct vals2; [cbn in Hl2; lia|discriminate].
        - replace (length vals2 - 1)%nat with (length vals - 1 + i_nout i)%nat by lia. auto.
        - split; auto. intros vals' b k' H. rewrite (B _ _ _ H), Hl2. cbn [nouts]. lia. }
      destruct (i_call i) as [[[id l] n]|] eqn:Ec.
      + destruct (Hci _ _ _ Ec) as [c [Hcl [Hll Hn]]].
        destruct (Hs k id (map (getv vals) l)) as [G1 G2].
        { cbn [flat_map]. rewrite Ec. left; auto. } { intros c' Hc'. rewrite map_length. congruence. }
        destruct (sub k id (map (getv vals) l)) as [[[outs b] k1]| | |]; cbn in G1; try contradiction; try (cbn; split; [auto|discriminate]).
        apply Hrest. rewrite app_length. rewrite (G2 _ _ _ eq_refl _ Hcl), <- Hn.
        destruct (l_call I L _ _ _ _ Ec) as [_ ->]. auto.
      + destruct (i_eval O k i (getv vals)) as [[outs|] k1] eqn:Ee; [|cbn; split; [auto|discriminate]].
        apply Hrest. rewrite app_length. f_equal. eapply l_sem_len; eauto. eapply l_eval_sem; eauto.
  Qed.
  Lemma eval_sub_good O cs rank : wf_circuits cs -> ranked cs rank -> forall fuel k id ins c,
    lookup id cs = Some c -> length ins = num_inputs c -> (rank id < fuel)%nat ->
    good (eval_sub I fuel O cs k id ins) /\
    forall outs b k', eval_sub I fuel O cs k id ins = Ok (outs, b, k') -> length outs = length (outputs c).
  Proof.
    intros W R. induction fuel as [|fuel IH]; intros k id ins c Hc Hl Hf; [lia|]. cbn [eval_sub]. rewrite Hc.
    pose proof (wf_each _ W _ _ Hc) as Wc. pose proof (wf_calls _ W _ _ Hc) as Wcalls.
    destruct (eval_insns_good (eval_sub I fuel O cs) O cs (instructions c) k (0 :: ins) true) as [A B]; auto; try discriminate.
    - intros k2 o ins2 Ho Hl2. fold (calls c) in Ho.
      assert (Hex : exists c2, lookup o cs = Some c2).
      { destruct (calls_in c o Ho) as [i [l [n [Hi Ec]]]]. rewrite Forall_forall in Wcalls.
        destruct (Wcalls i Hi _ _ _ Ec) as [c2 [H2 _]]. eauto. }
      destruct Hex as [c2 H2]. destruct (IH k2 o ins2 c2 H2 (Hl2 _ H2)) as [A B].
      { specialize (R _ _ _ Hc Ho). lia. }
      split; auto. intros outs b k' H c3 H3. replace c3 with c2 by congruence. eauto.
    - cbn [length]. rewrite Hl. replace (S (num_inputs c) - 1)%nat with (num_inputs c) by lia. apply Wc.
    - destruct (eval_insns I _ O k (instructions c) (0 :: ins) true) as [[[vals cond] k1]| | |] eqn:Ee; cbn in A; try contradiction;
        try (cbn; split; [auto|discriminate]).
      pose proof (B _ _ _ eq_refl) as Hlen. cbn [length] in Hlen.
      assert (E1 : forallb (fun q => inbb vals (c_var q)) (constraints c) = true).
      { apply (forallb_Forall _ (fun q => inb vals (c_var q))); [intros; apply inbb_spec|].
        eapply Forall_impl; [|apply Wc]. unfold inb; cbn. intros; lia. }
      assert (E2 : forallb (inbb vals) (outputs c) = true).
      { apply (forallb_Forall _ (inb vals)); [intros; apply inbb_spec|].
        eapply Forall_impl; [|apply Wc]. unfold inb; cbn. intros; lia. }
      rewrite E1, E2. cbn. split; auto. intros outs b k' H; inversion H; subst. apply map_length.
  Qed.
  Lemma eval_root_good O rc ins c0 : NoDup (keys (circuits rc)) -> validate I rc = true ->
    lookup 0 (circuits rc) = Some c0 -> length ins = num_inputs c0 ->
    (exists outs b, eval_root I O rc ins = Ok (outs, b) /\ length outs = (length (outputs c0) - expected_num_output_zeroes rc)%nat)
    \/ eval_root I O rc ins = Err.
  Proof.
    intros Hk Hv Hc Hl. destruct (validate_wf rc Hk Hv) as [W [[rank [R1 R2]] [c0' [Hc' Hz]]]].
    assert (c0' = c0) by congruence; subst c0'. unfold eval_root. rewrite Hc, Hl, Nat.eqb_refl.
    destruct (eval_sub_good O (circuits rc) rank W R1 (length (circuits rc)) 0 0 ins c0 Hc Hl) as [A B].
    { apply R2. apply lookup_keys; eauto. }
    destruct (eval_sub I _ O (circuits rc) 0 0 ins) as [[[res cond] k]| | |]; cbn in A; try contradiction; auto.
    specialize (B _ _ _ eq_refl). rewrite B. destruct (Nat.leb_spec (expected_num_output_zeroes rc) (length (outputs c0))); [|lia].
    left. eexists _, _. split; [reflexivity|]. rewrite skipn_length, B; auto.
  Qed.

  (* the relation has the evaluator's outcome, and no other, when nothing is nondeterministic *)
  Lemma run_eval O r : (forall j, o_rnd O j = r) -> forall cs id ins outs b, run I (env_of O) cs id ins outs b ->
    exists fuel, forall fuel' k, (fuel <= fuel')%nat -> exists k', eval_sub I fuel' O cs k id ins = Ok (outs, b, k').
  Proof.
    intros Hr cs.
    apply (run_mut I (env_of O) cs
      (fun is vals vals' b _ => exists fuel, forall fuel' k cond, (fuel <= fuel')%nat ->
         exists k', eval_insns I (eval_sub I fuel' O cs) O k is vals cond = Ok (vals', cond && b, k'))
      (fun id ins outs b _ => exists fuel, forall fuel' k, (fuel <= fuel')%nat ->
         exists k', eval_sub I fuel' O cs k id ins = Ok (outs, b, k'))).
    - intros vals. exists 0%nat. intros fuel' k cond _. cbn. exists k. rewrite andb_true_r; auto.
    - intros i is vals outs vals' b Ec Hi Hs Hx [fuel IH]. exists fuel. intros fuel' k cond Hf. cbn [eval_insns].
      rewrite (proj2 (forallb_Forall (inbb vals) (inb vals) _ (inbb_spec vals)) Hi), Ec.
      pose proof (l_sem_eval I L O r k i (getv vals) outs Hr Ec Hs) as He.
      destruct (i_eval O k i (getv vals)) as [o k1]. cbn in He. subst o. apply IH; auto.
    - intros i is id l n vals outs b1 vals' b2 Ec Hi Hrun [f1 IH1] Hx [f2 IH2]. exists (Nat.max f1 f2).
      intros fuel' k cond Hf. cbn [eval_insns]. destruct (l_call I L _ _ _ _ Ec) as [-> _].
      rewrite (proj2 (forallb_Forall (inbb vals) (inb vals) _ (inbb_spec vals)) Hi), Ec.
      destruct (IH1 fuel' k ltac:(lia)) as [k' ->]. destruct (IH2 fuel' k' (cond && b1) ltac:(lia)) as [k'' E].
      exists k''. rewrite E. rewrite andb_assoc; auto.
    - intros id c ins vals b Hc Hx [fuel IH] H1 H2. exists (S fuel). intros fuel' k Hf. destruct fuel' as [|fuel']; [lia|].
      cbn [eval_sub]. rewrite Hc. destruct (IH fuel' k true ltac:(lia)) as [k' ->]. exists k'. cbn [andb].
      rewrite (proj2 (forallb_Forall (fun q => inbb vals (c_var q)) (fun q => inb vals (c_var q)) _ (fun q => inbb_spec vals (c_var q))) H1).
      rewrite (proj2 (forallb_Forall (inbb vals) (inb vals) _ (inbb_spec vals)) H2). auto.
  Qed.

  (* ---------- C39: the verdict ---------- *)
  (* the tree of executed circuit instances: which circuit, the values of its variables, the instances it called *)
  Inductive inst := Inst (id : nat) (vals : list F) (subs : list inst).
  Fixpoint instances (t : inst) : list (nat * list F) :=
    match t with Inst id vals subs => (id, vals) :: flat_map instances subs end.
  (* [tree cs t ins outs]: t records an execution of its circuit on ins with results outs *)
  Inductive tinsns (E : Env F) (cs : list (nat * Circuit)) : list (Insn I) -> list F -> list F -> list inst -> Prop :=
  | TNil vals : tinsns E cs [] vals vals []
  | TSem i is vals outs vals' ts : i_call i = None -> Forall (inb vals) (i_inputs i) ->
      i_sem E i (getv vals) outs -> tinsns E cs is (vals ++ outs) vals' ts -> tinsns E cs (i :: is) vals vals' ts
  | TCall i is id l n vals outs t vals' ts : i_call i = Some (id, l, n) -> Forall (inb vals) l ->
      tree E cs t id (map (getv vals) l) outs -> tinsns E cs is (vals ++ outs) vals' ts ->
      tinsns E cs (i :: is) vals vals' (t :: ts)
  with tree (E : Env F) (cs : list (nat * Circuit)) : inst -> nat -> list F -> list F -> Prop :=
  | Tree id c ins vals ts : lookup id cs = Some c -> tinsns E cs (instructions c) (0 :: ins) vals ts ->
      Forall (fun k => inb vals (c_var k)) (constraints c) -> Forall (inb vals) (outputs c) ->
      tree E cs (Inst id vals ts) id ins (map (getv vals) (outputs c)).
  Scheme tinsns_mut := Induction for tinsns Sort Prop with tree_mut := Induction for tree Sort Prop.
  (* instance p satisfies all constraints of its circuit *)
  Definition inst_ok (cs : list (nat * Circuit)) (p : nat * list F) : bool :=
    match lookup (fst p) cs with
    | Some c => forallb (fun k => c_verify k (getv (snd p) (c_var k))) (constraints c)
    | None => false
    end.
  Lemma verdict_tree E cs id ins outs b : run I E cs id ins outs b <->
    exists t, tree E cs t id ins outs /\ b = forallb (inst_ok cs) (instances t).
  Proof.
    split.
    - apply (run_mut I E cs
        (fun is vals vals' b _ => exists ts, tinsns E cs is vals vals' ts /\ b = forallb (inst_ok cs) (flat_map instances ts))
        (fun id ins outs b _ => exists t, tree E cs t id ins outs /\ b = forallb (inst_ok cs) (instances t))).
      + intros vals. exists []. split; [constructor|auto].
      + intros i is vals o vals' b0 Ec Hi Hs Hx [ts [H1 H2]]. exists ts. split; auto. apply TSem with o; auto.
      + intros i is id0 l n vals o b1 vals' b2 Ec Hi Hr [t [H1 H2]] Hx [ts [H3 H4]]. exists (t :: ts). split.
        * apply TCall with id0 l n o; auto.
        * cbn [flat_map]. rewrite forallb_app. congruence.
      + intros id0 c ins0 vals b0 Hc Hx [ts [H1 H2]] H3 H4. exists (Inst id0 vals ts). split.
        * constructor; auto.
        * cbn [instances forallb]. unfold inst_ok at 1. cbn [fst snd]. rewrite Hc, H2. apply andb_comm.
    - intros [t [H ->]]. revert H.
      apply (tree_mut E cs
        (fun is vals vals' ts _ => exec I E cs is vals vals' (forallb (inst_ok cs) (flat_map instances ts)))
        (fun t id ins outs _ => run I E cs id ins outs (forallb (inst_ok cs) (instances t)))).
      + intros vals. constructor.
      + intros i is vals o vals' ts Ec Hi Hs Hx IH. apply ESem with o; auto.
      + intros i is id0 l n vals o t0 vals' ts Ec Hi Ht IH1 Hx IH2. cbn [flat_map]. rewrite forallb_app.
        apply ECall with id0 l n o; auto.
      + intros id0 c ins0 vals ts Hc Hx IH H3 H4. cbn [instances forallb]. unfold inst_ok at 1. cbn [fst snd]. rewrite Hc.
        rewrite andb_comm. apply Run; auto.
  Qed.
End Facts.
