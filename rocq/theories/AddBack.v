(* Model of RootCircuit::add_back_removed_inputs, circuit/ir/hint_normalized/mod.rs:420-443 and 478-481. *)
From Verif Require Import Prelude Field InputMapping Expr Topo Ir IrFacts Sim RemoveUnreachable ReassignDup VarMap.

Section Rename.
  Context {F : Fld} (I : IRC F) (L : IRC_laws I).
  (* the loop at mod.rs:430-436 *)
  Fixpoint rn_insns (is : list (Insn I)) (vm : list nat) (new : nat) : list (Insn I) * list nat :=
    match is with
    | [] => ([], vm)
    | i :: is => let '(is', vm') := rn_insns is (vm ++ seq (S new) (i_nout i)) (new + i_nout i) in (i_replace (vmap vm) i :: is', vm')
    end.
  Lemma rn_static is : forall vm new cur is' vm', rn_insns is vm new = (is', vm') -> wf_insns I is cur -> length vm = S cur -> vpos vm new ->
    wf_insns I is' new /\ nouts I is' = nouts I is /\ length vm' = S (cur + nouts I is) /\ vpos vm' (new + nouts I is) /\
    (forall i', In i' is' -> exists i f, In i is /\ i' = i_replace f i).
  Proof.
    induction is as [|i is IH]; intros vm new cur is' vm' H Hw Hl Hv; cbn [rn_insns wf_insns nouts] in *.
    - injection H as <- <-. cbn. rewrite !Nat.add_0_r. split; auto. split; auto. split; auto. split; auto. intros ? [].
    - destruct (rn_insns is _ _) as [is1 vm1] eqn:E. injection H as <- <-. destruct Hw as [Hi Hw].
      destruct (IH _ _ _ _ _ E Hw) as [H1 [H2 [H3 [H4 H5]]]].
      { rewrite app_length, seq_length. lia. }
      { eapply vpos_app; eauto; try lia. apply Forall_seq. intros; lia. }
      cbn [wf_insns nouts]. rewrite (l_repl_nout I L), (l_repl_inputs I L), H2. rewrite !Nat.add_assoc. split; [split; auto|split; auto; split; auto; split; auto].
      + apply vpos_map; auto. eapply Forall_impl; [|exact Hi]. cbn; intros; lia.
      + intros i' [<-|Hi']; [exists i, (vmap vm); split; [left|]; auto|]. destruct (H5 _ Hi') as [i0 [f [A B]]]. exists i0, f. split; [right|]; auto.
  Qed.
  Lemma step_rename E cs cs' vm vals vals' (i : Insn I) outs b : rel vm vals vals' -> Forall (fun x => x < length vals) (i_inputs i) ->
    (forall o l n, i_call i = Some (o, l, n) -> forall ins outs b, run I E cs o ins outs b <-> run I E cs' o ins outs b) ->
    (step I E cs i vals outs b <-> step I E cs' (i_replace (vmap vm) i) vals' outs b).
  Proof.
    intros Hr Hin Hc. unfold step. rewrite (l_repl_call I L). destruct (i_call i) as [[[o l] n]|] eqn:Ec.
    - destruct (l_call I L _ _ _ _ Ec) as [El _]. rewrite El in Hin. rewrite (rel_map vm vals vals') by auto. rewrite (Hc _ _ _ eq_refl). split; intros [A B]; split; auto.
      eapply rel_inb_l; eauto.
    - rewrite (l_repl_inputs I L), (l_sem_repl I L).
      assert (Hg : forall x, In x (i_inputs i) -> getv vals' (vmap vm x) = getv vals x) by (intros x Hx; rewrite Forall_forall in Hin; apply rel_get; auto).
      assert (Hs : i_sem E i (getv vals) outs <-> i_sem E i (fun x => getv vals' (vmap vm x)) outs) by (split; apply (l_sem_ext I L); auto; intros; symmetry; auto).
      rewrite Hs. split; intros [A [B C]]; split; auto. eapply rel_inb_l; eauto.
  Qed.
  Lemma exec_rename E cs cs' is : forall vm new vals vals' is' vm', rn_insns is vm new = (is', vm') -> rel vm vals vals' -> length vals' = S new -> vals <> [] ->
    wf_insns I is (length vals - 1) -> Forall (call_wf I cs) is ->
    (forall i o l n, In i is -> i_call i = Some (o, l, n) -> forall ins outs b, run I E cs o ins outs b <-> run I E cs' o ins outs b) ->
    (forall vf b, exec I E cs is vals vf b -> exists vf', exec I E cs' is' vals' vf' b /\ rel vm' vf vf') /\
    (forall vf' b, exec I E cs' is' vals' vf' b -> exists vf, exec I E cs is vals vf b /\ rel vm' vf vf').
  Proof.
    induction is as [|i is IH]; intros vm new vals vals' is' vm' H Hr Hl Hne Hw Hcw Hc; cbn [rn_insns wf_insns] in *.
    - injection H as <- <-. split.
      + intros vf b H. apply exec_nil in H. destruct H as [-> ->]. exists vals'. split; [constructor|auto].
      + intros vf b H. apply exec_nil in H. destruct H as [-> ->]. exists vals. split; [constructor|auto].
    - destruct (rn_insns is _ _) as [is1 vm1] eqn:E1. injection H as <- <-. destruct Hw as [Hi Hw]. inversion Hcw as [|? ? Hci Hcw2]; subst.
      assert (Hlen : 0 < length vals) by (destruct vals; [contradiction|cbn; lia]).
      assert (Hin : Forall (fun x => x < length vals) (i_inputs i)) by (eapply Forall_impl; [|exact Hi]; cbn; intros; lia).
      assert (Hst : forall outs b, step I E cs i vals outs b <-> step I E cs' (i_replace (vmap vm) i) vals' outs b).
      { intros outs b. apply step_rename; auto. intros o l n Ec. eapply Hc; eauto. left; auto. }
      assert (Hrec : forall outs, length outs = i_nout i -> (forall vf b, exec I E cs is (vals ++ outs) vf b -> exists vf', exec I E cs' is1 (vals' ++ outs) vf' b /\ rel vm1 vf vf') /\
         (forall vf' b, exec I E cs' is1 (vals' ++ outs) vf' b -> exists vf, exec I E cs is (vals ++ outs) vf b /\ rel vm1 vf vf')).
      { intros outs Ho. eapply IH; eauto.
        - rewrite <- Ho. apply rel_seq; auto.
        - rewrite app_length. lia.
        - destruct vals; [contradiction|discriminate].
        - rewrite app_length, Ho. replace (length vals + i_nout i - 1) with (length vals - 1 + i_nout i) by lia. auto.
        - intros; eapply Hc; eauto. right; auto. }
      split.
      + intros vf b H. apply exec_cons in H. destruct H as [outs [b1 [b2 [A [B ->]]]]]. pose proof (step_len I L _ _ _ _ _ _ Hci A) as Ho.
        destruct (proj1 (Hrec outs Ho) _ _ B) as [vf' [X1 X2]]. exists vf'. split; auto. apply exec_cons. exists outs, b1, b2. split; [apply Hst; auto|auto].
      + intros vf' b H. apply exec_cons in H. destruct H as [outs [b1 [b2 [A [B ->]]]]]. apply Hst in A. pose proof (step_len I L _ _ _ _ _ _ Hci A) as Ho.
        destruct (proj2 (Hrec outs Ho) _ _ B) as [vf [X1 X2]]. exists vf. split; auto. apply exec_cons. exists outs, b1, b2. auto.
  Qed.

  (* runs only depend on the circuits below *)
  Lemma run_below E cs cs' rank : ranked I cs rank -> forall k, (forall id, rank id < k -> lookup id cs' = lookup id cs) ->
    forall id, rank id < k -> forall ins outs b, run I E cs id ins outs b <-> run I E cs' id ins outs b.
  Proof.
    intros R k Hs. apply (rank_ind rank (fun id => rank id < k -> forall ins outs b, run I E cs id ins outs b <-> run I E cs' id ins outs b)).
    intros id IH Hk ins outs b. rewrite !run_iff. rewrite (Hs id Hk).
    assert (Hx : forall c, lookup id cs = Some c -> forall is, incl is (instructions c) -> forall v v' b, exec I E cs is v v' b <-> exec I E cs' is v v' b).
    { intros c Hc. induction is as [|i is IHi]; intros Hin v v' b0; [rewrite !exec_nil; tauto|].
      rewrite !exec_cons.
      assert (Hst : forall o b1, step I E cs i v o b1 <-> step I E cs' i v o b1).
      { intros o b1. unfold step. destruct (i_call i) as [[[sb l] n]|] eqn:Ec; [|tauto].
        assert (Hr : rank sb < rank id) by (apply (R id c); auto; eapply in_calls; [apply Hin; left; reflexivity|exact Ec]). rewrite (IH sb Hr ltac:(lia)). tauto. }
      assert (Hin2 : incl is (instructions c)) by (intros x Hx; apply Hin; right; auto).
      split; intros [o [b1 [b2 [A [B C]]]]]; exists o, b1, b2; (split; [apply Hst; auto|split; auto; apply IHi; auto]). }
    split; intros [c [v [b0 [A [B C]]]]]; exists c, v, b0; (split; [exact A|split; [apply (Hx c A); [apply incl_refl|exact B]|exact C]]).
  Qed.

  Lemma forallb_con vm vals vals' (ks : list (Con I)) : rel vm vals vals' -> Forall (fun k => c_var k < length vals) ks ->
    forallb (fun k => c_verify k (getv vals' (c_var k))) (map (c_replace (vmap vm)) ks) = forallb (fun k => c_verify k (getv vals (c_var k))) ks.
  Proof.
    intros Hr Hk. induction ks as [|k ks IH]; cbn [map forallb]; auto. inversion Hk; subst. rewrite IH by auto. f_equal.
    rewrite (l_con_verify I L), (l_con_repl I L). f_equal. apply rel_get; auto.
  Qed.

  (* replacing one circuit of an association list (HashMap::insert of an existing key) *)
  Fixpoint set_circuit (id : nat) (c : Circuit I) (cs : list (nat * Circuit I)) : list (nat * Circuit I) :=
    match cs with [] => [(id, c)] | (k, v) :: cs => if k =? id then (id, c) :: cs else (k, v) :: set_circuit id c cs end.
  Lemma set_circuit_lookup id c cs k : lookup k (set_circuit id c cs) = if k =? id then Some c else lookup k cs.
  Proof.
    induction cs as [|[j v] cs IH]; cbn [set_circuit lookup].
    - rewrite Nat.eqb_sym. destruct (k =? id); auto.
    - destruct (Nat.eqb_spec j id); cbn [lookup].
      + subst. destruct (Nat.eqb_spec id k), (Nat.eqb_spec k id); subst; congruence || auto.
      + rewrite IH. destruct (Nat.eqb_spec j k), (Nat.eqb_spec k id); subst; congruence || auto.
  Qed.
  Lemma set_circuit_keys id c cs : In id (keys cs) -> keys (set_circuit id c cs) = keys cs.
  Proof.
    unfold keys. induction cs as [|[j v] cs IH]; cbn [set_circuit map fst]; [intros []|]. intros [->|H].
    - rewrite Nat.eqb_refl. auto.
    - destruct (Nat.eqb_spec j id); cbn [map fst]; [subst; auto|]. f_equal. auto.
  Qed.

  (* mod.rs:421-429: new_id of the inputs *)
  Fixpoint ab_ids (EMPTY : nat) (ms : list nat) (i : nat) (ids : list nat) : option (list nat) :=
    match ms with
    | [] => Some ids
    | m :: ms => if m =? EMPTY then ab_ids EMPTY ms (S i) ids else let* ids := vset ids (S m) (S i) in ab_ids EMPTY ms (S i) ids
    end.
  Definition add_back1 (EMPTY : nat) (im : InputMapping) (c : Circuit I) : option (Circuit I) :=
    let* ids := ab_ids EMPTY (mapping im) 0 (repeat 0 (S (num_inputs c))) in
    let '(is', vm) := rn_insns (instructions c) ids (cur_size im) in
    Some {| instructions := is'; constraints := map (c_replace (vmap vm)) (constraints c); outputs := map (vmap vm) (outputs c); num_inputs := cur_size im |}.
  Definition add_back_removed_inputs (EMPTY : nat) (im : InputMapping) (rc : RootCircuit I) : option (RootCircuit I) :=
    let* c0 := lookup 0 (circuits rc) in
    let* c0' := add_back1 EMPTY im c0 in
    Some {| num_public_inputs := num_public_inputs rc; expected_num_output_zeroes := expected_num_output_zeroes rc; circuits := set_circuit 0 c0' (circuits rc) |}.

  (* the mapping keeps every input of the circuit *)
  Definition im_onto (EMPTY : nat) (im : InputMapping) : Prop := forall j, j < next_size im -> In j (mapping im).

  Lemma ab_ids_spec EMPTY ms : forall i ids n, length ids = S n -> (forall m, In m ms -> m <> EMPTY -> m < n) -> (forall x y, x < length ms -> y < length ms -> x <> y -> nth x ms 0 = nth y ms 0 -> nth x ms 0 = EMPTY) ->
    exists ids', ab_ids EMPTY ms i ids = Some ids' /\ length ids' = S n /\ nth 0 ids' 0 = nth 0 ids 0 /\
      (forall x, x < length ms -> nth x ms 0 <> EMPTY -> nth (S (nth x ms 0)) ids' 0 = S (i + x)) /\
      (forall j, ~ In j ms -> nth (S j) ids' 0 = nth (S j) ids 0).
  Proof.
    induction ms as [|m ms IH]; intros i ids n Hl Hr Hinj; cbn [ab_ids].
    - exists ids. split; auto. split; auto. split; auto. split; [cbn; lia|auto].
    - assert (Hinj2 : forall x y, x < length ms -> y < length ms -> x <> y -> nth x ms 0 = nth y ms 0 -> nth x ms 0 = EMPTY).
      { intros x y Hx Hy Hxy He. apply (Hinj (S x) (S y)); cbn; auto; lia. }
      destruct (Nat.eqb_spec m EMPTY) as [->|Hne].
      + destruct (IH (S i) ids n) as [ids' [H1 [H2 [H3 [H4 H5]]]]]; auto. { intros; apply Hr; auto; right; auto. }
        exists ids'. split; auto. split; auto. split; auto. split.
        * intros [|x] Hx Hn; cbn [nth length] in *; [contradiction|]. rewrite H4 by (auto; lia). f_equal. lia.
        * intros j Hj. apply H5. intros Hin; apply Hj; right; auto.
      + assert (Hm : m < n) by (apply Hr; auto; left; auto). unfold vset. rewrite Hl. rewrite (proj2 (Nat.ltb_lt (S m) (S n))) by lia. cbn [obind].
        destruct (IH (S i) (upd ids (S m) (S i)) n) as [ids' [H1 [H2 [H3 [H4 H5]]]]]; auto. { rewrite upd_length; auto. } { intros; apply Hr; auto; right; auto. }
        exists ids'. split; auto. split; auto. split; [rewrite H3; destruct ids; auto|]. 
        assert (Hnin : ~ In m ms).
        { intros Hin. apply (In_nth _ _ 0) in Hin. destruct Hin as [y [Hy Hny]]. apply Hne. apply (Hinj 0 (S y)); cbn; auto; lia. }
        split.
        * intros [|x] Hx Hn; cbn [nth length] in *.
          -- rewrite H5 by auto. rewrite nth_upd. rewrite Nat.eqb_refl. rewrite (proj2 (Nat.ltb_lt (S m) (length ids))) by lia. cbn. f_equal. lia.
          -- rewrite H4 by (auto; lia). f_equal. lia.
        * intros j Hj. rewrite H5 by (intros Hin; apply Hj; right; auto). rewrite nth_upd. destruct (Nat.eqb_spec (S m) (S j)) as [E|E]; cbn; auto.
          exfalso. apply Hj. left. lia.
  Qed.

  Theorem add_back_spec EMPTY im (rc : RootCircuit I) c0 : wf_root I rc -> lookup 0 (circuits rc) = Some c0 ->
    in_range EMPTY im -> injective EMPTY im -> next_size im = num_inputs c0 ->
    exists rc' c0', add_back_removed_inputs EMPTY im rc = Some rc' /\
      num_public_inputs rc' = num_public_inputs rc /\ expected_num_output_zeroes rc' = expected_num_output_zeroes rc /\
      keys (circuits rc') = keys (circuits rc) /\
      lookup 0 (circuits rc') = Some c0' /\ num_inputs c0' = cur_size im /\ length (outputs c0') = length (outputs c0) /\
      (im_onto EMPTY im -> (forall id c, lookup id (circuits rc) = Some c -> ~ In 0 (calls c)) -> wf_root I rc') /\
      forall E ins ins' outs b, map_inputs EMPTY f0 im ins = Some ins' -> (root_run I E rc' ins outs b <-> root_run I E rc ins' outs b).
  Proof.
    intros [W [rank R] [c1 [Hc1 Hz]]] Hc0 Hir Hinj Hn. rewrite Hc0 in Hc1. injection Hc1 as <-.
    pose proof (wf_each _ _ W _ _ Hc0) as Wc. pose proof (wf_calls _ _ W _ _ Hc0) as Wl.
    destruct (ab_ids_spec EMPTY (mapping im) 0 (repeat 0 (S (num_inputs c0))) (num_inputs c0)) as [ids [H1 [H2 [H3 [H4 H5]]]]].
    { apply repeat_length. }
    { intros m Hm Hne. destruct Hir as [_ Hf]. rewrite Forall_forall in Hf. destruct (Hf m Hm); [contradiction|lia]. }
    { intros x y Hx Hy Hxy He. destruct (Nat.eq_dec (nth x (mapping im) 0) EMPTY) as [|Hne]; auto. exfalso. apply Hxy.
      eapply Hinj; [apply nth_error_nth'; exact Hx|rewrite He; apply nth_error_nth'; exact Hy|auto]. }
    unfold add_back_removed_inputs. rewrite Hc0. cbn [obind]. unfold add_back1. rewrite H1. cbn [obind].
    destruct (rn_insns (instructions c0) ids (cur_size im)) as [is' vm] eqn:Ern. cbn [obind].
    eexists _, _. split; [reflexivity|]. split; [auto|]. split; [auto|]. cbn [circuits num_inputs outputs]. split.
    { apply set_circuit_keys. apply lookup_keys; eauto. }
    split; [rewrite set_circuit_lookup; reflexivity|]. cbn [num_inputs outputs]. split; auto. split; [apply map_length|].
    assert (H0 : nth 0 ids 0 = 0) by (rewrite H3; reflexivity). split.
    - intros Honto Hn0.
      assert (Hv : vpos ids (cur_size im)).
      { split; [exact H0|]. intros x Hx. unfold vmap. destruct x as [|j]; [lia|]. specialize (Honto j ltac:(lia)). apply (In_nth _ _ 0) in Honto. destruct Honto as [k [Hk Hkj]].
        rewrite <- Hkj. destruct (Nat.eq_dec (nth k (mapping im) 0) EMPTY) as [He|Hne].
        - exfalso. destruct Hir as [Hle _]. lia.
        - rewrite H4 by auto. unfold cur_size. lia. }
      destruct (rn_static (instructions c0) ids (cur_size im) (num_inputs c0) is' vm Ern) as [K1 [K2 [K3 [K4 K5]]]]; auto. { apply Wc. }
      assert (Hmap : forall x, 0 < x <= num_inputs c0 + nouts I (instructions c0) -> 0 < vmap vm x <= cur_size im + nouts I is').
      { intros x Hx. rewrite K2. apply K4. lia. }
      assert (Hcalls : forall o, In o (flat_map (fun i => match i_call i with Some (id, _, _) => [id] | None => [] end) is') -> In o (calls c0)).
      { intros o Ho. apply in_flat_map in Ho. destruct Ho as [i' [Hi' Ho]]. destruct (K5 _ Hi') as [i [f [Hi ->]]]. rewrite (l_repl_call I L) in Ho.
        destruct (i_call i) as [[[a l] n]|] eqn:Ec; [|destruct Ho]. destruct Ho as [<-|[]]. eapply in_calls; eauto. }
      split; cbn [circuits expected_num_output_zeroes].
      + assert (Hcw : forall j, (forall o l n, i_call j = Some (o, l, n) -> o <> 0) -> call_wf I (circuits rc) j ->
            call_wf I (set_circuit 0 {| instructions := is'; constraints := map (c_replace (vmap vm)) (constraints c0); outputs := map (vmap vm) (outputs c0); num_inputs := cur_size im |} (circuits rc)) j).
        { intros j Hj0 Hj o l n Ec. destruct (Hj o l n Ec) as [co [A B]]. exists co. split; auto. rewrite set_circuit_lookup. destruct (Nat.eqb_spec o 0); auto. exfalso. eapply Hj0; eauto. }
        split.
        * rewrite set_circuit_keys by (apply lookup_keys; eauto). apply W.
        * intros id c Hc. rewrite set_circuit_lookup in Hc. destruct (Nat.eqb_spec id 0); [|eapply W; eauto]. injection Hc as <-. split; cbn [instructions num_inputs constraints outputs]; auto.
          -- apply Forall_forall. intros k Hk. apply in_map_iff in Hk. destruct Hk as [k0 [<- Hk]]. rewrite (l_con_repl I L). apply Hmap. pose proof (wf_con _ _ Wc) as G. rewrite Forall_forall in G. apply (G k0 Hk).
          -- apply Forall_forall. intros k Hk. apply in_map_iff in Hk. destruct Hk as [k0 [<- Hk]]. apply Hmap. pose proof (wf_out _ _ Wc) as G. rewrite Forall_forall in G. apply (G k0 Hk).
        * intros id c Hc. rewrite set_circuit_lookup in Hc. apply Forall_forall. intros j Hj. destruct (Nat.eqb_spec id 0).
          -- injection Hc as <-. cbn [instructions] in Hj. destruct (K5 _ Hj) as [i [f [Hi ->]]]. rewrite Forall_forall in Wl.
             assert (Hi0 : forall o l n, i_call i = Some (o, l, n) -> o <> 0) by (intros o l n Ec ->; apply (Hn0 0 c0 Hc0); eapply in_calls; eauto).
             apply Hcw. { intros o l n Ec. rewrite (l_repl_call I L) in Ec. destruct (i_call i) as [[[a l0] n0]|] eqn:E2; [|discriminate]. injection Ec as <- <- <-. eapply Hi0; eauto. }
             intros o l n Ec. rewrite (l_repl_call I L) in Ec. destruct (i_call i) as [[[a l0] n0]|] eqn:E2; [|discriminate]. injection Ec as <- <- <-. rewrite map_length. eapply Wl; eauto.
          -- apply Hcw. { intros o l m Ec ->. apply (Hn0 id c Hc). eapply in_calls; eauto. } pose proof (wf_calls _ _ W _ _ Hc) as G. rewrite Forall_forall in G. auto.
      + exists rank. intros id c o Hc Ho. rewrite set_circuit_lookup in Hc. destruct (Nat.eqb_spec id 0); [|eapply R; eauto]. subst id. injection Hc as <-. apply (R 0 c0); auto.
      + eexists. rewrite set_circuit_lookup. split; [reflexivity|]. cbn [outputs]. rewrite map_length. auto.
    - intros E ins ins' outs b Hm.
      assert (Hli : length ins = cur_size im). { unfold map_inputs in Hm. unfold cur_size. match type of Hm with (if ?a =? ?b then _ else _) = _ => destruct (Nat.eqb_spec a b) end; [congruence|discriminate]. }
      destruct (map_inputs_spec EMPTY f0 im ins Hir Hli) as [r [M1 [M2 M3]]]. rewrite Hm in M1. injection M1 as <-.
      assert (Hrel : rel ids (f0 :: ins') (f0 :: ins)).
      { split; [cbn; lia|]. intros x Hx. cbn [length] in Hx |- *. destruct x as [|j]; [unfold vmap; rewrite H0; split; [lia|reflexivity]|].
        unfold vmap. destruct (in_dec Nat.eq_dec j (mapping im)) as [Hin|Hnin].
        - apply (In_nth _ _ 0) in Hin. destruct Hin as [k [Hk Hkj]].
          assert (Hjne : j <> EMPTY) by (destruct Hir as [Hle _]; lia). specialize (H4 k Hk ltac:(congruence)). rewrite Hkj in H4. rewrite H4. cbn [Nat.add]. split; [unfold cur_size in Hli; lia|].
          unfold getv. cbn [nth]. destruct (map_inputs_delivers EMPTY f0 im ins ins' k j Hir Hinj Hm) as [A _]; auto. { rewrite <- Hkj. apply nth_error_nth'; auto. }
          rewrite <- (nth_default_eq k), <- (nth_default_eq j). unfold nth_default. rewrite A. auto.
        - rewrite H5 by auto. rewrite nth_repeat. split; [lia|]. unfold getv. cbn [nth]. rewrite M3 by lia. rewrite last_sent_notin by auto. auto. }
      set (c0' := {| instructions := is'; constraints := map (c_replace (vmap vm)) (constraints c0); outputs := map (vmap vm) (outputs c0); num_inputs := cur_size im |}).
      set (cs' := set_circuit 0 c0' (circuits rc)).
      assert (Hbelow : forall id, rank id < rank 0 -> forall ins outs b, run I E (circuits rc) id ins outs b <-> run I E cs' id ins outs b).
      { apply (run_below E (circuits rc) cs' rank R (rank 0)). intros id Hid. unfold cs'. rewrite set_circuit_lookup. destruct (Nat.eqb_spec id 0); auto. subst; lia. }
      destruct (exec_rename E (circuits rc) cs' (instructions c0) ids (cur_size im) (f0 :: ins') (f0 :: ins) is' vm Ern Hrel) as [Xf Xb]; auto.
      { cbn; lia. } { discriminate. } { cbn [length]. rewrite M2, Hn. replace (S (num_inputs c0) - 1) with (num_inputs c0) by lia. apply Wc. }
      { intros i o l n Hi Ec. apply Hbelow. apply (R 0 c0); auto. eapply in_calls; eauto. }
      assert (Hend : forall (vf vf' : list F), length vf = S (num_inputs c0 + nouts I (instructions c0)) -> rel vm vf vf' ->
        map (getv vf') (map (vmap vm) (outputs c0)) = map (getv vf) (outputs c0) /\ Forall (inb vf') (map (vmap vm) (outputs c0)) /\ Forall (inb vf) (outputs c0) /\
        Forall (fun k => inb vf' (c_var k)) (map (c_replace (vmap vm)) (constraints c0)) /\ Forall (fun k => inb vf (c_var k)) (constraints c0) /\
        forallb (fun k => c_verify k (getv vf' (c_var k))) (map (c_replace (vmap vm)) (constraints c0)) = forallb (fun k => c_verify k (getv vf (c_var k))) (constraints c0)).
      { intros vf vf' Hlf Hrf. assert (Ho : Forall (fun x => x < length vf) (outputs c0)) by (eapply Forall_impl; [|apply (wf_out _ _ Wc)]; cbn; intros; lia).
        assert (Hk : Forall (fun k => c_var k < length vf) (constraints c0)) by (eapply Forall_impl; [|apply (wf_con _ _ Wc)]; cbn; intros; lia).
        split; [apply rel_map; auto|]. split; [eapply rel_inb_l; eauto|]. split; auto. split; [|split; auto; apply forallb_con; auto].
        apply Forall_forall. intros k Hk2. apply in_map_iff in Hk2. destruct Hk2 as [k0 [<- Hk2]]. rewrite (l_con_repl I L). eapply rel_inb; eauto. rewrite Forall_forall in Hk. auto. }
      assert (Hrun : forall all b0, run I E cs' 0 ins all b0 <-> run I E (circuits rc) 0 ins' all b0).
      { intros all b0. rewrite !run_iff. split.
        - intros [c [vf' [b1 [A1 [A2 [A3 [A4 [-> ->]]]]]]]]. unfold cs' in A1. rewrite set_circuit_lookup in A1. cbn [Nat.eqb] in A1. injection A1 as <-. cbn [c0' instructions constraints outputs] in *.
          destruct (Xb _ _ A2) as [vf [B1 B2]]. pose proof (exec_len I L _ _ _ _ _ _ Wl B1) as Hlf. cbn [length] in Hlf. rewrite M2, Hn in Hlf.
          destruct (Hend vf vf' ltac:(lia) B2) as [G1 [G2 [G3 [G4 [G5 G6]]]]]. exists c0, vf, b1. rewrite G1, G6. auto 10.
        - intros [c [vf [b1 [A1 [A2 [A3 [A4 [-> ->]]]]]]]]. rewrite Hc0 in A1. injection A1 as <-. pose proof (exec_len I L _ _ _ _ _ _ Wl A2) as Hlf. cbn [length] in Hlf. rewrite M2, Hn in Hlf.
          destruct (Xf _ _ A2) as [vf' [B1 B2]]. destruct (Hend vf vf' ltac:(lia) B2) as [G1 [G2 [G3 [G4 [G5 G6]]]]]. exists c0', vf', b1. unfold cs'. rewrite set_circuit_lookup. cbn [c0' instructions constraints outputs].
          rewrite G1, G6. split; auto. }
      unfold root_run. cbn [circuits expected_num_output_zeroes]. fold c0' cs'. split.
      + intros [c [all [b0 [A1 [A2 [A3 A4]]]]]]. exists c0, all, b0. split; auto. split; [lia|]. split; [apply Hrun; auto|auto].
      + intros [c [all [b0 [A1 [A2 [A3 A4]]]]]]. exists c0', all, b0. unfold cs' at 1. rewrite set_circuit_lookup. split; auto. split; [exact Hli|]. split; [apply Hrun; auto|auto].
  Qed.
End Rename.
