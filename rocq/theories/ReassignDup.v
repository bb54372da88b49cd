(* Model of RootCircuit::reassign_duplicate_sub_circuit_outputs, circuit/ir/common/opt.rs:402-470. *)
From Verif Require Import Prelude Field Expr Topo Ir IrFacts Sim RevPass RemoveUnreachable.

Fixpoint pos (x : nat) (l : list nat) : nat := match l with [] => 0 | y :: l => if y =? x then 0 else S (pos x l) end.
Lemma pos_lt x l : In x l -> pos x l < length l.
Proof. induction l as [|y l IH]; cbn; [intros []|]. intros H. destruct (Nat.eqb_spec y x); [lia|]. destruct H; [contradiction|]. specialize (IH H). lia. Qed.
Lemma pos_nth x l : In x l -> nth (pos x l) l 0 = x.
Proof. induction l as [|y l IH]; cbn; [intros []|]. intros H. destruct (Nat.eqb_spec y x); auto. destruct H; [contradiction|]. auto. Qed.
Lemma pos_first x l j : nth_error l j = Some x -> pos x l <= j.
Proof.
  revert j; induction l as [|y l IH]; intros [|j] H; cbn in *; try discriminate; destruct (Nat.eqb_spec y x); try lia.
  - injection H as ->. contradiction. - apply IH in H. lia.
Qed.
Lemma pos_nin x l j : pos x l = j -> ~ In x (firstn j l).
Proof.
  revert j; induction l as [|y l IH]; intros j H; cbn in H. - destruct j; cbn; auto.
  - destruct (Nat.eqb_spec y x); [subst j; cbn; auto|]. destruct j as [|j]; [discriminate|]. injection H as H. cbn. intros [E|E]; [auto|]. eapply IH; eauto.
Qed.

Section RA.
  Context {F : Fld} (I : IRC F).
  Notation Circuit := (Circuit I). Notation RootCircuit := (RootCircuit I).

  (* opt.rs:402-410 *)
  Definition has_duplicate_outputs (rc : RootCircuit) : bool := existsb (fun p => negb (nodupb (outputs (snd p)))) (circuits rc).

  (* opt.rs:426-439 *)
  Fixpoint ra_insns (om : nat -> option (list nat)) (is : list (Insn I)) (vm : list nat) : option (list (Insn I) * list nat) :=
    match is with
    | [] => Some ([], vm)
    | i :: is =>
        let* vm := match i_call i with
                   | Some (sub, _, _) => let* o := om sub in Some (vm ++ map (fun x => x + length vm) o)
                   | None => Some (vm ++ seq (length vm) (i_nout i))
                   end in
        let* r := ra_insns om is vm in
        Some (i_replace (vmap vm) i :: fst r, snd r)
    end.
  (* opt.rs:451-463 *)
  Fixpoint ra_copy (om : list nat) (i : nat) (outs : list nat) (mx : nat) : list (Insn I) * list nat :=
    match om with
    | [] => ([], outs)
    | x :: om => if x <? i then let '(is, o) := ra_copy om (S i) (upd outs i (S mx)) (S mx) in (i_kxb I (nth x outs 0) f1 f0 :: is, o)
                 else ra_copy om (S i) outs mx
    end.
  (* opt.rs:419-464 *)
  Definition ra_circuit (force : bool) (om : nat -> option (list nat)) (id : nat) (c : Circuit) : option (Circuit * list nat) :=
    let* r := ra_insns om (instructions c) (seq 0 (S (num_inputs c))) in
    let '(is', vm) := r in
    let outs := map (vmap vm) (outputs c) in
    let o := map (fun x => pos x outs) outs in
    let '(cp, outs') := if (id =? 0) || force then ra_copy o 0 outs (length vm - 1) else ([], outs) in
    Some ({| instructions := is' ++ cp; constraints := map (c_replace (vmap vm)) (constraints c); outputs := outs';
             num_inputs := num_inputs c |}, o).
  (* opt.rs:412-470 *)
  Definition reassign_duplicates (force : bool) (rc : RootCircuit) : option RootCircuit :=
    if has_duplicate_outputs rc then
      let* q := root_order I rc in
      let* acc := rev_pass I (ra_circuit force) (circuits rc) (rev q) [] in
      Some {| num_public_inputs := num_public_inputs rc; expected_num_output_zeroes := expected_num_output_zeroes rc;
              circuits := map (fun p => (fst p, fst (snd p))) acc |}
    else Some rc.
End RA.

Lemma nth_upd_same (l : list nat) i v d : i < length l -> nth i (upd l i v) d = v.
Proof. intros H. rewrite nth_upd, Nat.eqb_refl. destruct (Nat.ltb_spec i (length l)); auto; lia. Qed.

Lemma nth_map_d {A} (f : nat -> A) l j d : j < length l -> nth j (map f l) d = f (nth j l 0).
Proof. intros H. rewrite (nth_indep _ d (f 0)) by (rewrite map_length; auto). apply map_nth. Qed.
Lemma skipn_S_tl {A} (l : list A) i : skipn (S i) l = tl (skipn i l).
Proof. revert i; induction l as [|x l IH]; intros [|i]; cbn; auto. apply IH. Qed.
Section Proofs.
  Context {F : Fld} (I : IRC F) (L : IRC_laws I).
  Notation Circuit := (Circuit I). Notation RootCircuit := (RootCircuit I).
  Notation getv := (getv (F := F)).
  Add Field FldF : (fth F).

  (* ---------- copies ---------- *)
  Lemma ra_copy_sem E cs om : forall i outs mx vals is o (V : list F), ra_copy I om i outs mx = (is, o) ->
    length vals = S mx -> Forall (fun x => 0 < x <= mx)%nat outs -> length outs = i + length om -> map (getv vals) outs = V ->
    (forall j x, nth_error om j = Some x -> x <= i + j /\ nth x V f0 = nth (i + j) V f0) ->
    wf_insns I is mx /\ Forall (fun x => 0 < x <= mx + nouts I is)%nat o /\ length o = length outs /\
    Forall (fun i => i_call i = None) is /\
    exists l, length l = nouts I is /\ map (getv (vals ++ l)) o = V /\ forall vf b, exec I E cs is vals vf b <-> vf = vals ++ l /\ b = true.
  Proof.
    induction om as [|x om IH]; intros i outs mx vals is o V H Hl Hr Hlo HV Hom; cbn [ra_copy] in H.
    - injection H as <- <-. cbn. rewrite Nat.add_0_r. split; auto. split; auto. split; auto. split; auto.
      exists []. rewrite app_nil_r. split; auto. split; auto. intros vf b. apply exec_nil.
    - cbn [length] in Hlo. destruct (Hom 0 x eq_refl) as [Hx Hxv]. rewrite Nat.add_0_r in *.
      assert (Hom2 : forall j y, nth_error om j = Some y -> y <= S i + j /\ nth y V f0 = nth (S i + j) V f0).
      { intros j y Hj. specialize (Hom (S j) y Hj). replace (S i + j) with (i + S j) by lia. auto. }
      destruct (Nat.ltb_spec x i) as [Hlt|Hge].
      + destruct (ra_copy I om (S i) (upd outs i (S mx)) (S mx)) as [is1 o1] eqn:E1. injection H as <- <-.
        set (a := nth x outs 0) in *.
        assert (Ha : 0 < a <= mx). { rewrite Forall_forall in Hr. apply Hr. apply nth_In. lia. }
        set (v := fadd (fmul (getv vals a) f1) f0).
        assert (Hv : v = getv vals a). { unfold v. ring. }
        assert (HVlen : length V = length outs) by (rewrite <- HV; apply map_length).
        assert (Hva : getv vals a = nth i V f0).
        { rewrite <- Hxv, <- HV. unfold a. rewrite (nth_indep (map (getv vals) outs) f0 (getv vals 0)) by (rewrite map_length; lia). rewrite map_nth. auto. }
        destruct (IH (S i) (upd outs i (S mx)) (S mx) (vals ++ [v]) is1 o1 V E1) as [W [H1 [H2 [H3 [l [H4 [H5 H6]]]]]]]; auto.
        { rewrite app_length; cbn; lia. }
        { apply Forall_forall. intros y Hy. apply In_nth_error in Hy. destruct Hy as [j Hj]. rewrite nth_error_upd in Hj.
          destruct ((i =? j) && (i <? length outs)); [injection Hj as <-; lia|]. rewrite Forall_forall in Hr. apply nth_error_In in Hj. apply Hr in Hj. lia. }
        { rewrite upd_length; lia. }
        { apply list_eq_nth_error. intros j. rewrite nth_error_map, nth_error_upd.
          destruct (Nat.eqb_spec i j) as [<-|Hne].
          - destruct (Nat.ltb_spec i (length outs)); [|lia]. cbn [andb option_map]. rewrite getv_app_r by lia. rewrite Hl, Nat.sub_diag. unfold Ir.getv at 1; cbn [nth].
            rewrite Hv, Hva. symmetry. apply nth_error_nth'. lia.
          - cbn [andb]. rewrite <- HV, nth_error_map. destruct (nth_error outs j) as [y|] eqn:Ey; auto. cbn [option_map]. f_equal. apply getv_app_l.
            apply nth_error_In in Ey. rewrite Forall_forall in Hr. apply Hr in Ey. lia. }
        destruct (l_kxb_call I L a f1 f0) as [K1 [K2 K3]].
        cbn [wf_insns nouts]. rewrite K2. split; [split|].
        { apply Forall_forall. intros y Hy. apply K3 in Hy. destruct Hy as [<-|[]]. lia. }
        { rewrite Nat.add_1_r. auto. }
        split. { eapply Forall_impl; [|exact H1]. cbn; intros; lia. }
        split. { rewrite H2, upd_length. auto. }
        split; [constructor; auto|].
        exists (v :: l). split; [cbn; lia|]. rewrite <- app_assoc in *. split; auto.
        intros vf b. rewrite exec_cons. split.
        * intros [outs1 [b1 [b2 [S1 [X ->]]]]]. unfold step in S1. rewrite K1 in S1. destruct S1 as [_ [S1 ->]].
          apply (l_kxb_sem I L) in S1; [|lia]. subst outs1. apply H6 in X. destruct X as [-> ->]. auto.
        * intros [-> ->]. exists [v], true, true. split; [|split; auto].
          -- unfold step. rewrite K1. split; [|split; auto]. apply Forall_forall. intros y Hy. apply K3 in Hy. destruct Hy as [<-|[]]. unfold inb; lia.
             apply (l_kxb_sem I L); [lia|reflexivity].
          -- apply H6. auto.
      + destruct (IH (S i) outs mx vals is o V H) as [W [H1 [H2 [H3 [l [H4 [H5 H6]]]]]]]; auto; try lia.
        split; auto. split; auto. split; auto. split; auto. exists l; auto.
  Qed.
  Lemma firstn_upd_snoc (l : list nat) i v : i < length l -> firstn (S i) (upd l i v) = firstn i l ++ [v].
  Proof. revert i; induction l as [|x l IH]; intros [|i] H; cbn in *; try lia; auto. f_equal. apply IH. lia. Qed.
  Lemma firstn_snoc_nth (l : list nat) i x : nth_error l i = Some x -> firstn (S i) l = firstn i l ++ [x].
  Proof. revert i; induction l as [|y l IH]; intros [|i] H; cbn in *; try discriminate; auto. congruence. f_equal. apply IH; auto. Qed.
  Lemma ra_copy_nodup (orig : list nat) mx0 : Forall (fun x => x <= mx0) orig -> forall om i outs mx is o,
    ra_copy I om i outs mx = (is, o) -> mx0 <= mx -> length outs = length orig -> i + length om = length orig ->
    (forall j x, nth_error om j = Some x -> x = pos (nth (i + j) orig 0) orig) ->
    skipn i outs = skipn i orig -> NoDup (firstn i outs) ->
    (forall x, In x (firstn i outs) -> In x (firstn i orig) \/ mx0 < x <= mx) -> NoDup o.
  Proof.
    intros Hb. induction om as [|x om IH]; intros i outs mx is o H Hm Hl Hi Hom Hsk Hnd Hin; cbn [ra_copy] in H.
    - injection H as _ <-. cbn in Hi. rewrite <- (firstn_all outs). rewrite Hl, <- Hi, Nat.add_0_r. auto.
    - cbn [length] in Hi. pose proof (Hom 0 x eq_refl) as Hx. rewrite Nat.add_0_r in Hx.
      assert (Hni : nth_error orig i = Some (nth i orig 0)) by (apply nth_error_nth'; lia).
      assert (Hno : nth_error outs i = Some (nth i orig 0)).
      { rewrite <- Hni. rewrite <- (firstn_skipn i outs), <- (firstn_skipn i orig) at 1. rewrite !nth_error_app2; rewrite !firstn_length; try lia.
        rewrite Hsk. f_equal. lia. }
      assert (Hsk2 : forall l : list nat, length l = length outs -> skipn i l = skipn i orig -> skipn (S i) l = skipn (S i) orig).
      { intros l _ E. rewrite !skipn_S_tl, E. auto. }
      assert (Hom2 : forall j y, nth_error om j = Some y -> y = pos (nth (S i + j) orig 0) orig).
      { intros j y Hj. specialize (Hom (S j) y Hj). replace (S i + j) with (i + S j) by lia. auto. }
      destruct (Nat.ltb_spec x i).
      + destruct (ra_copy I om (S i) (upd outs i (S mx)) (S mx)) as [is1 o1] eqn:E1. injection H as _ <-.
        eapply (IH _ _ _ _ _ E1); auto; try lia.
        * rewrite upd_length; auto.
        * rewrite <- (Hsk2 outs eq_refl Hsk). apply list_eq_nth_error. intros j.
          assert (Hse : forall (l : list nat) k, nth_error (skipn k l) j = nth_error l (k + j)).
          { clear. induction l as [|y l IHl]; intros [|k]; cbn; auto. destruct j; auto. }
          rewrite !Hse. apply nth_error_upd_ne. lia.
        * rewrite firstn_upd_snoc by lia. apply NoDup_app_iff. split; auto. split; [constructor; auto; constructor|].
          intros y Hy [<-|[]]. apply Hin in Hy. destruct Hy as [Hy|Hy]; [|lia].
          assert (Hbad : In (S mx) orig). { rewrite <- (firstn_skipn i orig). apply in_or_app; auto. }
          rewrite Forall_forall in Hb. apply Hb in Hbad. lia.
        * intros y Hy. rewrite firstn_upd_snoc in Hy by lia. apply in_app_or in Hy. destruct Hy as [Hy|[<-|[]]]; [|right; lia].
          apply Hin in Hy. destruct Hy as [Hy|Hy]; [left|right; lia]. rewrite (firstn_snoc_nth _ _ _ Hni). apply in_or_app; auto.
      + eapply (IH _ _ _ _ _ H); auto; try lia.
        * rewrite (firstn_snoc_nth _ _ _ Hno). apply NoDup_app_iff. split; auto. split; [constructor; auto; constructor|].
          pose proof (pos_first _ _ _ Hni) as Hp. assert (Hxi : pos (nth i orig 0) orig = i) by lia.
          intros y Hy [<-|[]]. apply Hin in Hy. destruct Hy as [Hy|Hy].
          -- apply (pos_nin _ _ _ Hxi); auto.
          -- assert (Hbad : In (nth i orig 0) orig) by (eapply nth_error_In; eauto). rewrite Forall_forall in Hb. apply Hb in Hbad. lia.
        * intros y Hy. rewrite (firstn_snoc_nth _ _ _ Hno) in Hy. rewrite (firstn_snoc_nth _ _ _ Hni).
          apply in_app_or in Hy. destruct Hy as [Hy|[<-|[]]].
          -- apply Hin in Hy. destruct Hy; [left; apply in_or_app; auto|right; lia].
          -- left. apply in_or_app; right; left; auto.
  Qed.

  (* ---------- one circuit ---------- *)
  Lemma ra_insns_local om om' is : (forall i sub l n, In i is -> i_call i = Some (sub, l, n) -> om sub = om' sub) ->
    forall vm, ra_insns I om is vm = ra_insns I om' is vm.
  Proof.
    induction is as [|i is IH]; intros H vm; cbn [ra_insns]; auto.
    assert (IH2 : forall vm, ra_insns I om is vm = ra_insns I om' is vm) by (apply IH; intros; eapply H; eauto; right; auto).
    destruct (i_call i) as [[[sub l] n]|] eqn:Ec.
    - rewrite (H i sub l n (or_introl eq_refl) Ec). destruct (om' sub); cbn [obind]; auto. rewrite IH2; auto.
    - cbn [obind]. rewrite IH2; auto.
  Qed.
  Lemma ra_local force m m' id c : (forall o, In o (calls c) -> m o = m' o) -> ra_circuit I force m id c = ra_circuit I force m' id c.
  Proof.
    intros H. unfold ra_circuit. rewrite (ra_insns_local m m'); auto. intros i sub l n Hi Ec. apply H. eapply in_calls; eauto.
  Qed.

  Section Fixed.
    Variable cs : list (nat * Circuit).
    Hypothesis Hwf : wf_circuits I cs.
    (* the summary of a circuit: for each output, the first output that is the same variable *)
    Definition Q (id : nat) (s : list nat) : Prop := forall c, lookup id cs = Some c ->
      length s = length (outputs c) /\ Forall (fun x => x < length (outputs c)) s.

    Definition vmok (vm : list nat) (n : nat) : Prop := length vm = n /\ vmap vm 0 = 0 /\ (forall x, 0 < x < n -> 0 < vmap vm x < n).
    Lemma vmok_seq n : vmok (seq 0 n) n.
    Proof.
      split; [apply seq_length|]. split; [destruct n; auto|]. intros x Hx. unfold vmap. rewrite seq_nth; lia.
    Qed.
    Lemma vmok_ext vm n e : vmok vm n -> (forall j x, nth_error e j = Some x -> n <= x < n + length e) -> 0 < n -> vmok (vm ++ e) (n + length e).
    Proof.
      intros [H1 [H0 H2]] He Hn. split; [rewrite app_length; lia|]. split; [rewrite vmap_app_l by lia; auto|]. intros x Hx. destruct (Nat.lt_ge_cases x n).
      - rewrite vmap_app_l by lia. specialize (H2 x ltac:(lia)). lia.
      - rewrite vmap_app_r by lia. destruct (nth_error_Some_ex e (x - length vm) ltac:(lia)) as [y Hy].
        rewrite (nth_error_nth _ _ 0 Hy). apply He in Hy. lia.
    Qed.

    (* static facts about the rewriting of an instruction list *)
    Lemma ra_insns_static om is : forall cur vm, vmok vm (S cur) -> wf_insns I is cur -> Forall (call_wf I cs) is ->
      (forall i sub l n, In i is -> i_call i = Some (sub, l, n) -> exists s, om sub = Some s /\ Q sub s) ->
      exists is' vm', ra_insns I om is vm = Some (is', vm') /\ vmok vm' (S (cur + nouts I is)) /\ wf_insns I is' cur /\ nouts I is' = nouts I is /\
        map (fun i => option_map (fun p => (fst (fst p), length (snd (fst p)), snd p)) (i_call i)) is' =
        map (fun i => option_map (fun p => (fst (fst p), length (snd (fst p)), snd p)) (i_call i)) is.
    Proof.
      induction is as [|i is IH]; intros cur vm Hv Hw Hc Hs; cbn [ra_insns].
      - exists [], vm. cbn. rewrite Nat.add_0_r. auto.
      - destruct Hw as [Hi Hw]. inversion Hc as [|? ? Hci Hc2]; subst.
        set (ext := match i_call i with Some (sub, _, _) => let* o := om sub in Some (map (fun x => x + length vm) o) | None => Some (seq (length vm) (i_nout i)) end).
        assert (He : exists e, ext = Some e /\ length e = i_nout i /\ (forall j x, nth_error e j = Some x -> S cur <= x < S cur + length e)).
        { unfold ext. destruct Hv as [Hv _]. destruct (i_call i) as [[[sub l] n]|] eqn:Ec.
          - destruct (Hs i sub l n (or_introl eq_refl) Ec) as [s [Hs1 Hs2]]. rewrite Hs1. cbn [obind]. eexists; split; [reflexivity|].
            destruct (Hci _ _ _ Ec) as [c [Hlc [_ Hn]]]. destruct (Hs2 c Hlc) as [Hs3 Hs4]. destruct (l_call I L _ _ _ _ Ec) as [_ En].
            rewrite map_length. split; [congruence|]. intros j x Hj. rewrite nth_error_map in Hj. destruct (nth_error s j) as [y|] eqn:Ey; [|discriminate].
            injection Hj as <-. rewrite Forall_forall in Hs4. apply nth_error_In in Ey. apply Hs4 in Ey. lia.
          - eexists; split; [reflexivity|]. rewrite seq_length. split; auto. intros j x Hj. apply nth_error_In in Hj. apply in_seq in Hj. lia. }
        destruct He as [e [He1 [He2 He3]]].
        assert (Hext : match i_call i with Some (sub, _, _) => let* o := om sub in Some (vm ++ map (fun x => x + length vm) o) | None => Some (vm ++ seq (length vm) (i_nout i)) end = Some (vm ++ e)).
        { unfold ext in He1. destruct (i_call i) as [[[sub l] n]|]; [destruct (om sub); cbn [obind] in *; [|discriminate]|]; injection He1 as <-; auto. }
        rewrite Hext. cbn [obind]. pose proof (vmok_ext vm (S cur) e Hv He3 ltac:(lia)) as Hv2. rewrite He2 in Hv2. cbn [Nat.add] in Hv2.
        destruct (IH _ _ Hv2 Hw Hc2) as [is' [vm' [H1 [H2 [H3 [H4 H5]]]]]]; [intros; eapply Hs; eauto; right; auto|].
        rewrite H1. cbn [obind fst snd]. exists (i_replace (vmap (vm ++ e)) i :: is'), vm'. split; auto. cbn [nouts wf_insns map].
        rewrite (l_repl_nout I L), (l_repl_inputs I L), (l_repl_call I L), Nat.add_assoc. split; auto. split; [split; auto|split; [lia|]].
        + apply Forall_forall. intros y Hy. apply in_map_iff in Hy. destruct Hy as [x [<- Hx]]. rewrite Forall_forall in Hi. specialize (Hi x Hx).
          destruct Hv as [Hvl [_ Hv]]. rewrite vmap_app_l by lia. specialize (Hv x ltac:(lia)). lia.
        + f_equal; auto. destruct (i_call i) as [[[sub l] n]|]; cbn; auto. rewrite map_length. auto.
    Qed.

    Lemma ra_circuit_static force om id c : lookup id cs = Some c ->
      (forall o, In o (calls c) -> exists s, om o = Some s /\ Q o s) ->
      exists c' s, ra_circuit I force om id c = Some (c', s) /\ Q id s /\ num_inputs c' = num_inputs c /\ length (outputs c') = length (outputs c) /\
        wf_circuit I c' /\ (forall cs', (forall o co, lookup o cs = Some co -> exists co', lookup o cs' = Some co' /\ num_inputs co' = num_inputs co /\ length (outputs co') = length (outputs co)) ->
           Forall (call_wf I cs') (instructions c')) /\ incl (calls c') (calls c) /\
        ((id =? 0) || force = true -> NoDup (outputs c')).
    Proof.
      intros Hc Hom. pose proof (wf_each _ _ Hwf _ _ Hc) as W. pose proof (wf_calls _ _ Hwf _ _ Hc) as Wc.
      unfold ra_circuit. destruct (ra_insns_static om (instructions c) (num_inputs c) (seq 0 (S (num_inputs c))) (vmok_seq _) (wf_is _ _ W) Wc) as [is' [vm [H1 [H2 [H3 [H4 H5]]]]]].
      { intros i sub l n Hi Ec. apply Hom. eapply in_calls; eauto. }
      rewrite H1. cbn [obind]. set (outs := map (vmap vm) (outputs c)). set (o := map (fun x => pos x outs) outs).
      assert (Hn : length vm = S (num_inputs c + nouts I (instructions c))) by apply H2.
      assert (Houts : Forall (fun x => 0 < x <= num_inputs c + nouts I (instructions c))%nat outs).
      { apply Forall_forall. intros y Hy. apply in_map_iff in Hy. destruct Hy as [x [<- Hx]]. pose proof (wf_out _ _ W) as Hw. rewrite Forall_forall in Hw.
        specialize (Hw x Hx). destruct H2 as [_ [_ H2]]. specialize (H2 x ltac:(lia)). lia. }
      assert (Hol : length outs = length (outputs c)) by apply map_length.
      assert (HQ : Q id o).
      { intros c2 Hc2. rewrite Hc in Hc2. injection Hc2 as <-. unfold o. rewrite map_length. split; auto.
        apply Forall_forall. intros y Hy. apply in_map_iff in Hy. destruct Hy as [x [<- Hx]]. rewrite <- Hol. apply pos_lt; auto. }
      assert (Hcons : forall m, Forall (fun k => 0 < c_var k <= num_inputs c + (nouts I is' + m))%nat (map (c_replace (vmap vm)) (constraints c))).
      { intros m. apply Forall_forall. intros k' Hk. apply in_map_iff in Hk. destruct Hk as [k [<- Hk]]. rewrite (l_con_repl I L).
        pose proof (wf_con _ _ W) as Hw. rewrite Forall_forall in Hw. specialize (Hw k Hk). cbn in Hw. destruct H2 as [_ [_ H2]]. specialize (H2 (c_var k) ltac:(lia)). lia. }
      assert (Hcalls : forall cp, Forall (fun i => i_call (F:=F) (i:=I) i = None) cp ->
        (forall cs', (forall o co, lookup o cs = Some co -> exists co', lookup o cs' = Some co' /\ num_inputs co' = num_inputs co /\ length (outputs co') = length (outputs co)) ->
           Forall (call_wf I cs') (is' ++ cp)) /\ forall i sub l n, In i (is' ++ cp) -> i_call i = Some (sub, l, n) -> In sub (calls c)).
      { intros cp Hcp. assert (Hmatch : forall i sub l n, In i (is' ++ cp) -> i_call i = Some (sub, l, n) -> exists i0 l0, In i0 (instructions c) /\ i_call i0 = Some (sub, l0, n) /\ length l = length l0).
        { intros i sub l n Hi Ec. apply in_app_or in Hi. destruct Hi as [Hi|Hi].
          - apply (in_map (fun i => option_map (fun p => (fst (fst p), length (snd (fst p)), snd p)) (i_call i))) in Hi. rewrite H5, Ec in Hi. cbn in Hi.
            apply in_map_iff in Hi. destruct Hi as [i0 [E0 Hi0]]. destruct (i_call i0) as [[[sub0 l0] n0]|] eqn:Ec0; [|discriminate]. cbn in E0. injection E0 as <- <- <-.
            exists i0, l0; auto.
          - rewrite Forall_forall in Hcp. apply Hcp in Hi. congruence. }
        split.
        - intros cs' Hcs'. apply Forall_forall. intros i Hi sub l n Ec. destruct (Hmatch _ _ _ _ Hi Ec) as [i0 [l0 [Hi0 [Ec0 El]]]].
          rewrite Forall_forall in Wc. destruct (Wc i0 Hi0 _ _ _ Ec0) as [co [Hco [E1 E2]]]. destruct (Hcs' _ _ Hco) as [co' [E3 [E4 E5]]].
          exists co'. split; auto. split; congruence.
        - intros i sub l n Hi Ec. destruct (Hmatch _ _ _ _ Hi Ec) as [i0 [l0 [Hi0 [Ec0 _]]]]. eapply in_calls; eauto. }
      assert (Hincl : forall cp, Forall (fun i => i_call (F:=F) (i:=I) i = None) cp ->
        forall k o' n, incl (calls {| instructions := is' ++ cp; constraints := k; outputs := o'; num_inputs := n |}) (calls c)).
      { intros cp Hcp k o' n x Hx. apply calls_in in Hx. destruct Hx as [i [l [n2 [Hi Ec]]]]. destruct (Hcalls cp Hcp) as [_ H]. eapply H; eauto. }
      destruct ((id =? 0) || force) eqn:Ef.
      - destruct (ra_copy I o 0 outs (length vm - 1)) as [cp outs'] eqn:Ecp.
        assert (Hpos : forall j x, nth_error o j = Some x -> x = pos (nth j outs 0) outs).
        { intros j x Hj. unfold o in Hj. rewrite nth_error_map in Hj. destruct (nth_error outs j) as [y|] eqn:Ey; [|discriminate]. injection Hj as <-.
          rewrite (nth_error_nth _ _ 0 Ey). auto. }
        rewrite Hn in Ecp. replace (S (num_inputs c + nouts I (instructions c)) - 1) with (num_inputs c + nouts I (instructions c)) in Ecp by lia.
        destruct (ra_copy_sem {| e_pub := fun _ => f0; e_gate := fun _ _ => f0; e_hint := fun _ _ _ _ => True; e_rnd := fun _ => True |} [] o 0 outs (num_inputs c + nouts I (instructions c)) (repeat f0 (S (num_inputs c + nouts I (instructions c)))) cp outs'
          (map (getv (repeat f0 (S (num_inputs c + nouts I (instructions c))))) outs) Ecp) as [K1 [K2 [K3 [K4 _]]]]; auto.
        { apply repeat_length. } { unfold o. rewrite map_length. auto. }
        { intros j x Hj. pose proof (Hpos _ _ Hj) as ->. cbn [Nat.add]. pose proof (nth_error_Some_lt _ _ _ Hj) as Hlt. unfold o in Hlt. rewrite map_length in Hlt.
          split; [apply pos_first; apply nth_error_nth'; auto|].
          assert (Hin : In (nth j outs 0) outs) by (apply nth_In; auto).
          rewrite !nth_map_d by (auto using pos_lt). f_equal. apply pos_nth; auto. }
        eexists _, o. split; [reflexivity|]. cbn [num_inputs outputs instructions constraints].
        split; auto. split; auto. split; [congruence|]. split; [|split; [|split]].
        + split; cbn [num_inputs outputs instructions constraints].
          * apply wf_insns_app. split; auto. rewrite H4. auto.
          * rewrite nouts_app. auto.
          * rewrite nouts_app, H4, Nat.add_assoc. auto.
        + apply Hcalls; auto.
        + apply Hincl; auto.
        + intros _. eapply (ra_copy_nodup outs (num_inputs c + nouts I (instructions c))); try exact Ecp; auto.
          * eapply Forall_impl; [|exact Houts]. cbn; intros; lia.
          * unfold o. rewrite map_length; auto.
          * constructor.
      - eexists _, o. split; [reflexivity|]. cbn [num_inputs outputs instructions constraints].
        split; auto. split; auto. split; auto. split; [|split; [|split]].
        + split; cbn [num_inputs outputs instructions constraints]; rewrite ?app_nil_r; auto.
          * specialize (Hcons 0). rewrite Nat.add_0_r in Hcons. auto.
          * rewrite H4; auto.
        + apply Hcalls; auto.
        + apply Hincl; auto.
        + discriminate.
    Qed.

    (* ---------- dynamics ---------- *)
    Variable force : bool.
    Variable om : nat -> option (list nat).
    Variable cs' : list (nat * Circuit).
    Hypothesis Hcs' : forall id c, lookup id cs = Some c -> exists c' s,
      lookup id cs' = Some c' /\ om id = Some s /\ ra_circuit I force om id c = Some (c', s) /\ Q id s.

    Definition same (E : Env F) (id : nat) : Prop := forall c ins, lookup id cs = Some c -> length ins = num_inputs c ->
      forall outs b, (run I E cs id ins outs b <-> run I E cs' id ins outs b) /\
        (run I E cs id ins outs b -> forall s j, om id = Some s -> j < length s -> nth (nth j s 0) outs f0 = nth j outs f0).
    Definition vmv (vm : list nat) (vals : list F) : Prop := forall x, x < length vm -> getv vals (vmap vm x) = getv vals x.
    Lemma vmok_lt vm n x : vmok vm n -> x < n -> vmap vm x < n.
    Proof. intros [_ [H0 H]] Hx. destruct (Nat.eq_dec x 0) as [->|]; [lia|]. specialize (H x ltac:(lia)). lia. Qed.
    Lemma vmv_ext vm vals e outs n : vmok vm n -> vmv vm vals -> length vals = n ->
      (forall j, j < length e -> getv (vals ++ outs) (nth j e 0) = nth j outs f0) -> vmv (vm ++ e) (vals ++ outs).
    Proof.
      intros Hv Hvv Hl He x Hx. rewrite app_length in Hx. assert (Hvl : length vm = n) by apply Hv.
      destruct (Nat.lt_ge_cases x (length vm)) as [Hx2|Hx2].
      - rewrite vmap_app_l by auto. pose proof (vmok_lt vm n x Hv ltac:(lia)). rewrite !getv_app_l by lia. apply Hvv; auto.
      - rewrite vmap_app_r by auto. rewrite He by lia. rewrite getv_app_r by lia. unfold Ir.getv. f_equal. lia.
    Qed.

    Lemma ra_exec E id c (rank : nat -> nat) : ranked I cs rank -> lookup id cs = Some c ->
      (forall sub, rank sub < rank id -> same E sub) ->
      forall is cur vm vals is' vm', incl is (instructions c) -> vmok vm (S cur) -> vmv vm vals -> length vals = S cur -> wf_insns I is cur ->
        ra_insns I om is vm = Some (is', vm') ->
        forall vf b, (exec I E cs is vals vf b <-> exec I E cs' is' vals vf b) /\ (exec I E cs is vals vf b -> vmv vm' vf).
    Proof.
      intros R Hc Hsub. induction is as [|i is IH]; intros cur vm vals is' vm' Hinc Hv Hvv Hl Hw Hra vf b; cbn [ra_insns] in Hra.
      - injection Hra as <- <-. rewrite !exec_nil. split; [tauto|]. intros [-> _]. auto.
      - destruct Hw as [Hi Hw]. apply obind_some in Hra. destruct Hra as [vm2 [Hvm2 Hra]]. apply obind_some in Hra. destruct Hra as [[is1 vm1] [Hra E2]].
        cbn [fst snd] in E2. injection E2 as <- <-.
        pose proof (wf_calls _ _ Hwf _ _ Hc) as Wc. rewrite Forall_forall in Wc. assert (Hin : In i (instructions c)) by (apply Hinc; left; auto).
        pose proof (Wc i Hin) as Wi. assert (Hvl : length vm = S cur) by apply Hv.
        assert (Hvm2' : exists e, vm2 = vm ++ e /\ length e = i_nout i /\ (forall j x, nth_error e j = Some x -> S cur <= x < S cur + length e) /\
          forall outs b1, step I E cs i vals outs b1 -> vmv (vm ++ e) (vals ++ outs)).
        { destruct (i_call i) as [[[sub l] n]|] eqn:Ec.
          - destruct (Wi _ _ _ Ec) as [cb [Hcb [Hll Hnn]]]. destruct (Hcs' _ _ Hcb) as [cb' [s [_ [Hs [_ HQs]]]]]. rewrite Hs in Hvm2. cbn [obind] in Hvm2. injection Hvm2 as <-.
            destruct (HQs _ Hcb) as [Hs1 Hs2]. destruct (l_call I L _ _ _ _ Ec) as [El En].
            eexists; split; [reflexivity|]. rewrite map_length. split; [congruence|]. split.
            + intros j x Hj. rewrite nth_error_map in Hj. destruct (nth_error s j) as [y|] eqn:Ey; [|discriminate]. injection Hj as <-.
              rewrite Forall_forall in Hs2. apply nth_error_In in Ey. apply Hs2 in Ey. lia.
            + intros outs b1 Hst. unfold step in Hst. rewrite Ec in Hst. destruct Hst as [Hb Hst].
              eapply vmv_ext; eauto. intros j Hj. rewrite map_length in Hj. rewrite nth_map_d by auto. rewrite getv_app_r by lia.
              replace (nth j s 0 + length vm - length vals) with (nth j s 0) by lia.
              eapply (Hsub sub); eauto. eapply R; eauto. eapply in_calls; eauto. rewrite map_length; auto.
          - injection Hvm2 as <-. eexists; split; [reflexivity|]. rewrite seq_length. split; auto. split.
            + intros j x Hj. apply nth_error_In in Hj. apply in_seq in Hj. lia.
            + intros outs b1 Hst. eapply vmv_ext; eauto. intros j Hj. rewrite seq_length in Hj. rewrite seq_nth by auto.
              rewrite getv_app_r by lia. unfold Ir.getv. f_equal. lia. }
        destruct Hvm2' as [e [-> [He [Hek Hev]]]].
        pose proof (vmok_ext vm (S cur) e Hv Hek ltac:(lia)) as Hv2. rewrite He in Hv2. cbn [Nat.add] in Hv2.
        assert (Hrep : forall x, In x (i_inputs i) -> getv vals (vmap (vm ++ e) x) = getv vals x /\ inb vals (vmap (vm ++ e) x) /\ inb vals x).
        { intros x Hx. rewrite Forall_forall in Hi. specialize (Hi x Hx). rewrite vmap_app_l by lia. split; [apply Hvv; lia|].
          unfold inb. pose proof (vmok_lt vm (S cur) x Hv ltac:(lia)). lia. }
        assert (Hstep : forall outs b1, step I E cs i vals outs b1 <-> step I E cs' (i_replace (vmap (vm ++ e)) i) vals outs b1).
        { intros outs b1. unfold step. rewrite (l_repl_call I L). destruct (i_call i) as [[[sub l] n]|] eqn:Ec.
          - destruct (l_call I L _ _ _ _ Ec) as [El En]. rewrite El in Hrep. destruct (Wi _ _ _ Ec) as [cb [Hcb [Hll Hnn]]].
            assert (Hm : map (getv vals) (map (vmap (vm ++ e)) l) = map (getv vals) l) by (rewrite map_map; apply map_ext_in; intros x Hx; apply Hrep; auto).
            rewrite Hm. assert (Hlt : rank sub < rank id) by (eapply R; eauto; eapply in_calls; eauto).
            destruct (Hsub sub Hlt cb (map (getv vals) l) Hcb ltac:(rewrite map_length; auto) outs b1) as [Hs _]. rewrite Hs.
            split; intros [_ G]; split; auto; apply Forall_forall; intros x Hx; [apply in_map_iff in Hx; destruct Hx as [y [<- Hx]]|]; destruct (Hrep _ Hx) as [? [? ?]]; auto.
          - rewrite (l_repl_inputs I L), (l_sem_repl I L).
            assert (Hs : i_sem E i (getv vals) outs <-> i_sem E i (fun x => getv vals (vmap (vm ++ e) x)) outs).
            { split; apply (l_sem_ext I L); intros x Hx; [symmetry|]; apply Hrep; auto. }
            rewrite Hs. split; intros [_ G]; split; auto; apply Forall_forall; intros x Hx; [apply in_map_iff in Hx; destruct Hx as [y [<- Hx]]|]; destruct (Hrep _ Hx) as [? [? ?]]; auto. }
        assert (Hrec : forall outs b1, step I E cs i vals outs b1 -> forall b2,
          (exec I E cs is (vals ++ outs) vf b2 <-> exec I E cs' is1 (vals ++ outs) vf b2) /\ (exec I E cs is (vals ++ outs) vf b2 -> vmv vm1 vf)).
        { intros outs b1 Hs b2. eapply (IH (cur + i_nout i)%nat (vm ++ e)); eauto.
          - intros x Hx; apply Hinc; right; auto.
          - rewrite app_length, (step_len I L _ _ _ _ _ _ Wi Hs). lia. }
        rewrite !exec_cons. split; [split|].
        + intros [outs [b1 [b2 [H1 [H2 ->]]]]]. exists outs, b1, b2. split; [apply Hstep; auto|]. split; auto. apply (Hrec _ _ H1); auto.
        + intros [outs [b1 [b2 [H1 [H2 ->]]]]]. apply Hstep in H1. exists outs, b1, b2. split; auto. split; auto. apply (Hrec _ _ H1); auto.
        + intros [outs [b1 [b2 [H1 [H2 ->]]]]]. apply (Hrec _ _ H1 b2); auto.
    Qed.

    Lemma ra_run E rank : ranked I cs rank -> forall id, same E id.
    Proof.
      intros R. apply (rank_ind rank (same E)). intros id IH c ins Hc Hl outs b.
      destruct (Hcs' _ _ Hc) as [c' [s [Hc' [Hs [Hra HQs]]]]]. pose proof (wf_each _ _ Hwf _ _ Hc) as W. pose proof (wf_calls _ _ Hwf _ _ Hc) as Wc.
      unfold ra_circuit in Hra. apply obind_some in Hra. destruct Hra as [[is' vm] [Hra E2]].
      destruct (ra_insns_static om (instructions c) (num_inputs c) (seq 0 (S (num_inputs c))) (vmok_seq _) (wf_is _ _ W) Wc) as [is2 [vm2 [H1 [H2 [H3 [H4 H5]]]]]].
      { intros i sub l n Hi Ec. rewrite Forall_forall in Wc. destruct (Wc i Hi _ _ _ Ec) as [cb [Hcb _]]. destruct (Hcs' _ _ Hcb) as [cb' [s' [_ [G1 [_ G2]]]]]. eauto. }
      rewrite H1 in Hra. injection Hra as -> ->.
      assert (Hx : forall vf b, (exec I E cs (instructions c) (f0 :: ins) vf b <-> exec I E cs' is' (f0 :: ins) vf b) /\ (exec I E cs (instructions c) (f0 :: ins) vf b -> vmv vm vf)).
      { apply (ra_exec E id c rank R Hc IH (instructions c) (num_inputs c) (seq 0 (S (num_inputs c))) (f0 :: ins) is' vm); [apply incl_refl|apply vmok_seq| |cbn; lia|apply (wf_is _ _ W)|auto].
        intros x Hx. rewrite seq_length in Hx. unfold vmap. rewrite seq_nth by auto. auto. }
      set (O := map (vmap vm) (outputs c)) in *. set (o := map (fun x => pos x O) O) in *.
      assert (Hcp : exists cp outs', (if (id =? 0) || force then ra_copy I o 0 O (length vm - 1) else ([], O)) = (cp, outs') /\
        instructions c' = is' ++ cp /\ constraints c' = map (c_replace (vmap vm)) (constraints c) /\ outputs c' = outs' /\ num_inputs c' = num_inputs c /\ s = o).
      { destruct (if (id =? 0) || force then ra_copy I o 0 O (length vm - 1) else ([], O)) as [cp outs'] eqn:Ecp. injection E2 as <- <-. eexists _, _; split; [reflexivity|]. auto 10. }
      destruct Hcp as [cp [outs' [Hcp [Ei [Ek [Eo [En Es]]]]]]]. clear E2.
      assert (Hnvm : length vm = S (num_inputs c + nouts I (instructions c))) by apply H2.
      (* facts at the end of the main part *)
      assert (Hend : forall vf b0, exec I E cs (instructions c) (f0 :: ins) vf b0 ->
        length vf = length vm /\ map (getv vf) O = map (getv vf) (outputs c) /\ Forall (fun x => 0 < x < length vf)%nat O /\
        Forall (fun x => x < length vf)%nat (outputs c) /\
        Forall (fun k => inb vf (c_var k)) (constraints c) /\ Forall (fun k => inb vf (c_var k)) (constraints c') /\
        forallb (fun k => c_verify k (getv vf (c_var k))) (constraints c') = forallb (fun k => c_verify k (getv vf (c_var k))) (constraints c)).
      { intros vf b0 G. pose proof (exec_len I L _ _ _ _ _ _ Wc G) as Hlen. cbn [length] in Hlen.
        destruct (Hx vf b0) as [_ Hvv]. specialize (Hvv G).
        assert (Hout : forall x, In x (outputs c) -> 0 < x < length vm). { intros x Hx2. pose proof (wf_out _ _ W) as Hw. rewrite Forall_forall in Hw. specialize (Hw x Hx2). lia. }
        assert (Hcon : forall k, In k (constraints c) -> 0 < c_var k < length vm). { intros x Hx2. pose proof (wf_con _ _ W) as Hw. rewrite Forall_forall in Hw. specialize (Hw x Hx2). cbn in Hw. lia. }
        destruct H2 as [_ [_ H2]]. split; [lia|]. split; [|split; [|split; [|split; [|split]]]].
        - unfold O. rewrite map_map. apply map_ext_in. intros x Hx2. apply Hvv. apply Hout; auto.
        - apply Forall_forall. intros y Hy. apply in_map_iff in Hy. destruct Hy as [x [<- Hy]]. specialize (Hout x Hy). specialize (H2 x ltac:(lia)). lia.
        - apply Forall_forall. intros y Hy. specialize (Hout y Hy). lia.
        - apply Forall_forall. intros k Hk. specialize (Hcon k Hk). unfold inb. lia.
        - rewrite Ek. apply Forall_forall. intros k' Hk'. apply in_map_iff in Hk'. destruct Hk' as [k [<- Hk]]. rewrite (l_con_repl I L).
          specialize (Hcon k Hk). specialize (H2 (c_var k) ltac:(lia)). unfold inb. lia.
        - rewrite Ek. clear -L Hvv Hcon. induction (constraints c) as [|k l IHl]; cbn [map forallb]; auto. rewrite IHl by (intros; apply Hcon; right; auto).
          rewrite (l_con_verify I L), (l_con_repl I L). rewrite (Hvv (c_var k)); auto. apply Hcon; left; auto. }
      assert (Hpos : forall vf b0, exec I E cs (instructions c) (f0 :: ins) vf b0 -> forall j x, nth_error o j = Some x -> x <= j /\ nth x (map (getv vf) O) f0 = nth j (map (getv vf) O) f0).
      { intros vf b0 G j x Hj. unfold o in Hj. rewrite nth_error_map in Hj. destruct (nth_error O j) as [y|] eqn:Ey; [|discriminate]. injection Hj as <-.
        assert (Hy : In y O) by (eapply nth_error_In; eauto). split; [apply pos_first; auto|]. rewrite !nth_map_d by (eauto using pos_lt, nth_error_Some_lt).
        rewrite pos_nth by auto. rewrite (nth_error_nth _ _ 0 Ey). auto. }
      split; [split|].
      - intros Hr. apply run_iff in Hr. destruct Hr as [c2 [vf [b0 [Hc2 [G [Hk [Ho [-> ->]]]]]]]]. rewrite Hc in Hc2. injection Hc2 as <-.
        destruct (Hend _ _ G) as [Hlv [Hm [HO [_ [_ [Hk2 Hfb]]]]]]. apply run_iff.
        destruct ((id =? 0) || force).
        + destruct (ra_copy_sem E cs' o 0 O (length vm - 1) vf cp outs' (map (getv vf) O) Hcp) as [_ [K2 [_ [_ [l [K4 [K5 K6]]]]]]]; auto.
          { lia. } { eapply Forall_impl; [|exact HO]. cbn; intros; lia. } { unfold o. rewrite map_length; auto. } { eapply Hpos; eauto. }
          exists c', (vf ++ l), b0. split; auto. rewrite Ei, Eo. split; [|split; [|split; [|split]]].
          * apply exec_app. exists vf, b0, true. split; [apply Hx; auto|]. split; [apply K6; auto|]. rewrite andb_true_r; auto.
          * eapply Forall_impl; [|exact Hk2]. intros k Hk3. apply inb_app; auto.
          * eapply Forall_impl; [|exact K2]. unfold inb. rewrite app_length. cbn; intros; lia.
          * rewrite K5. auto.
          * f_equal. rewrite <- Hfb. clear -Hk2. induction (constraints c') as [|k kl IHl]; cbn [forallb]; auto. inversion Hk2; subst. rewrite IHl by auto.
            rewrite getv_app_l by auto. auto.
        + injection Hcp as <- <-. exists c', vf, b0. rewrite Ei, Eo, app_nil_r, Hfb, Hm. split; auto. split; [apply Hx; auto|]. split; auto.
          split; auto. eapply Forall_impl; [|exact HO]. unfold inb; cbn; intros; lia.
      - intros Hr. apply run_iff in Hr. destruct Hr as [c2 [vf' [b0 [Hc2 [G [Hk [Ho [-> ->]]]]]]]]. rewrite Hc' in Hc2. injection Hc2 as <-.
        rewrite Ei in G. apply exec_app in G. destruct G as [vf [b1 [b2 [G1 [G2 ->]]]]]. apply Hx in G1.
        destruct (Hend _ _ G1) as [Hlv [Hm [HO [Hob [Hkb [Hk2 Hfb]]]]]]. apply run_iff. exists c, vf, b1. split; auto. split; auto. split; auto. split; auto.
        destruct ((id =? 0) || force).
        + destruct (ra_copy_sem E cs' o 0 O (length vm - 1) vf cp outs' (map (getv vf) O) Hcp) as [_ [K2 [_ [_ [l [K4 [K5 K6]]]]]]]; auto.
          { lia. } { eapply Forall_impl; [|exact HO]. cbn; intros; lia. } { unfold o. rewrite map_length; auto. } { eapply Hpos; eauto. }
          apply K6 in G2. destruct G2 as [-> ->]. rewrite Eo, K5, andb_true_r. split; auto. f_equal. rewrite <- Hfb.
          clear -Hk2. induction (constraints c') as [|k kl IHl]; cbn [forallb]; auto. inversion Hk2; subst. rewrite IHl by auto.
          rewrite getv_app_l by auto. auto.
        + injection Hcp as <- <-. apply exec_nil in G2. destruct G2 as [-> ->]. rewrite Eo, Hm, Hfb, andb_true_r. auto.
      - intros Hr s2 j Hs2 Hj. rewrite Hs in Hs2. injection Hs2 as <-. rewrite Es in *.
        apply run_iff in Hr. destruct Hr as [c2 [vf [b0 [Hc2 [G [Hk [Ho [-> ->]]]]]]]]. rewrite Hc in Hc2. injection Hc2 as <-.
        destruct (Hend _ _ G) as [_ [Hm _]]. rewrite <- Hm. apply (Hpos _ _ G). apply nth_error_nth'. auto.
    Qed.
  End Fixed.

  Theorem reassign_duplicates_spec force rc : wf_root I rc -> exists rc',
    reassign_duplicates I force rc = Some rc' /\ wf_root I rc' /\
    num_public_inputs rc' = num_public_inputs rc /\ expected_num_output_zeroes rc' = expected_num_output_zeroes rc /\
    (forall x, In x (keys (circuits rc')) <-> In x (keys (circuits rc))) /\
    (forall c0, lookup 0 (circuits rc) = Some c0 -> exists c0', lookup 0 (circuits rc') = Some c0' /\ num_inputs c0' = num_inputs c0 /\ length (outputs c0') = length (outputs c0)) /\
    (forall id c', lookup id (circuits rc') = Some c' -> (id =? 0) || force = true -> NoDup (outputs c')) /\
    (forall E ins outs b, root_run I E rc ins outs b <-> root_run I E rc' ins outs b).
  Proof.
    intros Hwf. assert (Hwf0 := Hwf). destruct Hwf as [W [rank R] [c0 [Hc0 Hz]]]. unfold reassign_duplicates. destruct (has_duplicate_outputs I rc) eqn:Ed.
    2:{ exists rc. split; auto. split; auto. split; auto. split; auto. split; [tauto|]. split; [eauto|]. split; [|tauto].
        intros id c' Hc' _. unfold has_duplicate_outputs in Ed. apply lookup_In in Hc'.
        destruct (nodupb (outputs c')) eqn:En.
        - revert En. clear. induction (outputs c') as [|x l IHl]; cbn; [constructor|]. rewrite andb_true_iff, negb_true_iff. intros [H1 H2].
          constructor; auto. intros Hin. apply memb_spec in Hin. congruence.
        - assert (existsb (fun p : nat * Circuit => negb (nodupb (outputs (snd p)))) (circuits rc) = true); [|congruence].
          apply existsb_exists. exists (id, c'). split; auto. cbn. rewrite En. auto. }
    destruct (rev_pass_spec I (ra_circuit I force) (Q (circuits rc)) (ra_local force) rc W (ex_intro _ rank R)) as [q [acc [H1 [H2 [H3 [H4 H5]]]]]].
    { intros m id c Hc Hm. destruct (ra_circuit_static (circuits rc) W force m id c Hc Hm) as [c' [s [K1 [K2 _]]]]. eauto. }
    rewrite H1. cbn [obind]. rewrite H2. cbn [obind]. eexists; split; [reflexivity|]. cbn [num_public_inputs expected_num_output_zeroes circuits].
    set (cs' := map _ acc).
    assert (Hlk : forall id, lookup id cs' = option_map fst (lookup id acc)) by (intros id; apply (lookup_map (fun _ x => fst x))).
    assert (Hkeys : keys cs' = keys acc) by (unfold cs', keys; rewrite map_map; apply map_ext; auto).
    assert (Hst : forall id c, lookup id (circuits rc) = Some c -> exists c' s, lookup id cs' = Some c' /\ summary acc id = Some s /\ ra_circuit I force (summary acc) id c = Some (c', s) /\
      Q (circuits rc) id s /\ num_inputs c' = num_inputs c /\ length (outputs c') = length (outputs c) /\ wf_circuit I c' /\
      (forall cs', (forall o co, lookup o (circuits rc) = Some co -> exists co', lookup o cs' = Some co' /\ num_inputs co' = num_inputs co /\ length (outputs co') = length (outputs co)) ->
           Forall (call_wf I cs') (instructions c')) /\ incl (calls c') (calls c) /\ ((id =? 0) || force = true -> NoDup (outputs c'))).
    { intros id c Hc. destruct (H5 id c Hc) as [c' [s [G1 [G2 G3]]]].
      destruct (ra_circuit_static (circuits rc) W force (summary acc) id c Hc) as [c2 [s2 [K1 K2]]].
      { intros o Ho. pose proof (wf_incl I rc W _ _ Hc o Ho) as Hok. apply lookup_keys in Hok. destruct Hok as [co Hco]. destruct (H5 o co Hco) as [c3 [s3 [G4 [_ G5]]]].
        exists s3. split; auto. unfold summary. rewrite G4. auto. }
      rewrite G2 in K1. injection K1 as <- <-. exists c', s. rewrite Hlk, G1. unfold summary at 1. rewrite G1. auto. }
    assert (Hback : forall id c', lookup id cs' = Some c' -> exists c, lookup id (circuits rc) = Some c).
    { intros id c' H. apply lookup_keys. apply H4. rewrite <- Hkeys. apply lookup_keys; eauto. }
    assert (Hsizes : forall o co, lookup o (circuits rc) = Some co -> exists co', lookup o cs' = Some co' /\ num_inputs co' = num_inputs co /\ length (outputs co') = length (outputs co)).
    { intros o co Hco. destruct (Hst o co Hco) as [co' [s [G1 [_ [_ [_ [G2 [G3 _]]]]]]]]. eauto. }
    assert (Hget : forall id c', lookup id cs' = Some c' -> exists c, lookup id (circuits rc) = Some c /\ wf_circuit I c' /\ Forall (call_wf I cs') (instructions c') /\ incl (calls c') (calls c) /\ ((id =? 0) || force = true -> NoDup (outputs c'))).
    { intros id c' H. destruct (Hback _ _ H) as [c Hc]. destruct (Hst id c Hc) as [c2 [s [G1 [_ [_ [_ [_ [_ [G2 [G3 [G4 G5]]]]]]]]]]]. rewrite H in G1. injection G1 as <-. exists c. auto 8. }
    split; [|split; [auto|split; [auto|split; [|split; [|split]]]]].
    - split; cbn [circuits expected_num_output_zeroes].
      + split.
        * rewrite Hkeys; auto.
        * intros id c' H. destruct (Hget _ _ H) as [c [_ [G _]]]; auto.
        * intros id c' H. destruct (Hget _ _ H) as [c [_ [_ [G _]]]]; auto.
      + exists rank. intros id c' o H Ho. destruct (Hget _ _ H) as [c [G1 [_ [_ [G2 _]]]]]. apply (R id c); auto.
      + destruct (Hsizes _ _ Hc0) as [c0' [G1 [_ G2]]]. exists c0'. split; auto. rewrite G2; auto.
    - intros x. rewrite Hkeys. apply H4.
    - intros c1 Hc1. apply Hsizes; auto.
    - intros id c' H. destruct (Hget _ _ H) as [c [_ [_ [_ [_ G]]]]]; auto.
    - intros E ins outs b. unfold root_run. cbn [circuits expected_num_output_zeroes].
      pose proof (ra_run (circuits rc) W force (summary acc) cs') as Hrun.
      specialize (Hrun ltac:(intros id c Hc; destruct (Hst id c Hc) as [c' [s [G1 [G2 [G3 [G4 _]]]]]]; eauto 8) E rank R 0 c0).
      destruct (Hsizes _ _ Hc0) as [c0' [G1 [G2 G3]]].
      split; intros [c [all [b0 [K1 [K2 [K3 K4]]]]]].
      + rewrite Hc0 in K1. injection K1 as <-. exists c0', all, b0. split; auto. split; [congruence|]. split; auto. apply Hrun; auto.
      + rewrite G1 in K1. injection K1 as <-. exists c0, all, b0. split; auto. split; [congruence|]. split; auto. apply Hrun; auto. congruence.
  Qed.
End Proofs.
