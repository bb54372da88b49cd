(* Model of RootCircuitRelaxed::export_constraints, circuit/ir/dest/mod.rs:240-332: the constraints of every circuit become
   additional outputs, those of the root leading outputs that must be zero. *)
From Verif Require Import Prelude Field Expr Topo Ir IrFacts IrInst Sim RevPass RemoveUnreachable ReassignDup VarMap AddBack.

Section XC.
  Context {F : Fld}.
  Notation DI := (DestI F false).
  Notation DC := (Circuit DI). Notation DR := (RootCircuit DI).
  Notation getv := (getv (F := F)).

  (* mod.rs:259-286; [m]: the number of added outputs of the circuits called.  Returns the instructions, new_id and
     add_outputs_sub *)
  Fixpoint xc_insns (m : nat -> option nat) (is : list (DInsn F)) (vm : list nat) (new : nat) : option (list (DInsn F) * list nat * list nat) :=
    match is with
    | [] => Some ([], vm, [])
    | i :: is =>
        let n := d_nout F i in
        let vm1 := vm ++ seq (S new) n in
        match d_replace F (vmap vm1) i with
        | DCall id l n' =>
            let* h := m id in
            let* r := xc_insns m is vm1 (new + n + h) in
            let '(is', vm', sub) := r in Some (DCall id l (n' + h) :: is', vm', seq (S (new + n)) h ++ sub)
        | j =>
            let* r := xc_insns m is vm1 (new + n) in
            let '(is', vm', sub) := r in Some (j :: is', vm', sub)
        end
    end.
  (* mod.rs:240-309 *)
  Definition xc_circuit (m : nat -> option nat) (id : nat) (c : DC) : option (DC * nat) :=
    let* r := xc_insns m (instructions c) (seq 0 (S (num_inputs c))) (num_inputs c) in
    let '(is', vm, sub) := r in
    let own := map (vmap vm) (constraints c : list nat) in
    let outs := map (vmap vm) (outputs c) in
    Some ({| instructions := is' : list (Insn DI); constraints := []; num_inputs := num_inputs c;
             outputs := if id =? 0 then own ++ sub ++ outs else outs ++ own ++ sub |}, length own + length sub).
  (* mod.rs:313-332 *)
  Definition export_constraints (rc : DR) : option DR :=
    let* q := root_order DI rc in
    let* acc := rev_pass DI xc_circuit (circuits rc) (rev q) [] in
    let* add0 := summary acc 0 in
    Some {| num_public_inputs := num_public_inputs rc; expected_num_output_zeroes := expected_num_output_zeroes rc + add0;
            circuits := map (fun p => (fst p, fst (snd p))) acc |}.

  (* ------------------------------------------------------------ proofs *)
  Lemma xc_local m m' is : (forall o, In o (flat_map (fun i => match d_call F i with Some (id, _, _) => [id] | None => [] end) is) -> m o = m' o) ->
    forall vm new, xc_insns m is vm new = xc_insns m' is vm new.
  Proof.
    induction is as [|i is IH]; intros H vm new; cbn [xc_insns]; auto. cbn [flat_map] in H.
    assert (H2 : forall vm new, xc_insns m is vm new = xc_insns m' is vm new) by (apply IH; intros o Ho; apply H; apply in_or_app; auto).
    destruct i as [e|id l n|c]; cbn [d_replace]; rewrite ?H2; auto. rewrite H by (left; auto). destruct (m' id); cbn [obind]; auto. rewrite H2. auto.
  Qed.
  Lemma xc_circuit_local m m' id (c : DC) : (forall o, In o (calls c) -> m o = m' o) -> xc_circuit m id c = xc_circuit m' id c.
  Proof. intros H. unfold xc_circuit. rewrite (xc_local m m'); auto. Qed.

  Lemma xc_static m cs is : forall cur vm new, Forall (call_wf DI cs) is -> wf_insns DI is cur -> length vm = S cur -> vpos vm new ->
    (forall i o l n, In i is -> d_call F i = Some (o, l, n) -> exists h, m o = Some h) ->
    exists is' vm' sub, xc_insns m is vm new = Some (is', vm', sub) /\ wf_insns DI is' new /\ length vm' = S (cur + nouts DI is) /\
      vpos vm' (new + nouts DI is') /\ Forall (fun x => 0 < x <= new + nouts DI is') sub /\
      nouts DI is' = nouts DI is + length sub /\
      (forall i', In i' is' -> forall o l' n', d_call F i' = Some (o, l', n') -> exists i l n h, In i is /\ d_call F i = Some (o, l, n) /\ length l' = length l /\ m o = Some h /\ n' = n + h).
  Proof.
    induction is as [|i is IH]; intros cur vm new Hc Hw Hl Hv Hm; cbn [xc_insns].
    - exists [], vm, []. cbn. rewrite !Nat.add_0_r. split; auto. split; auto. split; auto. split; auto. split; auto. split; auto. intros ? [].
    - cbn [wf_insns nouts] in Hw |- *. destruct Hw as [Hi Hw]. inversion Hc as [|? ? Hci Hc2]; subst.
      set (n := d_nout F i). set (vm1 := vm ++ seq (S new) n). change (@i_nout F DI i) with n in *.
      assert (Hl1 : length vm1 = S (cur + n)) by (unfold vm1; rewrite app_length, seq_length; lia).
      assert (Hin1 : Forall (fun y => 0 < y <= new) (map (vmap vm1) (d_inputs F i))).
      { apply Forall_forall. intros y Hy. apply in_map_iff in Hy. destruct Hy as [x [<- Hx]]. change (Forall (fun x => 0 < x <= cur) (d_inputs F i)) in Hi. rewrite Forall_forall in Hi. specialize (Hi x Hx).
        unfold vm1. rewrite vmap_app_l by lia. apply Hv. lia. }
      assert (Hv1 : forall h, vpos vm1 (new + n + h)).
      { intros h. unfold vm1. eapply vpos_app; eauto; try lia. apply Forall_seq. intros; lia. }
      assert (Hm2 : forall i o l n, In i is -> d_call F i = Some (o, l, n) -> exists h, m o = Some h) by (intros; eapply Hm; eauto; right; auto).
      destruct i as [e|id l k|c]; cbn [d_replace]. all: swap 2 3.
      + destruct (IH _ vm1 (new + n) Hc2 Hw Hl1) as [is' [vm' [sub [E1 [E2 [E3 [E4 [E5 [E6 E7]]]]]]]]]; auto; [specialize (Hv1 0); rewrite Nat.add_0_r in Hv1; auto|].
        rewrite E1. cbn [obind]. eexists _, _, _. split; [reflexivity|]. cbn [wf_insns nouts]. change (@i_nout F DI (DVar (e_replace F (vmap vm1) e))) with 1. unfold n in *. cbn [d_nout] in *. rewrite <- Nat.add_assoc in E3, E4, E5.
        split; [split; auto; cbn [i_inputs DestI d_inputs]; rewrite e_replace_vars; exact Hin1|]. split; auto. split; auto. split; auto. split; [lia|].
        intros i' [<-|Hi'] o l' n' Ed; [discriminate|]. destruct (E7 i' Hi' o l' n' Ed) as [i0 [l0 [n0 [h [A B]]]]]. exists i0, l0, n0, h. split; [right|]; auto.
      + destruct (IH _ vm1 (new + n) Hc2 Hw Hl1) as [is' [vm' [sub [E1 [E2 [E3 [E4 [E5 [E6 E7]]]]]]]]]; auto; [specialize (Hv1 0); rewrite Nat.add_0_r in Hv1; auto|].
        rewrite E1. cbn [obind]. eexists _, _, _. split; [reflexivity|]. cbn [wf_insns nouts]. change (@i_nout F DI (DConst c)) with 1. unfold n in *. cbn [d_nout] in *. rewrite <- Nat.add_assoc in E3, E4, E5.
        split; [split; auto|]. split; auto. split; auto. split; auto. split; [lia|].
        intros i' [<-|Hi'] o l' n' Ed; [discriminate|]. destruct (E7 i' Hi' o l' n' Ed) as [i0 [l0 [n0 [h [A B]]]]]. exists i0, l0, n0, h. split; [right|]; auto.
      + destruct (Hm (DCall id l k) id l k (or_introl eq_refl) eq_refl) as [h Hh]. rewrite Hh. cbn [obind].
        destruct (IH _ vm1 (new + n + h) Hc2 Hw Hl1) as [is' [vm' [sub [E1 [E2 [E3 [E4 [E5 [E6 E7]]]]]]]]]; auto.
        rewrite E1. cbn [obind]. eexists _, _, _. split; [reflexivity|]. cbn [wf_insns nouts]. change (@i_nout F DI (DCall id (map (vmap vm1) l) (k + h))) with (k + h). unfold n in *. cbn [d_nout] in *.
        replace (new + k + h + nouts DI is') with (new + (k + h + nouts DI is')) in * by lia.
        split; [split; [exact Hin1|rewrite Nat.add_assoc; auto]|]. split; [rewrite Nat.add_assoc; auto|]. split; auto. split.
        { apply Forall_app. split; auto. apply Forall_seq. intros; lia. }
        split; [rewrite app_length, seq_length; lia|].
        intros i' [<-|Hi'] o l' n' Ed.
        * injection Ed as <- <- <-. exists (DCall id l k), l, k, h. split; [left; auto|]. split; auto. rewrite map_length. auto.
        * destruct (E7 i' Hi' o l' n' Ed) as [i0 [l0 [n0 [h0 [A B]]]]]. exists i0, l0, n0, h0. split; [right|]; auto.
  Qed.

  Definition zeros (l : list F) : bool := forallb (is0 F) l.
  Lemma zeros_app a b : zeros (a ++ b) = zeros a && zeros b. Proof. apply forallb_app. Qed.

  Section Fixed.
    Variable cs cs' : list (nat * DC).
    Variable m : nat -> option nat.
    Hypothesis W : wf_circuits DI cs.
    Hypothesis Hcs' : forall id c, lookup id cs = Some c -> exists c' h, lookup id cs' = Some c' /\ xc_circuit m id c = Some (c', h) /\ m id = Some h.
    Hypothesis Hn0 : forall id c, lookup id cs = Some c -> ~ In 0 (calls c).
    Variable E : Env F.
    (* the exported circuit computes the outputs and the constraint values, and checks nothing *)
    Definition glue (id : nat) (outs cv : list F) : list F := if id =? 0 then cv ++ outs else outs ++ cv.
    Definition simX (id : nat) : Prop := forall c h, lookup id cs = Some c -> m id = Some h ->
      (forall ins outs b, length ins = num_inputs c -> run DI E cs id ins outs b -> exists cv, length cv = h /\ b = zeros cv /\ run DI E cs' id ins (glue id outs cv) true) /\
      (forall ins all b, length ins = num_inputs c -> run DI E cs' id ins all b -> b = true /\ exists outs cv, length cv = h /\ all = glue id outs cv /\ run DI E cs id ins outs (zeros cv)).

    Lemma xc_exec is : forall vm new vals vals' is' vm' sub, xc_insns m is vm new = Some (is', vm', sub) -> rel vm vals vals' -> length vals' = S new -> vals <> [] ->
      wf_insns DI is (length vals - 1) -> Forall (call_wf DI cs) is ->
      (forall i o l n, In i is -> d_call F i = Some (o, l, n) -> o <> 0 /\ simX o) ->
      (forall vf b, exec DI E cs is vals vf b -> exists e, exec DI E cs' is' vals' (vals' ++ e) true /\ rel vm' vf (vals' ++ e) /\ b = zeros (map (getv (vals' ++ e)) sub)) /\
      (forall vf' b, exec DI E cs' is' vals' vf' b -> b = true /\ exists vf e, vf' = vals' ++ e /\ exec DI E cs is vals vf (zeros (map (getv vf') sub)) /\ rel vm' vf vf').
    Proof.
      induction is as [|i is IH]; intros vm new vals vals' is' vm' sub H Hr Hl Hne Hw Hcw Hc; cbn [xc_insns] in H.
      - injection H as <- <- <-. split.
        + intros vf b Hx. apply exec_nil in Hx. destruct Hx as [-> ->]. exists []. rewrite app_nil_r. split; [constructor|]. split; auto.
        + intros vf b Hx. apply exec_nil in Hx. destruct Hx as [-> ->]. split; auto. exists vals, []. rewrite app_nil_r. split; auto. split; [constructor|]. auto.
      - cbn [wf_insns] in Hw. destruct Hw as [Hi Hw]. inversion Hcw as [|? ? Hci Hcw2]; subst.
        assert (Hlen : 0 < length vals) by (destruct vals; [contradiction|cbn; lia]).
        assert (Hlv : length vm = length vals) by (apply (rel_len _ _ _ Hr)).
        assert (Hin : Forall (fun x => x < length vals) (d_inputs F i)) by (eapply Forall_impl; [|exact Hi]; cbn; intros; lia).
        set (n := d_nout F i) in *. set (vm1 := vm ++ seq (S new) n) in *. change (@i_nout F DI i) with n in *.
        assert (Hrin : forall l, incl l (d_inputs F i) -> map (vmap vm1) l = map (vmap vm) l).
        { intros l Hl0. apply map_ext_in. intros x Hx. rewrite Forall_forall in Hin. specialize (Hin x (Hl0 x Hx)). unfold vm1. apply vmap_app_l. lia. }
        assert (Hrep : d_replace F (vmap vm1) i = d_replace F (vmap vm) i).
        { apply (l_repl_ext DI (DestL F false)). intros x Hx. rewrite Forall_forall in Hin. specialize (Hin x Hx). unfold vm1. apply vmap_app_l. lia. }
        assert (Hrec : forall k outs is1 vm1' sub1, xc_insns m is vm1 (new + n + length k) = Some (is1, vm1', sub1) -> length outs = n ->
          (forall vf b, exec DI E cs is (vals ++ outs) vf b -> exists e, exec DI E cs' is1 (vals' ++ outs ++ k) ((vals' ++ outs ++ k) ++ e) true /\ rel vm1' vf ((vals' ++ outs ++ k) ++ e) /\ b = zeros (map (getv ((vals' ++ outs ++ k) ++ e)) sub1)) /\
          (forall vf' b, exec DI E cs' is1 (vals' ++ outs ++ k) vf' b -> b = true /\ exists vf e, vf' = (vals' ++ outs ++ k) ++ e /\ exec DI E cs is (vals ++ outs) vf (zeros (map (getv vf') sub1)) /\ rel vm1' vf vf')).
        { intros k outs is1 vm1' sub1 H1 Ho. eapply IH; eauto.
          - unfold vm1. rewrite <- Ho. rewrite app_assoc. apply rel_more. apply rel_seq; auto.
          - rewrite !app_length. lia.
          - destruct vals; [contradiction|discriminate].
          - rewrite app_length, Ho. replace (length vals + n - 1) with (length vals - 1 + n) by lia. auto.
          - intros; eapply Hc; eauto. right; auto. }
        assert (Hplain : d_call F i = None -> forall is1 vm1' sub1, xc_insns m is vm1 (new + n) = Some (is1, vm1', sub1) ->
          (forall vf b, exec DI E cs (i :: is) vals vf b -> exists e, exec DI E cs' (d_replace F (vmap vm1) i :: is1) vals' (vals' ++ e) true /\ rel vm1' vf (vals' ++ e) /\ b = zeros (map (getv (vals' ++ e)) sub1)) /\
          (forall vf' b, exec DI E cs' (d_replace F (vmap vm1) i :: is1) vals' vf' b -> b = true /\ exists vf e, vf' = vals' ++ e /\ exec DI E cs (i :: is) vals vf (zeros (map (getv vf') sub1)) /\ rel vm1' vf vf')).
        { intros Ec is1 vm1' sub1 H1. replace (new + n) with (new + n + length (@nil F)) in H1 by (cbn; lia).
          assert (Hst : forall outs b, step DI E cs i vals outs b <-> step DI E cs' (d_replace F (vmap vm) i) vals' outs b).
          { intros outs b. apply (step_rename DI (DestL F false)); auto. intros o l k Ec'. change (d_call F i = Some (o, l, k)) in Ec'. congruence. }
          rewrite Hrep. split.
          - intros vf b Hx. apply exec_cons in Hx. destruct Hx as [outs [b1 [b2 [S1 [X1 ->]]]]]. pose proof (step_len DI (DestL F false) _ _ _ _ _ _ Hci S1) as Ho. change (length outs = n) in Ho.
            destruct (Hrec [] outs _ _ _ H1 Ho) as [Hf _]. rewrite app_nil_r in Hf. destruct (Hf _ _ X1) as [e [Y1 [Y2 Y3]]]. rewrite <- app_assoc in Y1, Y2, Y3. exists (outs ++ e). split; [|split; auto].
            + apply exec_cons. exists outs, true, true. split; [|split; auto; rewrite <- app_assoc; auto]. apply Hst in S1. assert (b1 = true) as <-; [|exact S1]. unfold step in S1. assert (Hd : d_call F (d_replace F (vmap vm) i) = None) by (destruct i; cbn in *; congruence). cbn [i_call DestI] in S1. rewrite Hd in S1. apply S1.
            + assert (b1 = true) as ->; [|auto]. unfold step in S1. change (@i_call F DI i) with (d_call F i) in S1. rewrite Ec in S1. apply S1.
          - intros vf' b Hx. apply exec_cons in Hx. destruct Hx as [outs [b1 [b2 [S1 [X1 ->]]]]]. apply Hst in S1. pose proof (step_len DI (DestL F false) _ _ _ _ _ _ Hci S1) as Ho. change (length outs = n) in Ho.
            destruct (Hrec [] outs _ _ _ H1 Ho) as [_ Hb]. rewrite app_nil_r in Hb. destruct (Hb _ _ X1) as [-> [vf [e [Y1 [Y2 Y3]]]]].
            assert (b1 = true) as -> by (unfold step in S1; change (@i_call F DI i) with (d_call F i) in S1; rewrite Ec in S1; apply S1).
            split; auto. exists vf, (outs ++ e). split; [rewrite Y1, app_assoc; auto|]. split; auto. apply exec_cons. exists outs, true, (zeros (map (getv vf') sub1)). auto. }
        destruct i as [e|id l k|c]; cbn [d_replace] in *. all: swap 2 3.
        + apply obind_some in H. destruct H as [[[is1 vm1'] sub1] [H1 H2]]. injection H2 as <- <- <-. apply Hplain; auto.
        + apply obind_some in H. destruct H as [[[is1 vm1'] sub1] [H1 H2]]. injection H2 as <- <- <-. apply Hplain; auto.
        + apply obind_some in H. destruct H as [h [Hm H]]. apply obind_some in H. destruct H as [[[is1 vm1'] sub1] [H1 H2]]. injection H2 as <- <- <-. clear Hplain.
          destruct (Hc (DCall id l k) id l k (or_introl eq_refl) eq_refl) as [Hid Hsim]. destruct (Hci id l k eq_refl) as [cc [Hcc [Hll Hk]]].
          destruct (Hsim cc h Hcc Hm) as [Sf Sb]. unfold glue in Sf, Sb. destruct (Nat.eqb_spec id 0) as [|_]; [contradiction|].
          unfold n in *. cbn [d_nout d_inputs] in *.
          assert (Hml : forall l2 : list nat, map (getv vals) l2 = map (getv vals) l -> length (map (getv vals) l2) = num_inputs cc) by (intros l2 ->; rewrite map_length; exact Hll).
          assert (Hargs : map (getv vals') (map (vmap vm1) l) = map (getv vals) l). { rewrite Hrin by apply incl_refl. apply rel_map; auto. }
          assert (Hsubv : forall outs cv e, length outs = k -> length cv = h -> map (getv ((vals' ++ outs ++ cv) ++ e)) (seq (S (new + k)) h) = cv).
          { intros outs cv e Ho Hcv. apply (nth_ext _ _ f0 f0); [rewrite map_length, seq_length; auto|]. intros j Hj. rewrite map_length, seq_length in Hj.
            rewrite (nth_indep _ f0 (getv ((vals' ++ outs ++ cv) ++ e) 0)) by (rewrite map_length, seq_length; auto). rewrite map_nth, seq_nth by auto.
            rewrite getv_app_l by (rewrite !app_length; lia). rewrite getv_app_r by lia. rewrite getv_app_r by lia. unfold Ir.getv. f_equal. lia. }
          split.
          * intros vf b Hx. apply exec_cons in Hx. destruct Hx as [outs [b1 [b2 [S1 [X1 ->]]]]]. pose proof (step_len DI (DestL F false) _ _ _ _ _ _ Hci S1) as Ho. change (length outs = k) in Ho.
            destruct S1 as [_ S1]. destruct (Sf _ _ _ (Hml l eq_refl) S1) as [cv [Hcv [-> S2]]]. rewrite <- Hcv in H1.
            destruct (Hrec cv outs _ _ _ H1 Ho) as [Hf _]. destruct (Hf _ _ X1) as [e [Y1 [Y2 Y3]]]. exists ((outs ++ cv) ++ e). rewrite app_assoc. split; [|split; auto].
            { apply exec_cons. exists (outs ++ cv), true, true. split; [|split; auto]. split; [rewrite Hrin by apply incl_refl; eapply rel_inb_l; eauto|]. cbn [i_call DestI d_call]. rewrite Hargs. auto. }
            { rewrite map_app, zeros_app, Hsubv by auto. congruence. }
          * intros vf' b Hx. apply exec_cons in Hx. destruct Hx as [outs2 [b1 [b2 [S1 [X1 ->]]]]]. destruct S1 as [_ S1]. rewrite Hargs in S1.
            destruct (Sb _ _ _ (Hml l eq_refl) S1) as [-> [outs [cv [Hcv [-> S2]]]]].
            assert (Ho : length outs = k) by (rewrite (run_len DI E cs id _ outs (zeros cv) cc S2 Hcc); auto). rewrite <- Hcv in H1.
            destruct (Hrec cv outs _ _ _ H1 Ho) as [_ Hb]. destruct (Hb _ _ X1) as [-> [vf [e [-> [Y2 Y3]]]]]. split; auto.
            exists vf, ((outs ++ cv) ++ e). split; [exact (eq_sym (app_assoc _ _ _))|]. split; auto. apply exec_cons. exists outs, (zeros cv), (zeros (map (getv ((vals' ++ outs ++ cv) ++ e)) sub1)).
            split; [split; auto|]. split; auto. rewrite map_app, zeros_app, Hsubv by auto. auto.
    Qed.
    Lemma simX_all rank : ranked DI cs rank -> forall id, simX id.
    Proof.
      intros R. apply (rank_ind rank simX). intros id IH c h Hc Hh. destruct (Hcs' id c Hc) as [c' [h' [Hc' [Hx Hh']]]]. rewrite Hh in Hh'. injection Hh' as <-.
      pose proof (wf_each _ _ W _ _ Hc) as Wc. pose proof (wf_calls _ _ W _ _ Hc) as Wl.
      unfold xc_circuit in Hx. apply obind_some in Hx. destruct Hx as [[[is' vm] sub] [Hx1 Hx2]]. injection Hx2 as <- Hhh.
      assert (Hcalls : forall i o l n, In i (instructions c) -> d_call F i = Some (o, l, n) -> o <> 0 /\ simX o).
      { intros i o l n Hi Ed. assert (Ho : In o (calls c)) by (eapply (in_calls DI); eauto). split; [intros ->; eapply Hn0; eauto|]. apply IH. eapply R; eauto. }
      assert (Hex : forall ins, length ins = num_inputs c ->
        (forall vf b, exec DI E cs (instructions c) (f0 :: ins) vf b -> exists e, exec DI E cs' is' (f0 :: ins) ((f0 :: ins) ++ e) true /\ rel vm vf ((f0 :: ins) ++ e) /\ b = zeros (map (getv ((f0 :: ins) ++ e)) sub)) /\
        (forall vf' b, exec DI E cs' is' (f0 :: ins) vf' b -> b = true /\ exists vf e, vf' = (f0 :: ins) ++ e /\ exec DI E cs (instructions c) (f0 :: ins) vf (zeros (map (getv vf') sub)) /\ rel vm vf vf')).
      { intros ins Hl. eapply xc_exec; eauto.
        - apply rel_id'. cbn. auto.
        - cbn; auto.
        - discriminate.
        - cbn [length]. rewrite Nat.sub_succ, Nat.sub_0_r, Hl. apply Wc. }
      destruct (xc_static m cs (instructions c) (num_inputs c) (seq 0 (S (num_inputs c))) (num_inputs c) Wl (wf_is _ _ Wc) (seq_length _ _) (vpos_id _)) as [is2 [vm2 [sub2 [Q1 [Q2 [Q3 [Q4 [Q5 [Q6 Q7]]]]]]]]].
      { intros i o l n Hi Ed. rewrite Forall_forall in Wl. destruct (Wl i Hi o l n Ed) as [co [Hco _]]. destruct (Hcs' o co Hco) as [? [ho [_ [_ Ho]]]]. eauto. }
      rewrite Hx1 in Q1. injection Q1 as <- <- <-.
      (* the outputs of c' read in a related state *)
      assert (Hout : forall (vf vf' : list F), length vf = S (num_inputs c + nouts DI (instructions c)) -> length vf' = S (num_inputs c + nouts DI is') -> rel vm vf vf' ->
        let c'' := {| instructions := is' : list (Insn DI); constraints := []; num_inputs := num_inputs c; outputs := if id =? 0 then map (vmap vm) (constraints c : list nat) ++ sub ++ map (vmap vm) (outputs c) else map (vmap vm) (outputs c) ++ map (vmap vm) (constraints c : list nat) ++ sub |} in
        Forall (inb vf') (outputs c'') /\ map (getv vf') (outputs c'') = glue id (map (getv vf) (outputs c)) (map (getv vf) (constraints c : list nat) ++ map (getv vf') sub)).
      { intros vf vf' L1 L2 Hr. cbn [outputs].
        assert (Ho : Forall (fun x => x < length vf) (outputs c)) by (eapply Forall_impl; [|apply (wf_out _ _ Wc)]; cbn; intros; lia).
        assert (Hk : Forall (fun x => x < length vf) (constraints c : list nat)) by (eapply Forall_impl; [|apply (wf_con _ _ Wc)]; cbn; intros; lia).
        assert (Hs : Forall (inb vf') sub) by (eapply Forall_impl; [|exact Q5]; unfold inb; cbn; intros; lia).
        unfold glue. destruct (id =? 0); rewrite !map_app, !(rel_map vm vf vf') by auto; (split; [|rewrite ?app_assoc; auto]); repeat (apply Forall_app; split); auto; eapply rel_inb_l; eauto. }
      assert (Hkon : forall vf : list F, zeros (map (getv vf) (constraints c : list nat)) = forallb (fun k => c_verify k (getv vf (c_var k))) (constraints c)).
      { intros vf. unfold zeros. generalize (constraints c). clear. intros kl. induction kl as [|k l IHl]; [reflexivity|]. cbn [map forallb]. f_equal. exact IHl. }
      split.
      - intros ins outs b Hl Hrun. apply run_iff in Hrun. destruct Hrun as [c1 [vf [b0 [H1 [H2 [H3 [H4 [-> ->]]]]]]]]. rewrite Hc in H1. injection H1 as <-.
        destruct (Hex ins Hl) as [Hf _]. destruct (Hf _ _ H2) as [e [X1 [X2 X3]]].
        assert (L1 : length vf = S (num_inputs c + nouts DI (instructions c))). { rewrite (exec_len DI (DestL F false) _ _ _ _ _ _ Wl H2). cbn [length]. lia. }
        assert (L2 : length ((f0 :: ins) ++ e) = S (num_inputs c + nouts DI is')).
        { assert (Hrl : length vm = length vf) by (apply (rel_len _ _ _ X2)). clear -X1 Hl Q7 Hcs' IH R Hc Wl W Hx1 Hn0.
          assert (Forall (call_wf DI cs') is'); [|rewrite (exec_len DI (DestL F false) _ _ _ _ _ _ H X1); cbn [length]; lia].
          apply Forall_forall. intros i' Hi' o l' n' Ed. destruct (Q7 i' Hi' o l' n' Ed) as [i [l [n [h0 [A [B [C [D ->]]]]]]]]. rewrite Forall_forall in Wl. destruct (Wl i A o l n B) as [co [Hco [Hlo Hno]]].
          destruct (Hcs' o co Hco) as [co' [ho [K1 [K2 K3]]]]. exists co'. split; auto. rewrite D in K3. injection K3 as <-.
          unfold xc_circuit in K2. apply obind_some in K2. destruct K2 as [[[is0 vm0] sub0] [_ K2]]. injection K2 as <- <-. cbn [num_inputs outputs]. split; [congruence|].
          destruct (o =? 0); rewrite !app_length, !map_length; lia. }
        destruct (Hout vf _ L1 L2 X2) as [O1 O2].
        exists (map (getv vf) (constraints c : list nat) ++ map (getv ((f0 :: ins) ++ e)) sub). split; [rewrite app_length, !map_length; rewrite map_length in Hhh; auto|].
        split; [rewrite zeros_app, Hkon, X3; apply andb_comm|].
        apply run_iff. eexists _, _, true. split; [exact Hc'|]. split; [exact X1|]. split; [constructor|]. split; [exact O1|]. split; [symmetry; exact O2|]. reflexivity.
      - intros ins all b Hl Hrun. apply run_iff in Hrun. destruct Hrun as [c1 [vf' [b0 [H1 [H2 [H3 [H4 [-> ->]]]]]]]]. rewrite Hc' in H1. injection H1 as <-. cbn [instructions constraints forallb] in *.
        destruct (Hex ins Hl) as [_ Hb]. destruct (Hb _ _ H2) as [-> [vf [e [-> [X1 X2]]]]]. split; auto.
        assert (L1 : length vf = S (num_inputs c + nouts DI (instructions c))). { rewrite (exec_len DI (DestL F false) _ _ _ _ _ _ Wl X1). cbn [length]. lia. }
        assert (L2 : length ((f0 :: ins) ++ e) = S (num_inputs c + nouts DI is')).
        { assert (Forall (call_wf DI cs') is'); [|rewrite (exec_len DI (DestL F false) _ _ _ _ _ _ H H2); cbn [length]; lia].
          apply Forall_forall. intros i' Hi' o l' n' Ed. destruct (Q7 i' Hi' o l' n' Ed) as [i [l [n [h0 [A [B [C [D ->]]]]]]]]. rewrite Forall_forall in Wl. destruct (Wl i A o l n B) as [co [Hco [Hlo Hno]]].
          destruct (Hcs' o co Hco) as [co' [ho [K1 [K2 K3]]]]. exists co'. split; auto. rewrite D in K3. injection K3 as <-.
          unfold xc_circuit in K2. apply obind_some in K2. destruct K2 as [[[is0 vm0] sub0] [_ K2]]. injection K2 as <- <-. cbn [num_inputs outputs]. split; [congruence|].
          destruct (o =? 0); rewrite !app_length, !map_length; lia. }
        destruct (Hout vf _ L1 L2 X2) as [O1 O2]. cbn [outputs] in O2.
        exists (map (getv vf) (outputs c)), (map (getv vf) (constraints c : list nat) ++ map (getv ((f0 :: ins) ++ e)) sub).
        split; [rewrite app_length, !map_length; rewrite map_length in Hhh; auto|]. split; [exact O2|].
        rewrite zeros_app, Hkon. rewrite andb_comm. apply run_iff. exists c, vf, (zeros (map (getv ((f0 :: ins) ++ e)) sub)). split; auto. split; auto. split; [|split; [|split; reflexivity]].
        + eapply Forall_impl; [|apply (wf_con _ _ Wc)]. unfold inb; cbn; intros; lia.
        + eapply Forall_impl; [|apply (wf_out _ _ Wc)]. unfold inb; cbn; intros; lia.
    Qed.
  End Fixed.

  Theorem export_constraints_spec (rc : DR) : wf_root DI rc -> (forall id c, lookup id (circuits rc) = Some c -> ~ In 0 (calls c)) ->
    exists rc' add, export_constraints rc = Some rc' /\ wf_root DI rc' /\ num_public_inputs rc' = num_public_inputs rc /\
      expected_num_output_zeroes rc' = expected_num_output_zeroes rc + add /\
      (forall x, In x (keys (circuits rc')) <-> In x (keys (circuits rc))) /\
      (forall id c', lookup id (circuits rc') = Some c' -> constraints c' = [] /\ ~ In 0 (calls c')) /\
      (forall c0, lookup 0 (circuits rc) = Some c0 -> exists c0', lookup 0 (circuits rc') = Some c0' /\ num_inputs c0' = num_inputs c0 /\ length (outputs c0') = length (outputs c0) + add) /\
      (forall E ins outs b, root_run DI E rc ins outs b <-> root_run DI E rc' ins outs b) /\
      (forall E c0, lookup 0 (circuits rc) = Some c0 ->
        (forall ins outs b, length ins = num_inputs c0 -> run DI E (circuits rc) 0 ins outs b -> exists cv, length cv = add /\ b = zeros cv /\ run DI E (circuits rc') 0 ins (cv ++ outs) true) /\
        (forall ins all b, length ins = num_inputs c0 -> run DI E (circuits rc') 0 ins all b -> b = true /\ exists outs cv, length cv = add /\ all = cv ++ outs /\ run DI E (circuits rc) 0 ins outs (zeros cv))).
  Proof.
    intros [W [rank R] [c0 [Hc0 Hz]]] Hn0. unfold export_constraints. set (cs := circuits rc) in *.
    destruct (rev_pass_spec DI xc_circuit (fun _ _ => True) xc_circuit_local rc W (ex_intro _ rank R)) as [q [acc [Hq [Hrp [Hnd [Hk Hacc]]]]]].
    { intros m id c Hc Hm. pose proof (wf_each _ _ W _ _ Hc) as Wc. pose proof (wf_calls _ _ W _ _ Hc) as Wl.
      destruct (xc_static m cs (instructions c) (num_inputs c) (seq 0 (S (num_inputs c))) (num_inputs c) Wl (wf_is _ _ Wc) (seq_length _ _) (vpos_id _)) as [is' [vm [sub [Q1 _]]]].
      { intros i o l n Hi Ed. destruct (Hm o) as [h [Hh _]]; eauto. eapply (in_calls DI); eauto. }
      unfold xc_circuit. rewrite Q1. cbn [obind]. eexists _, _. split; [reflexivity|auto]. }
    rewrite Hq. cbn [obind]. fold cs in Hrp, Hk, Hacc. rewrite Hrp. cbn [obind].
    set (cs' := map (fun p => (fst p, fst (snd p))) acc).
    assert (Hlk : forall id, lookup id cs' = option_map fst (lookup id acc)).
    { intros id. unfold cs'. clear. induction acc as [|[k v] acc IH]; cbn; auto. destruct (k =? id); auto. }
    assert (Hcs : forall id c, lookup id cs = Some c -> exists c' h, lookup id cs' = Some c' /\ xc_circuit (summary acc) id c = Some (c', h) /\ summary acc id = Some h).
    { intros id c Hc. destruct (Hacc id c Hc) as [c' [s [A [B _]]]]. exists c', s. rewrite Hlk. unfold summary. rewrite A. auto. }
    assert (Hcs2 : forall id c', lookup id cs' = Some c' -> exists c h, lookup id cs = Some c /\ xc_circuit (summary acc) id c = Some (c', h) /\ summary acc id = Some h).
    { intros id c' H. assert (Hin : In id (keys cs)). { apply Hk. apply lookup_keys. rewrite Hlk in H. destruct (lookup id acc); eauto; discriminate. }
      apply lookup_keys in Hin. destruct Hin as [c Hc]. destruct (Hcs id c Hc) as [c2 [h [A [B C]]]]. rewrite H in A. injection A as <-. eauto. }
    destruct (Hcs 0 c0 Hc0) as [c0' [add [Hc0' [Hx0 Hs0]]]]. rewrite Hs0. cbn [obind].
    assert (Hsizes : forall id c c' h, xc_circuit (summary acc) id c = Some (c', h) -> num_inputs c' = num_inputs c /\ length (outputs c') = length (outputs c) + h /\ constraints c' = []).
    { intros id c c' h H. unfold xc_circuit in H. apply obind_some in H. destruct H as [[[is' vm] sub] [_ H]]. injection H as <- <-. cbn [num_inputs outputs constraints]. split; auto. split; auto.
      destruct (id =? 0); rewrite !app_length, !map_length; lia. }
    assert (Hstat : forall id c' , lookup id cs' = Some c' -> wf_circuit DI c' /\ Forall (call_wf DI cs') (instructions c') /\ exists c, lookup id cs = Some c /\ incl (calls c') (calls c)).
    { intros id c' H. destruct (Hcs2 id c' H) as [c [h [Hc [Hx Hh]]]]. pose proof (wf_each _ _ W _ _ Hc) as Wc. pose proof (wf_calls _ _ W _ _ Hc) as Wl.
      destruct (xc_static (summary acc) cs (instructions c) (num_inputs c) (seq 0 (S (num_inputs c))) (num_inputs c) Wl (wf_is _ _ Wc) (seq_length _ _) (vpos_id _)) as [is' [vm [sub [Q1 [Q2 [Q3 [Q4 [Q5 [Q6 Q7]]]]]]]]].
      { intros i o l n Hi Ed. rewrite Forall_forall in Wl. destruct (Wl i Hi o l n Ed) as [co [Hco _]]. destruct (Hcs o co Hco) as [? [ho [_ [_ Ho]]]]. eauto. }
      unfold xc_circuit in Hx. rewrite Q1 in Hx. cbn [obind] in Hx. injection Hx as <- _. cbn [instructions]. split; [|split].
      - assert (Ho : Forall (fun y => 0 < y <= num_inputs c + nouts DI is') (map (vmap vm) (outputs c))) by (apply vpos_map; auto; eapply Forall_impl; [|apply (wf_out _ _ Wc)]; cbn; intros; lia).
        assert (Hkc : Forall (fun y => 0 < y <= num_inputs c + nouts DI is') (map (vmap vm) (constraints c : list nat))) by (apply vpos_map; auto; eapply Forall_impl; [|apply (wf_con _ _ Wc)]; cbn; intros; lia).
        split; cbn [instructions num_inputs constraints outputs]; auto. destruct (id =? 0); repeat (apply Forall_app; split); auto.
      - apply Forall_forall. intros i' Hi' o l' n' Ed. destruct (Q7 i' Hi' o l' n' Ed) as [i [l [n [h0 [A [B [C [D ->]]]]]]]]. rewrite Forall_forall in Wl. destruct (Wl i A o l n B) as [co [Hco [Hlo Hno]]].
        destruct (Hcs o co Hco) as [co' [ho [K1 [K2 K3]]]]. exists co'. split; auto. rewrite D in K3. injection K3 as <-. destruct (Hsizes _ _ _ _ K2) as [S1 [S2 _]]. split; congruence.
      - exists c. split; auto. intros o Ho. apply (calls_in DI) in Ho. destruct Ho as [i' [l' [n' [Hi' Ed]]]]. destruct (Q7 i' Hi' o l' n' Ed) as [i [l [n [h0 [A [B _]]]]]]. eapply (in_calls DI); eauto. }
    eexists _, add. split; [reflexivity|]. cbn [circuits num_public_inputs expected_num_output_zeroes].
    destruct (Hsizes _ _ _ _ Hx0) as [Sz1 [Sz2 _]].
    assert (Hkeys' : keys cs' = keys acc) by (unfold cs', keys; rewrite map_map; auto).
    split; [split; cbn [circuits expected_num_output_zeroes]|split; [auto|split; [auto|split; [|split; [|split; [|split]]]]]].
    - split; [rewrite Hkeys'; auto|intros id c' H; apply Hstat in H; apply H|intros id c' H; apply Hstat in H; apply H].
    - exists rank. intros id c' o H Ho. apply Hstat in H. destruct H as [_ [_ [c [Hc Hi]]]]. eapply R; eauto.
    - exists c0'. split; auto. rewrite Sz2. lia.
    - intros x. rewrite Hkeys'. apply Hk.
    - intros id c' H. split; [destruct (Hcs2 id c' H) as [c [h [_ [Hx _]]]]; apply (Hsizes _ _ _ _ Hx)|]. apply Hstat in H. destruct H as [_ [_ [c [Hc Hi]]]]. intros Ho. eapply Hn0; eauto.
    - intros c1 Hc1. rewrite Hc0 in Hc1. injection Hc1 as <-. exists c0'. split; auto.
    - intros E ins outs b. destruct (simX_all cs cs' (summary acc) W Hcs Hn0 E rank R 0 c0 add Hc0 Hs0) as [Sf Sb]. unfold glue in Sf, Sb. cbn [Nat.eqb] in Sf, Sb.
      assert (Hz2 : forall (outs cv : list F), length cv = add -> expected_num_output_zeroes rc <= length outs ->
         skipn (expected_num_output_zeroes rc + add) (cv ++ outs) = skipn (expected_num_output_zeroes rc) outs /\
         zeros (firstn (expected_num_output_zeroes rc + add) (cv ++ outs)) = zeros cv && zeros (firstn (expected_num_output_zeroes rc) outs)).
      { intros o cv Hcv Hle. split.
        - rewrite skipn_app. rewrite skipn_all2 by lia. cbn [app]. f_equal. lia.
        - rewrite firstn_app, zeros_app. rewrite firstn_all2 by lia. do 2 f_equal. f_equal. lia. }
      split.
      + intros [c [all [b0 [H1 [H2 [H3 [H4 [-> ->]]]]]]]]. fold cs in H1. rewrite Hc0 in H1. injection H1 as <-. destruct (Sf _ _ _ H2 H3) as [cv [Hcv [-> Hr]]].
        destruct (Hz2 all cv Hcv H4) as [Z1 Z2]. exists c0', (cv ++ all), true. cbn [circuits expected_num_output_zeroes]. split; auto. split; [congruence|]. split; auto. split; [rewrite app_length; lia|]. split; [congruence|].
        cbn [andb]. symmetry. exact Z2.
      + intros [c [all [b0 [H1 [H2 [H3 [H4 [-> ->]]]]]]]]. cbn [circuits expected_num_output_zeroes] in *. rewrite Hc0' in H1. injection H1 as <-. rewrite Sz1 in H2. destruct (Sb _ _ _ H2 H3) as [-> [outs [cv [Hcv [-> Hr]]]]].
        rewrite app_length in H4. assert (Hle : expected_num_output_zeroes rc <= length outs) by lia.
        destruct (Hz2 outs cv Hcv Hle) as [Z1 Z2]. exists c0, outs, (zeros cv). repeat (split; auto).
    - intros E c1 Hc1. rewrite Hc0 in Hc1. injection Hc1 as <-. cbn [circuits]. exact (simX_all cs cs' (summary acc) W Hcs Hn0 E rank R 0 c0 add Hc0 Hs0).
  Qed.
End XC.
