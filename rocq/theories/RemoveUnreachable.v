(* Model of RootCircuit::remove_unreachable, circuit/ir/common/opt.rs:28-400. *)
From Verif Require Import Prelude Field Expr Topo InputMapping Ir IrFacts Sim Bfs.

(* opt.rs: pushing the new number of every kept position and EMPTY for the others.  In the model EMPTY in var_map is 0,
   which is no variable either. *)
Fixpoint assign (m : list bool) (mx : nat) : list nat :=
  match m with [] => [] | true :: m => S mx :: assign m (S mx) | false :: m => 0 :: assign m mx end.
Definition ntrue (m : list bool) : nat := length (filter (fun b => b) m).
Fixpoint keep {A} (m : list bool) (l : list A) : list A :=
  match m, l with true :: m, x :: l => x :: keep m l | false :: m, _ :: l => keep m l | _, _ => [] end.
(* opt.rs:382-391 *)
Fixpoint mask_mapping (EMPTY : nat) (m : list bool) (cur : nat) : list nat :=
  match m with [] => [] | true :: m => cur :: mask_mapping EMPTY m (S cur) | false :: m => EMPTY :: mask_mapping EMPTY m cur end.

Section RU.
  Context {F : Fld} (I : IRC F).
  Open Scope fld_scope.
  Notation Circuit := (Circuit I). Notation RootCircuit := (RootCircuit I).
  Local Open Scope nat_scope.

  (* opt.rs:32-43 *)
  Fixpoint mark_used (cs : list (nat * Circuit)) (order : list nat) (used : list nat) : list nat :=
    match order with
    | [] => used
    | id :: order =>
        mark_used cs order (if memb id used then match lookup id cs with Some c => used ++ calls c | None => used end else used)
    end.

  (* opt.rs:81-185: edges of the instructions of circuit [id], from instruction [k] on, [cur] variables being defined *)
  Fixpoint insn_rules (id k : nat) (is : list (Insn I)) (cur : nat) : list Rule :=
    match is with
    | [] => []
    | i :: is =>
        (match i_call i with
         | Some (sub, l, n) =>
             flat_map (fun j => [((id, S (cur + j), TVar), None, (sub, j, TOut)); ((id, S (cur + j), TVar), None, (id, k, TInsn))]) (seq 0 n)
             ++ flat_map (fun p => [((sub, S (fst p), TVar), Some (id, k, TInsn), (id, snd p, TVar));
                                    ((id, k, TInsn), Some (sub, S (fst p), TVar), (id, snd p, TVar))])
                         (combine (seq 0 (length l)) l)
             ++ [((sub, 0, TCon), None, (id, k, TInsn)); ((sub, 0, TCon), None, (id, 0, TCon))]
         | None =>
             map (fun j => ((id, S (cur + j), TVar), None, (id, k, TInsn))) (seq 0 (i_nout i))
             ++ map (fun x => ((id, k, TInsn), None, (id, x, TVar))) (i_inputs i)
         end) ++ insn_rules id (S k) is (cur + i_nout i)
    end.
  (* opt.rs:78-201 *)
  Definition circuit_rules (id : nat) (c : Circuit) : list Rule :=
    insn_rules id 0 (instructions c) (num_inputs c)
    ++ map (fun p => ((id, fst p, TOut), None, (id, snd p, TVar))) (combine (seq 0 (length (outputs c))) (outputs c)).
  (* opt.rs:213-231 *)
  Definition circuit_seeds (id : nat) (c : Circuit) : list Elem :=
    map (fun k => (id, c_var k, TVar)) (constraints c)
    ++ match constraints c with [] => [] | _ => [(id, 0, TCon)] end.

  Definition in_mask (vis : Elem -> bool) (id n : nat) : list bool := map (fun j => vis (id, S j, TVar)) (seq 0 n).
  Definition out_mask (vis : Elem -> bool) (id n : nat) : list bool := map (fun j => vis (id, j, TOut)) (seq 0 n).
  Definition vmap (vm : list nat) (x : nat) : nat := nth x vm 0.

  (* opt.rs:291-340 *)
  Fixpoint rb_insns (vis : Elem -> bool) (id k : nat) (is : list (Insn I)) (vm : list nat) (mx : nat) : list (Insn I) * list nat :=
    match is with
    | [] => ([], vm)
    | i :: is =>
        if vis (id, k, TInsn) then
          match i_call i with
          | Some (sub, l, n) =>
              let om := out_mask vis sub n in
              let i' := i_mkcall I sub (map (vmap vm) (keep (in_mask vis sub (length l)) l)) (ntrue om) in
              let '(is', vm') := rb_insns vis id (S k) is (vm ++ assign om mx) (mx + ntrue om) in (i' :: is', vm')
          | None =>
              let i' := i_replace (vmap vm) i in
              let '(is', vm') := rb_insns vis id (S k) is (vm ++ seq (S mx) (i_nout i)) (mx + i_nout i) in (i' :: is', vm')
          end
        else rb_insns vis id (S k) is (vm ++ repeat 0 (i_nout i)) mx
    end.
  (* opt.rs:274-372 *)
  Definition rb_circuit (vis : Elem -> bool) (id : nat) (c : Circuit) : Circuit :=
    let m := in_mask vis id (num_inputs c) in
    let '(is', vm) := rb_insns vis id 0 (instructions c) (0 :: assign m 0) (ntrue m) in
    {| instructions := is';
       constraints := map (c_replace (vmap vm)) (constraints c);
       outputs := map (vmap vm) (keep (out_mask vis id (length (outputs c))) (outputs c));
       num_inputs := length (filter (fun x => negb (vmap vm x =? 0)) (seq 1 (num_inputs c))) |}.

  (* opt.rs:29-400; None only where the code would panic (a missing circuit) or the fuel of a loop model ran out *)
  Definition remove_unreachable (EMPTY : nat) (rc : RootCircuit) : option (RootCircuit * InputMapping) :=
    let* order := root_order I rc in
    let cs := circuits rc in
    let used := mark_used cs order [0] in
    let* ucs := omap (fun id => let* c := lookup id cs in Some (id, c)) (filter (fun x => memb x used) order) in
    let* c0 := lookup 0 cs in
    let* V := mark (flat_map (fun p => circuit_rules (fst p) (snd p)) ucs)
                   (flat_map (fun p => circuit_seeds (fst p) (snd p)) ucs
                    ++ map (fun j => (0, j, TOut)) (seq 0 (length (outputs c0)))) in
    let vis := visb V in
    Some ({| num_public_inputs := num_public_inputs rc;
             expected_num_output_zeroes := expected_num_output_zeroes rc;
             circuits := map (fun p => (fst p, rb_circuit vis (fst p) (snd p))) (rev ucs) |},
          {| next_size := ntrue (in_mask vis 0 (num_inputs c0));
             mapping := mask_mapping EMPTY (in_mask vis 0 (num_inputs c0)) 0 |}).
End RU.

(* ---------------------------------------------------------------- list facts *)
Lemma keep_length {A} m (l : list A) : length m = length l -> length (keep m l) = ntrue m.
Proof.
  unfold ntrue. revert l; induction m as [|[] m IH]; intros [|x l] H; cbn in *; try discriminate; auto.
Qed.
Lemma keep_map {A B} (f : A -> B) m l : keep m (map f l) = map f (keep m l).
Proof. revert l; induction m as [|[] m IH]; intros [|x l]; cbn; auto. f_equal; auto. Qed.
Lemma keep_all {A} m (l : list A) : length m = length l -> (forall b, In b m -> b = true) -> keep m l = l.
Proof.
  revert l; induction m as [|b m IH]; intros [|x l] H Hb; cbn in *; try discriminate; auto.
  rewrite (Hb b) by auto. f_equal. apply IH; auto.
Qed.
Lemma keep_In {A} m (l : list A) x : In x (keep m l) -> exists j, nth_error m j = Some true /\ nth_error l j = Some x.
Proof.
  revert l; induction m as [|[] m IH]; intros [|y l] H; cbn in *; try contradiction.
  - destruct H as [<-|H]; [exists 0; auto|]. destruct (IH _ H) as [j Hj]. exists (S j); auto.
  - destruct (IH _ H) as [j Hj]. exists (S j); auto.
Qed.
Lemma assign_length m : forall mx, length (assign m mx) = length m.
Proof. induction m as [|[] m IH]; intros mx; cbn; auto. Qed.
Lemma assign_nth m : forall mx j, nth j (assign m mx) 0 <> 0 ->
  nth j (assign m mx) 0 <= mx + ntrue m /\ nth_error m j = Some true.
Proof.
  unfold ntrue. induction m as [|[] m IH]; intros mx [|j] H; cbn in *; try congruence; try (split; [lia|auto]; fail).
  - specialize (IH _ _ H). destruct IH; split; auto; lia.
  - specialize (IH _ _ H). destruct IH; split; auto; lia.
Qed.
Lemma assign_true m : forall mx j, nth_error m j = Some true -> nth j (assign m mx) 0 <> 0.
Proof. induction m as [|[] m IH]; intros mx [|j] H; cbn in *; try discriminate; auto. Qed.
Lemma assign_val {A} (d : A) m : forall mx pre l j, length l = length m -> length pre = S mx -> nth j (assign m mx) 0 <> 0 ->
  nth (nth j (assign m mx) 0) (pre ++ keep m l) d = nth j l d.
Proof.
  induction m as [|[] m IH]; intros mx pre [|x l] [|j] Hl Hp H; cbn in *; try congruence; try lia.
  - rewrite app_nth2 by lia. replace (S mx - length pre) with 0 by lia. auto.
  - replace (pre ++ x :: keep m l) with ((pre ++ [x]) ++ keep m l) by (rewrite <- app_assoc; auto).
    apply IH; auto. rewrite app_length; cbn; lia.
  - apply IH; auto.
Qed.
Lemma ntrue_app a b : ntrue (a ++ b) = ntrue a + ntrue b.
Proof. unfold ntrue. rewrite filter_app, app_length; auto. Qed.
Lemma ntrue_le m : ntrue m <= length m.
Proof. unfold ntrue. induction m as [|[] m IH]; cbn; lia. Qed.
Lemma seq_assign n mx : seq (S mx) n = assign (repeat true n) mx.
Proof. revert mx; induction n as [|n IH]; intros; cbn; auto. rewrite IH; auto. Qed.
Lemma ntrue_repeat n : ntrue (repeat true n) = n.
Proof. unfold ntrue; induction n; cbn; auto. Qed.
Lemma keep_repeat {A} n (l : list A) : length l = n -> keep (repeat true n) l = l.
Proof. intros H. apply keep_all; [rewrite repeat_length; auto|]. intros b Hb. apply repeat_spec in Hb; auto. Qed.
Lemma assign_false n mx : repeat 0 n = assign (repeat false n) mx.
Proof. induction n; cbn; auto. f_equal; auto. Qed.
Lemma ntrue_false n : ntrue (repeat false n) = 0.
Proof. unfold ntrue; induction n; cbn; auto. Qed.
Lemma keep_false {A} n (l : list A) : keep (repeat false n) l = [].
Proof. revert l; induction n; intros [|x l]; cbn; auto. Qed.
Lemma count_assign m : length (filter (fun x => negb (x =? 0)) (assign m 0)) = ntrue m.
Proof.
  unfold ntrue. generalize 0 at 2 as mx. induction m as [|[] m IH]; intros mx; cbn; auto.
Qed.

(* ---------------------------------------------------------------- proofs *)
Section Proofs.
  Context {F : Fld} (I : IRC F) (L : IRC_laws I).
  Open Scope fld_scope.
  Notation Circuit := (Circuit I). Notation RootCircuit := (RootCircuit I).
  Local Open Scope nat_scope.

  (* the rules of one instruction list, read as closure properties *)
  Fixpoint closed_insns (vis : Elem -> bool) (id k : nat) (is : list (Insn I)) (cur : nat) : Prop :=
    match is with
    | [] => True
    | i :: is =>
        match i_call i with
        | Some (sub, l, n) =>
            (forall j, j < n -> vis (id, S (cur + j), TVar) = true -> vis (sub, j, TOut) = true /\ vis (id, k, TInsn) = true) /\
            (forall j x, nth_error l j = Some x -> vis (id, k, TInsn) = true -> vis (sub, S j, TVar) = true -> vis (id, x, TVar) = true) /\
            (vis (sub, 0, TCon) = true -> vis (id, k, TInsn) = true /\ vis (id, 0, TCon) = true)
        | None =>
            (forall j, j < i_nout i -> vis (id, S (cur + j), TVar) = true -> vis (id, k, TInsn) = true) /\
            (forall x, In x (i_inputs i) -> vis (id, k, TInsn) = true -> vis (id, x, TVar) = true)
        end /\ closed_insns vis id (S k) is (cur + i_nout i)
    end.
  Record closed_circuit (vis : Elem -> bool) (id : nat) (c : Circuit) : Prop := {
    cc_is : closed_insns vis id 0 (instructions c) (num_inputs c);
    cc_out : forall j x, nth_error (outputs c) j = Some x -> vis (id, j, TOut) = true -> vis (id, x, TVar) = true;
    cc_con : forall k, In k (constraints c) -> vis (id, c_var k, TVar) = true;
    cc_has : constraints c <> [] -> vis (id, 0, TCon) = true
  }.

  Lemma nth_error_combine_seq {A} (l : list A) : forall a j x, nth_error l j = Some x -> In (a + j, x) (combine (seq a (length l)) l).
  Proof.
    induction l as [|y l IH]; intros a [|j] x H; cbn in *; try discriminate.
    - injection H as ->. left. f_equal; lia.
    - right. replace (a + S j) with (S a + j) by lia. apply IH; auto.
  Qed.
  Lemma closed_insns_of rules V id is : closed rules (fun e => In e V) -> forall k cur, incl (insn_rules I id k is cur) rules ->
    closed_insns (visb V) id k is cur.
  Proof.
    intros Hc. induction is as [|i is IH]; intros k cur Hi; cbn [closed_insns]; auto. cbn [insn_rules] in Hi.
    assert (Hv : forall a t, In (a, None, t) rules -> visb V a = true -> visb V t = true).
    { intros a t Hr Ha. apply visb_spec. apply visb_spec in Ha. eapply (Hc a None t); eauto. }
    split; [|apply IH; intros r Hr; apply Hi, in_or_app; right; auto].
    destruct (i_call i) as [[[sub l] n]|].
    - split; [|split].
      + intros j Hj Ha. split.
        * eapply Hv; [|exact Ha]. apply Hi, in_or_app; left. apply in_or_app; left. apply in_flat_map. exists j.
          split; [apply in_seq; lia|left; auto].
        * eapply Hv; [|exact Ha]. apply Hi, in_or_app; left. apply in_or_app; left. apply in_flat_map. exists j.
          split; [apply in_seq; lia|right; left; auto].
      + intros j x Hj Ha Hb. apply visb_spec. apply visb_spec in Ha, Hb.
        eapply (Hc (id, k, TInsn) (Some (sub, S j, TVar))); eauto.
        apply Hi, in_or_app; left. apply in_or_app; right. apply in_or_app; left. apply in_flat_map. exists (j, x).
        split; [apply (nth_error_combine_seq l 0); auto|right; left; auto].
      + intros Ha. split; eapply Hv; try exact Ha; apply Hi, in_or_app; left; apply in_or_app; right; apply in_or_app; right; cbn; auto.
    - split.
      + intros j Hj Ha. eapply Hv; [|exact Ha]. apply Hi, in_or_app; left. apply in_or_app; left. apply in_map_iff. exists j.
        split; auto. apply in_seq; lia.
      + intros x Hx Ha. eapply Hv; [|exact Ha]. apply Hi, in_or_app; left. apply in_or_app; right. apply in_map_iff. exists x; auto.
  Qed.
  Lemma closed_circuit_of rules V id c : closed rules (fun e => In e V) -> incl (circuit_rules I id c) rules ->
    incl (circuit_seeds I id c) V -> closed_circuit (visb V) id c.
  Proof.
    intros Hc Hi Hs. unfold circuit_rules in Hi. unfold circuit_seeds in Hs. split.
    - eapply closed_insns_of; eauto. intros r Hr. apply Hi, in_or_app; auto.
    - intros j x Hj Ha. apply visb_spec. apply visb_spec in Ha. eapply (Hc _ None); eauto. apply Hi, in_or_app; right.
      apply in_map_iff. exists (j, x). split; auto. apply (nth_error_combine_seq _ 0); auto.
    - intros k Hk. apply visb_spec, Hs, in_or_app; left. apply in_map_iff; eauto.
    - intros Hn. apply visb_spec, Hs, in_or_app; right. destruct (constraints c); [contradiction|left; auto].
  Qed.

  Section Fixed.
    Variable vis : Elem -> bool.
    Variable cs cs' : list (nat * Circuit).
    Variable used : nat -> Prop.
    Hypothesis Hwf : wf_circuits I cs.
    Hypothesis Hcl : forall id c, used id -> lookup id cs = Some c -> closed_circuit vis id c.
    Hypothesis Hus : forall id c o, used id -> lookup id cs = Some c -> In o (calls c) -> used o.
    Hypothesis Hcs' : forall id c, used id -> lookup id cs = Some c -> lookup id cs' = Some (rb_circuit I vis id c).

    Definition Rs (id : nat) (vm : list nat) (mx n : nat) : Prop :=
      length vm = n /\ (forall x, vmap vm x <= mx) /\ (forall x, 0 < x < n -> vis (id, x, TVar) = true -> vmap vm x <> 0).
    Definition Rv (vm : list nat) (vals vals' : list F) : Prop :=
      forall x, vmap vm x <> 0 -> getv vals' (vmap vm x) = getv vals x.

    Lemma vmap_app_l vm l x : x < length vm -> vmap (vm ++ l) x = vmap vm x.
    Proof. intros; unfold vmap; apply app_nth1; auto. Qed.
    Lemma vmap_app_r vm l x : length vm <= x -> vmap (vm ++ l) x = nth (x - length vm) l 0.
    Proof. intros; unfold vmap; apply app_nth2; auto. Qed.
    Lemma Rs_ext id vm mx n m : Rs id vm mx n ->
      (forall j, j < length m -> vis (id, n + j, TVar) = true -> nth_error m j = Some true) ->
      Rs id (vm ++ assign m mx) (mx + ntrue m) (n + length m).
    Proof.
      intros [H1 [H2 H3]] Hm. split; [|split].
      - rewrite app_length, assign_length; lia.
      - intros x. destruct (Nat.lt_ge_cases x (length vm)).
        + rewrite vmap_app_l by auto. specialize (H2 x). lia.
        + rewrite vmap_app_r by auto. destruct (Nat.eq_dec (nth (x - length vm) (assign m mx) 0) 0) as [->|Hn]; [lia|].
          apply assign_nth in Hn. lia.
      - intros x Hx Hv. destruct (Nat.lt_ge_cases x (length vm)).
        + rewrite vmap_app_l by auto. apply H3; auto; lia.
        + rewrite vmap_app_r by auto. apply assign_true. apply Hm; [lia|]. replace (n + (x - length vm)) with x by lia. auto.
    Qed.
    Lemma Rv_ext vm mx m vals vals' outs : Rv vm vals vals' -> (forall x, vmap vm x <= mx) -> length vm = length vals ->
      length vals' = S mx -> length outs = length m ->
      Rv (vm ++ assign m mx) (vals ++ outs) (vals' ++ keep m outs).
    Proof.
      intros Hv Hb Hl Hl' Ho x. destruct (Nat.lt_ge_cases x (length vm)).
      - rewrite vmap_app_l by auto. intros Hx. rewrite !getv_app_l; [apply Hv; auto|lia|]. specialize (Hb x); lia.
      - rewrite vmap_app_r by auto. intros Hx. rewrite (getv_app_r vals) by lia. unfold getv at 1.
        rewrite assign_val; auto. unfold getv. f_equal. lia.
    Qed.

    Lemma in_mask_nth id n j : j < n -> nth_error (in_mask vis id n) j = Some (vis (id, S j, TVar)).
    Proof. intros H. unfold in_mask. rewrite nth_error_map, nth_error_seq by auto. auto. Qed.
    Lemma out_mask_nth id n j : j < n -> nth_error (out_mask vis id n) j = Some (vis (id, j, TOut)).
    Proof. intros H. unfold out_mask. rewrite nth_error_map, nth_error_seq by auto. auto. Qed.
    Lemma in_mask_length id n : length (in_mask vis id n) = n.
    Proof. unfold in_mask. rewrite map_length, seq_length; auto. Qed.
    Lemma out_mask_length id n : length (out_mask vis id n) = n.
    Proof. unfold out_mask. rewrite map_length, seq_length; auto. Qed.

    (* the visible part of one step, shared by the static and the dynamic argument *)
    Lemma Rs_step_drop id k vm mx n i : Rs id vm mx n -> vis (id, k, TInsn) = false ->
      (forall j, j < i_nout i -> vis (id, S (n - 1 + j), TVar) = true -> vis (id, k, TInsn) = true) -> 0 < n ->
      Rs id (vm ++ repeat 0 (i_nout (F:=F) (i:=I) i)) mx (n + i_nout i).
    Proof.
      intros HR Hv Hj Hn. rewrite (assign_false _ mx).
      replace mx with (mx + ntrue (repeat false (i_nout i))) at 2 by (rewrite ntrue_false; lia).
      replace (n + i_nout i) with (n + length (repeat false (i_nout i))) by (rewrite repeat_length; auto).
      apply Rs_ext; auto. intros j Hl Hvj. rewrite repeat_length in Hl. replace (n + j) with (S (n - 1 + j)) in Hvj by lia.
      apply Hj in Hvj; auto. congruence.
    Qed.
    Lemma Rs_step_plain id vm mx n m : Rs id vm mx n -> Rs id (vm ++ seq (S mx) m) (mx + m) (n + m).
    Proof.
      intros HR. rewrite seq_assign. pose proof (Rs_ext id vm mx n (repeat true m) HR) as H.
      rewrite repeat_length, ntrue_repeat in H. apply H. intros j Hj _. apply nth_error_repeat; auto.
    Qed.
    Lemma Rs_step_call id k vm mx n sub m : Rs id vm mx n -> 0 < n ->
      (forall j, j < m -> vis (id, S (n - 1 + j), TVar) = true -> vis (sub, j, TOut) = true /\ vis (id, k, TInsn) = true) ->
      Rs id (vm ++ assign (out_mask vis sub m) mx) (mx + ntrue (out_mask vis sub m)) (n + m).
    Proof.
      intros HR Hn Hj. pose proof (Rs_ext id vm mx n (out_mask vis sub m) HR) as H. rewrite out_mask_length in H. apply H.
      intros j Hl Hv. rewrite out_mask_nth by auto. f_equal. replace (n + j) with (S (n - 1 + j)) in Hv by lia. apply (Hj j Hl Hv).
    Qed.

    (* the new number of inputs *)
    Lemma rb_insns_prefix id is : forall k vm mx is' vm', rb_insns I vis id k is vm mx = (is', vm') -> exists e, vm' = vm ++ e.
    Proof.
      induction is as [|i is IH]; intros k vm mx is' vm' H; cbn [rb_insns] in H.
      - inversion H; subst. exists []; rewrite app_nil_r; auto.
      - destruct (vis (id, k, TInsn)).
        + destruct (i_call i) as [[[sub l] n]|].
          * destruct (rb_insns I vis id (S k) is _ _) as [a b] eqn:E. injection H as <- <-. apply IH in E. destruct E as [e ->].
            rewrite <- app_assoc. eauto.
          * destruct (rb_insns I vis id (S k) is _ _) as [a b] eqn:E. injection H as <- <-. apply IH in E. destruct E as [e ->].
            rewrite <- app_assoc. eauto.
        + apply IH in H. destruct H as [e ->]. rewrite <- app_assoc. eauto.
    Qed.
    Lemma rb_num_inputs id c : num_inputs (rb_circuit I vis id c) = ntrue (in_mask vis id (num_inputs c)).
    Proof.
      unfold rb_circuit. destruct (rb_insns I vis id 0 _ _ _) as [is' vm] eqn:E. cbn [num_inputs].
      apply rb_insns_prefix in E. destruct E as [e ->]. set (m := in_mask vis id (num_inputs c)).
      rewrite <- (count_assign m). assert (Hl : length (assign m 0) = num_inputs c). { rewrite assign_length; apply in_mask_length. }
      revert Hl. generalize (assign m 0) as a. generalize (num_inputs c) as n. intros n a Hl.
      assert (Ha : a = map (fun x => vmap ((0 :: a) ++ e) x) (seq 1 n)).
      { apply list_eq_nth_error. intros j. rewrite nth_error_map. destruct (Nat.lt_ge_cases j n).
        - rewrite nth_error_seq by auto. cbn [option_map]. rewrite vmap_app_l by (cbn; lia). cbn. unfold vmap. cbn.
          destruct (nth_error_Some_ex a j ltac:(lia)) as [y Hy]. rewrite Hy. f_equal. symmetry. apply nth_error_nth; auto.
        - rewrite (proj2 (nth_error_None a j)) by lia. rewrite (proj2 (nth_error_None (seq 1 n) j)) by (rewrite seq_length; lia). auto. }
      transitivity (length (filter (fun x => negb (x =? 0)) (map (fun x => vmap ((0 :: a) ++ e) x) (seq 1 n)))); [|rewrite <- Ha; reflexivity].
      clear. induction (seq 1 n) as [|x l IH]; cbn [map filter]; auto.
      destruct (negb _); cbn [length]; rewrite IH; auto.
    Qed.
    Lemma rb_outputs_length id c : length (outputs (rb_circuit I vis id c)) = ntrue (out_mask vis id (length (outputs c))).
    Proof.
      unfold rb_circuit. destruct (rb_insns I vis id 0 _ _ _) as [is' vm] eqn:E. cbn [outputs].
      rewrite map_length, keep_length; auto. apply out_mask_length.
    Qed.
    Lemma keep_visited id k l sub n (Hlen : length l = n) :
      (forall j x, nth_error l j = Some x -> vis (id, k, TInsn) = true -> vis (sub, S j, TVar) = true -> vis (id, x, TVar) = true) ->
      vis (id, k, TInsn) = true -> forall x, In x (keep (in_mask vis sub n) l) -> In x l /\ vis (id, x, TVar) = true.
    Proof.
      intros H1 H2 x Hx. apply keep_In in Hx. destruct Hx as [j [Hm Hx]]. split; [eapply nth_error_In; eauto|].
      rewrite in_mask_nth in Hm by (apply nth_error_Some_lt in Hx; lia). injection Hm as Hm. eauto.
    Qed.

    (* static part *)
    Lemma rb_insns_static id : used id -> forall is k cur vm mx is' vm', rb_insns I vis id k is vm mx = (is', vm') ->
      wf_insns I is cur -> closed_insns vis id k is cur -> Rs id vm mx (S cur) -> Forall (call_wf I cs) is ->
      (forall i sub l n, In i is -> i_call i = Some (sub, l, n) -> used sub) ->
      wf_insns I is' mx /\ Rs id vm' (mx + nouts I is') (S (cur + nouts I is)) /\ Forall (call_wf I cs') is' /\
      Forall (fun i' => exists i, In i is /\ option_map (fun p => fst (fst p)) (i_call i') = option_map (fun p => fst (fst p)) (i_call i)) is'.
    Proof.
      intros Hu. induction is as [|i is IH]; intros k cur vm mx is' vm' H Hw Hc HR Hcw Hsub; cbn [rb_insns] in H.
      - injection H as <- <-. cbn. rewrite !Nat.add_0_r. repeat split; auto; apply HR.
      - destruct Hw as [Hi Hw]. cbn [closed_insns] in Hc. destruct Hc as [Hc1 Hc2]. inversion Hcw as [|? ? Hcwi Hcw2]; subst.
        destruct (vis (id, k, TInsn)) eqn:Ev.
        + destruct (i_call i) as [[[sub l] n]|] eqn:Ec.
          * destruct (l_call I L _ _ _ _ Ec) as [El En]. destruct Hc1 as [Ha [Hb Hd]].
            destruct (rb_insns I vis id (S k) is _ _) as [a b] eqn:E. injection H as <- <-.
            destruct (Hcwi _ _ _ Ec) as [c [Hlc [Hll Hln]]].
            assert (Hin : forall x, In x (keep (in_mask vis sub (length l)) l) -> In x l /\ vmap vm x <> 0).
            { intros x Hx. destruct (keep_visited id k l sub (length l) eq_refl ltac:(intros; eapply Hb; eauto) Ev x Hx) as [H1 H2]. split; auto.
              apply HR; auto. rewrite El, Forall_forall in Hi. specialize (Hi x H1). lia. }
            pose proof (Rs_step_call id k vm mx (S cur) sub n HR ltac:(lia)) as HR2.
            replace (S cur - 1) with cur in HR2 by lia. specialize (HR2 ltac:(intros j Hj Hv; destruct (Ha j Hj Hv); auto)).
            replace (S cur + n) with (S (cur + i_nout i)) in HR2 by lia.
            apply (IH _ _ _ _ _ _ E Hw Hc2) in HR2; auto; [|intros; eapply Hsub; eauto; right; auto].
            destruct HR2 as [H1 [H2 [H3 H4]]].
            pose proof (l_mkcall I L sub (map (vmap vm) (keep (in_mask vis sub (length l)) l)) (ntrue (out_mask vis sub n))) as Em.
            destruct (l_call I L _ _ _ _ Em) as [Em1 Em2].
            cbn [wf_insns nouts]. rewrite Em1, Em2. repeat split.
            -- apply Forall_forall. intros y Hy. apply in_map_iff in Hy. destruct Hy as [x [<- Hx]]. apply Hin in Hx.
               destruct HR as [_ [HR _]]. specialize (HR x). lia.
            -- auto.
            -- destruct H2 as [H2 _]. rewrite H2. lia.
            -- intros x. destruct H2 as [_ [H2 _]]. specialize (H2 x). lia.
            -- intros x Hx. destruct H2 as [_ [_ H2]]. apply H2. lia.
            -- constructor; auto. intros id' l' n' Ecall. rewrite Em in Ecall. injection Ecall as <- <- <-.
               exists (rb_circuit I vis sub c). rewrite rb_num_inputs, rb_outputs_length. split; [|split].
               ++ apply Hcs'; auto. eapply (Hsub i); eauto. left; auto.
               ++ rewrite map_length, keep_length by apply in_mask_length. congruence.
               ++ congruence.
            -- constructor.
               ++ exists i. split; [left; auto|]. rewrite Em, Ec. auto.
               ++ eapply Forall_impl; [|exact H4]. intros x [y [Hy1 Hy2]]. exists y; split; auto. right; auto.
          * destruct Hc1 as [Ha Hb].
            destruct (rb_insns I vis id (S k) is _ _) as [a b] eqn:E. injection H as <- <-.
            pose proof (Rs_step_plain id vm mx (S cur) (i_nout i) HR) as HR2. cbn [Nat.add] in HR2.
            apply (IH _ _ _ _ _ _ E Hw Hc2) in HR2; auto; [|intros; eapply Hsub; eauto; right; auto].
            destruct HR2 as [H1 [H2 [H3 H4]]].
            cbn [wf_insns nouts]. rewrite (l_repl_inputs I L), (l_repl_nout I L). repeat split.
            -- apply Forall_forall. intros y Hy. apply in_map_iff in Hy. destruct Hy as [x [<- Hx]].
               destruct HR as [_ [HR HR3]]. specialize (HR x). rewrite Forall_forall in Hi. specialize (Hi x Hx).
               assert (vmap vm x <> 0). { apply HR3; [lia|]. apply Hb; auto. } lia.
            -- auto.
            -- destruct H2 as [H2 _]. rewrite H2. lia.
            -- intros x. destruct H2 as [_ [H2 _]]. specialize (H2 x). lia.
            -- intros x Hx. destruct H2 as [_ [_ H2]]. apply H2. lia.
            -- constructor; auto. intros id' l' n' Ecall. rewrite (l_repl_call I L), Ec in Ecall. discriminate.
            -- constructor.
               ++ exists i. split; [left; auto|]. rewrite (l_repl_call I L), Ec. auto.
               ++ eapply Forall_impl; [|exact H4]. intros x [y [Hy1 Hy2]]. exists y; split; auto. right; auto.
        + assert (HR2 : Rs id (vm ++ repeat 0 (i_nout i)) mx (S cur + i_nout i)).
          { apply (Rs_step_drop id k); auto; [|lia]. intros j Hj Hv. replace (S cur - 1 + j) with (cur + j) in Hv by lia.
            destruct (i_call i) as [[[sub l] n]|] eqn:Ec.
            - destruct (l_call I L _ _ _ _ Ec) as [El En]. rewrite En in Hj. destruct Hc1 as [Ha _]. destruct (Ha j Hj Hv); congruence.
            - destruct Hc1 as [Ha _]. specialize (Ha j Hj Hv); congruence. }
          cbn [Nat.add] in HR2. apply (IH _ _ _ _ _ _ H Hw Hc2) in HR2; auto; [|intros; eapply Hsub; eauto; right; auto].
          destruct HR2 as [H1 [H2 [H3 H4]]]. cbn [nouts]. rewrite Nat.add_assoc. split; auto. split; auto. split; auto.
          eapply Forall_impl; [|exact H4]. intros x [y [Hy1 Hy2]]. exists y; split; auto. right; auto.
    Qed.
    Lemma Rs_init id c : Rs id (0 :: assign (in_mask vis id (num_inputs (I:=I) c)) 0) (ntrue (in_mask vis id (num_inputs c))) (S (num_inputs c)).
    Proof.
      assert (H : Rs id [0] 0 1).
      { split; [auto|split; [intros [|[|x]]; cbn; auto|intros x Hx; lia]]. }
      apply (Rs_ext id _ _ _ (in_mask vis id (num_inputs c))) in H.
      - rewrite in_mask_length in H. exact H.
      - intros j Hj Hv. rewrite in_mask_length in Hj. rewrite in_mask_nth by auto. cbn in Hv. congruence.
    Qed.
    Lemma Rv_init id c (ins : list F) : length ins = num_inputs (I:=I) c ->
      Rv (0 :: assign (in_mask vis id (num_inputs c)) 0) (f0 :: ins) (f0 :: keep (in_mask vis id (num_inputs c)) ins).
    Proof.
      intros H. apply (Rv_ext [0] 0 (in_mask vis id (num_inputs c)) [f0] [f0] ins); auto.
      - intros [|[|x]]; cbn; congruence.
      - intros [|[|x]]; cbn; auto.
      - rewrite in_mask_length; auto.
    Qed.

    Lemma used_sub id c : used id -> lookup id cs = Some c -> forall i sub l n, In i (instructions c) -> i_call i = Some (sub, l, n) -> used sub.
    Proof. intros Hu Hc i sub l n Hi Ec. eapply Hus; eauto. eapply in_calls; eauto. Qed.

    Lemma rb_wf id c : used id -> lookup id cs = Some c ->
      wf_circuit I (rb_circuit I vis id c) /\ Forall (call_wf I cs') (instructions (rb_circuit I vis id c)) /\
      incl (calls (rb_circuit I vis id c)) (calls c).
    Proof.
      intros Hu Hc. pose proof (Hcl _ _ Hu Hc) as C. pose proof (wf_each _ _ Hwf _ _ Hc) as W. pose proof (wf_calls _ _ Hwf _ _ Hc) as Wc.
      pose proof (rb_num_inputs id c) as Hn. pose proof (Rs_init id c) as HR. unfold rb_circuit in *.
      destruct (rb_insns I vis id 0 _ _ _) as [is' vm] eqn:E. cbn [instructions num_inputs constraints outputs] in *.
      destruct (rb_insns_static id Hu _ _ _ _ _ _ _ E (wf_is _ _ W) (cc_is _ _ _ C) HR Wc (used_sub id c Hu Hc)) as [H1 [H2 [H3 H4]]].
      assert (Hvar : forall x, 0 < x <= num_inputs c + nouts I (instructions c) -> vis (id, x, TVar) = true ->
        0 < vmap vm x <= ntrue (in_mask vis id (num_inputs c)) + nouts I is').
      { intros x Hx Hv. destruct H2 as [_ [H2 H5]]. specialize (H2 x). assert (vmap vm x <> 0) by (apply H5; auto; lia). lia. }
      split; [split; cbn [instructions num_inputs constraints outputs]; rewrite ?Hn|split]; auto.
      - apply Forall_forall. intros k' Hk. apply in_map_iff in Hk. destruct Hk as [k [<- Hk]]. rewrite (l_con_repl I L).
        apply Hvar; [|apply (cc_con _ _ _ C); auto]. pose proof (wf_con _ _ W) as Hw. rewrite Forall_forall in Hw. apply (Hw k Hk).
      - apply Forall_forall. intros y Hy. apply in_map_iff in Hy. destruct Hy as [x [<- Hx]]. apply keep_In in Hx.
        destruct Hx as [j [Hj1 Hj2]]. rewrite out_mask_nth in Hj1 by (eapply nth_error_Some_lt; eauto). injection Hj1 as Hj1.
        apply Hvar; [|eapply (cc_out _ _ _ C); eauto]. pose proof (wf_out _ _ W) as Hw. rewrite Forall_forall in Hw.
        apply Hw. eapply nth_error_In; eauto.
      - intros o Ho. apply calls_in in Ho. destruct Ho as [i' [l [n [Hi Ec]]]]. cbn [instructions] in Hi. rewrite Forall_forall in H4.
        destruct (H4 i' Hi) as [i [Hin Eq]]. rewrite Ec in Eq. cbn in Eq. destruct (i_call i) as [[[sub l2] n2]|] eqn:Ec2; [|discriminate].
        injection Eq as ->. eapply in_calls; eauto.
    Qed.

    (* circuits that are not marked as constrained are never violated *)
    Lemma exec_unconstrained E id : vis (id, 0, TCon) = false -> forall is k cur vals vals' b, closed_insns vis id k is cur ->
      (forall i sub l n, In i is -> i_call i = Some (sub, l, n) -> forall ins outs b, vis (sub, 0, TCon) = false -> run I E cs sub ins outs b -> b = true) ->
      exec I E cs is vals vals' b -> b = true.
    Proof.
      intros Hv. induction is as [|i is IH]; intros k cur vals vals' b Hc Hs Hx.
      - apply exec_nil in Hx. tauto.
      - apply exec_cons in Hx. destruct Hx as [outs [b1 [b2 [H1 [H2 ->]]]]]. cbn [closed_insns] in Hc. destruct Hc as [Hc1 Hc2].
        rewrite (IH _ _ _ _ _ Hc2 ltac:(intros; eapply Hs; eauto; right; auto) H2), andb_true_r.
        unfold step in H1. destruct (i_call i) as [[[sub l] n]|] eqn:Ec; [|tauto]. destruct H1 as [_ H1].
        eapply (Hs i); eauto. left; auto. destruct (vis (sub, 0, TCon)) eqn:Es; auto. destruct Hc1 as [_ [_ Hd]]. destruct (Hd eq_refl); congruence.
    Qed.
    Lemma run_unconstrained E rank : ranked I cs rank -> forall id c ins outs b, used id -> lookup id cs = Some c ->
      vis (id, 0, TCon) = false -> run I E cs id ins outs b -> b = true.
    Proof.
      intros R. apply (rank_ind rank (fun id => forall c ins outs b, used id -> lookup id cs = Some c -> vis (id, 0, TCon) = false -> run I E cs id ins outs b -> b = true)).
      intros id IH c ins outs b Hu Hc Hv Hr. apply run_iff in Hr. destruct Hr as [c' [vals [b0 [Hc' [Hx [_ [_ [_ ->]]]]]]]].
      rewrite Hc in Hc'. injection Hc' as <-. pose proof (Hcl _ _ Hu Hc) as C.
      assert (Hnil : constraints c = []). { destruct (constraints c) eqn:En; auto. rewrite (cc_has _ _ _ C) in Hv; [discriminate|rewrite En; discriminate]. }
      rewrite Hnil. cbn [forallb]. rewrite andb_true_r.
      eapply exec_unconstrained; eauto; [apply (cc_is _ _ _ C)|].
      intros i sub l n Hi Ec ins2 outs2 b2 Hs Hr. assert (Hin : In sub (calls c)) by (eapply in_calls; eauto).
      assert (Hl : exists cc, lookup sub cs = Some cc). { inversion Hr; eauto. } destruct Hl as [cc Hl].
      eapply (IH sub); eauto.
    Qed.

    (* ---------- dynamics ---------- *)
    Definition fwd (E : Env F) (sub : nat) : Prop := forall c ins outs b, lookup sub cs = Some c -> length ins = num_inputs c ->
      run I E cs sub ins outs b -> run I E cs' sub (keep (in_mask vis sub (num_inputs c)) ins) (keep (out_mask vis sub (length (outputs c))) outs) b.
    Definition bwd (E : Env F) (sub : nat) : Prop := forall c ins outs' b, lookup sub cs = Some c -> length ins = num_inputs c ->
      run I E cs' sub (keep (in_mask vis sub (num_inputs c)) ins) outs' b ->
      exists outs, run I E cs sub ins outs b /\ outs' = keep (out_mask vis sub (length (outputs c))) outs.

    (* a kept instruction behaves the same on both sides *)
    Lemma step_plain E i vm vals vals' outs : i_call i = None -> Rv vm vals vals' ->
      (forall x, In x (i_inputs i) -> vmap vm x <> 0 /\ inb vals' (vmap vm x) /\ inb vals x) ->
      (step I E cs i vals outs true <-> step I E cs' (i_replace (vmap vm) i) vals' outs true).
    Proof.
      intros Ec Hv Hin. unfold step. rewrite (l_repl_call I L), Ec, (l_repl_inputs I L), (l_sem_repl I L).
      assert (Hs : i_sem E i (getv vals) outs <-> i_sem E i (fun x => getv vals' (vmap vm x)) outs).
      { split; apply (l_sem_ext I L); intros x Hx; [symmetry|]; apply Hv; apply Hin; auto. }
      rewrite Hs. split; intros [H1 H2]; split; auto.
      - apply Forall_forall. intros y Hy. apply in_map_iff in Hy. destruct Hy as [x [<- Hx]]. apply Hin; auto.
      - apply Forall_forall. intros x Hx. apply Hin; auto.
    Qed.
    Lemma call_args vm vals vals' sub l : Rv vm vals vals' ->
      (forall x, In x (keep (in_mask vis sub (length l)) l) -> vmap vm x <> 0) ->
      map (getv vals') (map (vmap vm) (keep (in_mask vis sub (length l)) l)) = keep (in_mask vis sub (length l)) (map (getv vals) l).
    Proof.
      intros Hv Hin. rewrite map_map, keep_map. apply map_ext_in. intros x Hx. apply Hv. auto.
    Qed.

    Section Insns.
      Variable E : Env F.
      Variable rank : nat -> nat.
      Hypothesis HR0 : ranked I cs rank.
      Variable id : nat.
      Variable c0 : Circuit.
      Hypothesis Hu : used id.
      Hypothesis Hc0 : lookup id cs = Some c0.

      (* facts available at each instruction *)
      Definition Inv (is : list (Insn I)) (k cur : nat) (vm : list nat) (mx : nat) (vals vals' : list F) : Prop :=
        incl is (instructions c0) /\ wf_insns I is cur /\ closed_insns vis id k is cur /\ Rs id vm mx (S cur) /\
        Rv vm vals vals' /\ length vals = S cur /\ length vals' = S mx.

      Lemma inv_sub i is k cur vm mx vals vals' sub l n : Inv (i :: is) k cur vm mx vals vals' -> i_call i = Some (sub, l, n) ->
        i_inputs i = l /\ i_nout i = n /\ used sub /\ rank sub < rank id /\
        (exists c, lookup sub cs = Some c /\ length l = num_inputs c /\ n = length (outputs c)) /\ Forall (inb vals) l.
      Proof.
        intros [Hin [[Hi _] [_ [_ [_ [Hl _]]]]]] Ec. destruct (l_call I L _ _ _ _ Ec) as [E1 E2].
        assert (Hi0 : In i (instructions c0)) by (apply Hin; left; auto).
        assert (Hcall : In sub (calls c0)) by (eapply in_calls; eauto).
        split; auto. split; auto. split; [eapply Hus; eauto|]. split; [eapply HR0; eauto|].
        pose proof (wf_calls _ _ Hwf _ _ Hc0) as Wc. rewrite Forall_forall in Wc. split; [apply (Wc i Hi0); auto|].
        subst l. eapply Forall_impl; [|exact Hi]. unfold inb; intros; cbn in *; lia.
      Qed.
      Lemma inv_keep_in i is k cur vm mx vals vals' sub l n : Inv (i :: is) k cur vm mx vals vals' -> i_call i = Some (sub, l, n) ->
        vis (id, k, TInsn) = true ->
        forall x, In x (keep (in_mask vis sub (length l)) l) -> vmap vm x <> 0 /\ inb vals' (vmap vm x).
      Proof.
        intros HI Ec Ev x Hx. pose proof (inv_sub _ _ _ _ _ _ _ _ _ _ _ HI Ec) as [El _].
        destruct HI as [_ [[Hi _] [Hc [[_ [HR1 HR2]] [_ [_ Hl']]]]]]. cbn [closed_insns] in Hc. rewrite Ec in Hc. destruct Hc as [[_ [Hb _]] _].
        destruct (keep_visited id k l sub (length l) eq_refl Hb Ev x Hx) as [H1 H2].
        rewrite El, Forall_forall in Hi. specialize (Hi x H1). assert (vmap vm x <> 0) by (apply HR2; auto; lia).
        split; auto. unfold inb. specialize (HR1 x). lia.
      Qed.
      Lemma inv_plain i is k cur vm mx vals vals' : Inv (i :: is) k cur vm mx vals vals' -> i_call i = None -> vis (id, k, TInsn) = true ->
        forall x, In x (i_inputs i) -> vmap vm x <> 0 /\ inb vals' (vmap vm x) /\ inb vals x.
      Proof.
        intros [_ [[Hi _] [Hc [[_ [HR1 HR2]] [_ [Hl Hl']]]]]] Ec Ev x Hx. cbn [closed_insns] in Hc. rewrite Ec in Hc. destruct Hc as [[_ Hb] _].
        rewrite Forall_forall in Hi. specialize (Hi x Hx). assert (vmap vm x <> 0) by (apply HR2; [lia|apply Hb; auto]).
        split; auto. unfold inb. specialize (HR1 x). split; lia.
      Qed.
      Lemma inv_drop i is k cur vm mx vals vals' outs : Inv (i :: is) k cur vm mx vals vals' -> vis (id, k, TInsn) = false ->
        length outs = i_nout i -> Inv is (S k) (cur + i_nout i) (vm ++ repeat 0 (i_nout i)) mx (vals ++ outs) vals'.
      Proof.
        intros [H1 [[_ H2] [H3 [H4 [H5 [H6 H7]]]]]] Ev Ho. cbn [closed_insns] in H3. destruct H3 as [H3 H3'].
        assert (HR2 : Rs id (vm ++ repeat 0 (i_nout i)) mx (S cur + i_nout i)).
        { apply (Rs_step_drop id k); auto; [|lia]. intros j Hj Hv. replace (S cur - 1 + j) with (cur + j) in Hv by lia.
          destruct (i_call i) as [[[sub l] n]|] eqn:Ec.
          - destruct (l_call I L _ _ _ _ Ec) as [El En]. rewrite En in Hj. destruct H3 as [Ha _]. destruct (Ha j Hj Hv); congruence.
          - destruct H3 as [Ha _]. specialize (Ha j Hj Hv); congruence. }
        split; [intros x Hx; apply H1; right; auto|]. split; auto. split; auto. split; auto. split; [|split; auto].
        - rewrite (assign_false _ mx). replace vals' with (vals' ++ keep (repeat false (i_nout i)) outs) by (rewrite keep_false, app_nil_r; auto).
          destruct H4 as [H4 [H4' _]]. apply Rv_ext; auto. congruence. rewrite repeat_length; auto.
        - rewrite app_length; lia.
      Qed.
      Lemma inv_step_plain i is k cur vm mx vals vals' outs : Inv (i :: is) k cur vm mx vals vals' ->
        length outs = i_nout i -> Inv is (S k) (cur + i_nout i) (vm ++ seq (S mx) (i_nout i)) (mx + i_nout i) (vals ++ outs) (vals' ++ outs).
      Proof.
        intros [H1 [[_ H2] [H3 [H4 [H5 [H6 H7]]]]]] Ho. cbn [closed_insns] in H3. destruct H3 as [H3 H3'].
        split; [intros x Hx; apply H1; right; auto|]. split; auto. split; auto. split; [apply (Rs_step_plain id vm mx (S cur)); auto|]. split; [|split].
        - rewrite seq_assign. rewrite <- (keep_repeat (i_nout i) outs) at 2 by auto.
          destruct H4 as [H4 [H4' _]]. apply Rv_ext; auto. congruence. rewrite repeat_length; auto.
        - rewrite app_length; lia.
        - rewrite app_length; lia.
      Qed.
      Lemma inv_step_call i is k cur vm mx vals vals' sub l n outs : Inv (i :: is) k cur vm mx vals vals' -> i_call i = Some (sub, l, n) ->
        vis (id, k, TInsn) = true -> length outs = n ->
        Inv is (S k) (cur + i_nout i) (vm ++ assign (out_mask vis sub n) mx) (mx + ntrue (out_mask vis sub n)) (vals ++ outs) (vals' ++ keep (out_mask vis sub n) outs).
      Proof.
        intros HI Ec Ev Ho. pose proof (inv_sub _ _ _ _ _ _ _ _ _ _ _ HI Ec) as [El [En _]].
        destruct HI as [H1 [[_ H2] [H3 [H4 [H5 [H6 H7]]]]]]. cbn [closed_insns] in H3. rewrite Ec in H3. destruct H3 as [[Ha _] H3'].
        split; [intros x Hx; apply H1; right; auto|]. split; auto. split; auto. split; [|split; [|split]].
        - rewrite En. apply (Rs_step_call id k vm mx (S cur) sub n H4); [lia|]. intros j Hj Hv. replace (S cur - 1 + j) with (cur + j) in Hv by lia. auto.
        - destruct H4 as [H4 [H4' _]]. apply Rv_ext; auto. congruence. rewrite out_mask_length; auto.
        - rewrite app_length; lia.
        - rewrite app_length, keep_length; rewrite ?out_mask_length; lia.
      Qed.
      Lemma inv_call_wf i is k cur vm mx vals vals' : Inv (i :: is) k cur vm mx vals vals' -> call_wf I cs i.
      Proof. intros [H _]. pose proof (wf_calls _ _ Hwf _ _ Hc0) as Wc. rewrite Forall_forall in Wc. apply Wc, H. left; auto. Qed.

      Lemma exec_fwd : (forall sub, used sub -> rank sub < rank id -> fwd E sub) ->
        forall is k cur vm mx vals vals' vf b, Inv is k cur vm mx vals vals' -> exec I E cs is vals vf b ->
        forall is' vm', rb_insns I vis id k is vm mx = (is', vm') ->
        exists vf' mxf, exec I E cs' is' vals' vf' b /\ Rs id vm' mxf (length vf) /\ Rv vm' vf vf' /\ length vf' = S mxf.
      Proof.
        intros Hfwd. induction is as [|i is IH]; intros k cur vm mx vals vals' vf b HI Hx is' vm' Hrb; cbn [rb_insns] in Hrb.
        - apply exec_nil in Hx. destruct Hx as [-> ->]. injection Hrb as <- <-. exists vals', mx. destruct HI as [_ [_ [_ [H4 [H5 [H6 H7]]]]]].
          split; [constructor|]. rewrite H6. auto.
        - apply exec_cons in Hx. destruct Hx as [outs [b1 [b2 [H1 [H2 ->]]]]].
          pose proof (step_len I L _ _ _ _ _ _ (inv_call_wf _ _ _ _ _ _ _ _ HI) H1) as Hlo.
          destruct (vis (id, k, TInsn)) eqn:Ev.
          + destruct (i_call i) as [[[sub l] n]|] eqn:Ec.
            * destruct (rb_insns I vis id (S k) is _ _) as [a b] eqn:Er. injection Hrb as <- <-.
              destruct (inv_sub _ _ _ _ _ _ _ _ _ _ _ HI Ec) as [El [En [Hus2 [Hrk [[c [Hlc [Hll Hnn]]] Hin]]]]].
              rewrite En in Hlo. pose proof (inv_step_call _ _ _ _ _ _ _ _ _ _ _ _ HI Ec Ev Hlo) as HI2.
              destruct (IH _ _ _ _ _ _ _ _ HI2 H2 _ _ Er) as [vf' [mxf [Hx' Hrest]]].
              exists vf', mxf. split; auto. apply exec_cons. exists (keep (out_mask vis sub n) outs), b1, b2. split; [|auto].
              unfold step in *. rewrite Ec in H1. rewrite (l_mkcall I L). destruct H1 as [_ H1].
              pose proof (inv_keep_in _ _ _ _ _ _ _ _ _ _ _ HI Ec Ev) as Hk. split.
              -- apply Forall_forall. intros y Hy. apply in_map_iff in Hy. destruct Hy as [x [<- Hy]]. apply Hk; auto.
              -- rewrite (call_args vm vals vals' sub l); [|apply HI|intros; apply Hk; auto]. rewrite Hll, Hnn.
                 apply Hfwd; auto. rewrite map_length; auto.
            * destruct (rb_insns I vis id (S k) is _ _) as [a b] eqn:Er. injection Hrb as <- <-.
              destruct (IH _ _ _ _ _ _ _ _ (inv_step_plain _ _ _ _ _ _ _ _ _ HI Hlo) H2 _ _ Er) as [vf' [mxf [Hx' Hrest]]].
              exists vf', mxf. split; auto. apply exec_cons. exists outs, b1, b2. split; [|auto].
              assert (b1 = true) as -> by (unfold step in H1; rewrite Ec in H1; tauto).
              apply (step_plain E i vm vals vals' outs Ec); auto; [apply HI|]. eapply inv_plain; eauto.
          + assert (b1 = true) as ->.
            { unfold step in H1. destruct (i_call i) as [[[sub l] n]|] eqn:Ec; [|tauto]. destruct H1 as [_ H1].
              destruct (inv_sub _ _ _ _ _ _ _ _ _ _ _ HI Ec) as [_ [_ [Hus2 [_ [[c [Hlc _]] _]]]]].
              eapply (run_unconstrained E rank HR0 sub c); eauto. destruct (vis (sub, 0, TCon)) eqn:Es; auto.
              destruct HI as [_ [_ [Hc _]]]. cbn [closed_insns] in Hc. rewrite Ec in Hc. destruct Hc as [[_ [_ Hd]] _]. destruct (Hd Es); congruence. }
            cbn [andb]. eapply IH; eauto. eapply inv_drop; eauto.
      Qed.

      Lemma exec_bwd : total I E cs -> (forall sub, used sub -> rank sub < rank id -> bwd E sub) ->
        forall is k cur vm mx vals vals' vf' b, Inv is k cur vm mx vals vals' ->
        forall is' vm', rb_insns I vis id k is vm mx = (is', vm') -> exec I E cs' is' vals' vf' b ->
        exists vf mxf, exec I E cs is vals vf b /\ Rs id vm' mxf (length vf) /\ Rv vm' vf vf' /\ length vf' = S mxf.
      Proof.
        intros T Hbwd. induction is as [|i is IH]; intros k cur vm mx vals vals' vf' b HI is' vm' Hrb Hx; cbn [rb_insns] in Hrb.
        - injection Hrb as <- <-. apply exec_nil in Hx. destruct Hx as [-> ->]. exists vals, mx. destruct HI as [_ [_ [_ [H4 [H5 [H6 H7]]]]]].
          split; [constructor|]. rewrite H6. auto.
        - destruct (vis (id, k, TInsn)) eqn:Ev.
          + destruct (i_call i) as [[[sub l] n]|] eqn:Ec.
            * destruct (rb_insns I vis id (S k) is _ _) as [a bb] eqn:Er. injection Hrb as <- <-.
              apply exec_cons in Hx. destruct Hx as [outs' [b1 [b2 [H1 [H2 ->]]]]].
              destruct (inv_sub _ _ _ _ _ _ _ _ _ _ _ HI Ec) as [El [En [Hus2 [Hrk [[c [Hlc [Hll Hnn]]] Hin]]]]].
              pose proof (inv_keep_in _ _ _ _ _ _ _ _ _ _ _ HI Ec Ev) as Hk.
              unfold step in H1. rewrite (l_mkcall I L) in H1. destruct H1 as [_ H1].
              rewrite (call_args vm vals vals' sub l) in H1; [|apply HI|intros; apply Hk; auto]. rewrite Hll in H1.
              apply Hbwd in H1; auto; [|rewrite map_length; auto]. destruct H1 as [outs [H1 Eo]]. rewrite <- Hnn in Eo. subst outs'.
              assert (Hlo : length outs = n). { rewrite (run_len I _ _ _ _ _ _ _ H1 Hlc); auto. }
              pose proof (inv_step_call _ _ _ _ _ _ _ _ _ _ _ _ HI Ec Ev Hlo) as HI2.
              destruct (IH _ _ _ _ _ _ _ _ HI2 _ _ Er H2) as [vf [mxf [Hx' Hrest]]].
              exists vf, mxf. split; auto. apply exec_cons. exists outs, b1, b2. split; [|auto]. unfold step. rewrite Ec; auto.
            * destruct (rb_insns I vis id (S k) is _ _) as [a bb] eqn:Er. injection Hrb as <- <-.
              apply exec_cons in Hx. destruct Hx as [outs [b1 [b2 [H1 [H2 ->]]]]].
              assert (b1 = true) as -> by (unfold step in H1; rewrite (l_repl_call I L), Ec in H1; tauto).
              apply (step_plain E i vm vals vals' outs Ec) in H1; [|apply HI|eapply inv_plain; eauto].
              pose proof (step_len I L _ _ _ _ _ _ (inv_call_wf _ _ _ _ _ _ _ _ HI) H1) as Hlo.
              destruct (IH _ _ _ _ _ _ _ _ (inv_step_plain _ _ _ _ _ _ _ _ _ HI Hlo) _ _ Er H2) as [vf [mxf [Hx' Hrest]]].
              exists vf, mxf. split; auto. apply exec_cons. exists outs, true, b2. auto.
          + assert (Hstep : exists outs, step I E cs i vals outs true).
            { unfold step. destruct (i_call i) as [[[sub l] n]|] eqn:Ec.
              - destruct (inv_sub _ _ _ _ _ _ _ _ _ _ _ HI Ec) as [_ [_ [Hus2 [_ [[c [Hlc [Hll _]]] Hin]]]]].
                destruct (total_run I L E cs rank T Hwf HR0 sub c (map (getv vals) l) Hlc ltac:(rewrite map_length; auto)) as [outs [b1 Hr]].
                exists outs. split; auto. replace true with b1; auto. eapply (run_unconstrained E rank HR0 sub c); eauto.
                destruct (vis (sub, 0, TCon)) eqn:Es; auto.
                destruct HI as [_ [_ [Hc _]]]. cbn [closed_insns] in Hc. rewrite Ec in Hc. destruct Hc as [[_ [_ Hd]] _]. destruct (Hd Es); congruence.
              - destruct (T id c0 i (getv vals) Hc0 ltac:(apply HI; left; auto) Ec) as [outs Ho]. exists outs. split; auto. destruct HI as [_ [[Hi _] [_ [_ [_ [Hl _]]]]]].
                eapply Forall_impl; [|exact Hi]. unfold inb; cbn; intros; lia. }
            destruct Hstep as [outs Hstep].
            pose proof (step_len I L _ _ _ _ _ _ (inv_call_wf _ _ _ _ _ _ _ _ HI) Hstep) as Hlo.
            destruct (IH _ _ _ _ _ _ _ _ (inv_drop _ _ _ _ _ _ _ _ _ HI Ev Hlo) _ _ Hrb Hx) as [vf [mxf [Hx' Hrest]]].
            exists vf, mxf. split; auto. apply exec_cons. exists outs, true, b. auto.
      Qed.
    End Insns.

    Lemma inv_init id c (ins : list F) : used id -> lookup id cs = Some c -> length ins = num_inputs c ->
      Inv id c (instructions c) 0 (num_inputs c) (0 :: assign (in_mask vis id (num_inputs c)) 0) (ntrue (in_mask vis id (num_inputs c)))
        (f0 :: ins) (f0 :: keep (in_mask vis id (num_inputs c)) ins).
    Proof.
      intros Hu Hc Hl. split; [apply incl_refl|]. split; [apply (wf_each _ _ Hwf _ _ Hc)|]. split; [apply (Hcl _ _ Hu Hc)|].
      split; [apply Rs_init|]. split; [apply Rv_init; auto|]. split; cbn [length]; [auto|]. rewrite keep_length; auto. rewrite in_mask_length; auto.
    Qed.
    (* the tail of a run: constraints and outputs *)
    Lemma finish id c vm vf vf' mxf : used id -> lookup id cs = Some c -> Rs id vm mxf (length vf) -> Rv vm vf vf' -> length vf' = S mxf ->
      Forall (fun k => inb vf (c_var k)) (constraints c) -> Forall (inb vf) (outputs c) ->
      Forall (fun k => inb vf' (c_var k)) (map (c_replace (vmap vm)) (constraints c)) /\
      Forall (inb vf') (map (vmap vm) (keep (out_mask vis id (length (outputs c))) (outputs c))) /\
      map (getv vf') (map (vmap vm) (keep (out_mask vis id (length (outputs c))) (outputs c))) = keep (out_mask vis id (length (outputs c))) (map (getv vf) (outputs c)) /\
      forallb (fun k => c_verify k (getv vf' (c_var k))) (map (c_replace (vmap vm)) (constraints c)) = forallb (fun k => c_verify k (getv vf (c_var k))) (constraints c).
    Proof.
      intros Hu Hc [H1 [H2 H3]] Hv Hl Hk Ho. pose proof (Hcl _ _ Hu Hc) as C. pose proof (wf_each _ _ Hwf _ _ Hc) as W.
      assert (Ho2 : forall x, In x (keep (out_mask vis id (length (outputs c))) (outputs c)) -> vmap vm x <> 0).
      { intros x Hx. apply keep_In in Hx. destruct Hx as [j [Hj1 Hj2]]. rewrite out_mask_nth in Hj1 by (eapply nth_error_Some_lt; eauto). injection Hj1 as Hj1.
        pose proof (nth_error_In _ _ Hj2) as Hx. apply H3; [|eapply (cc_out _ _ _ C); eauto].
        pose proof (wf_out _ _ W) as Hw. rewrite Forall_forall in Ho, Hw. specialize (Ho x Hx). specialize (Hw x Hx). unfold inb in Ho. lia. }
      assert (Hk2 : forall k, In k (constraints c) -> vmap vm (c_var k) <> 0).
      { intros k Hx. apply H3; [|apply (cc_con _ _ _ C); auto].
        pose proof (wf_con _ _ W) as Hw. rewrite Forall_forall in Hk, Hw. specialize (Hk k Hx). specialize (Hw k Hx). unfold inb in Hk. cbn in Hw. lia. }
      split; [|split; [|split]].
      - apply Forall_forall. intros k' Hx. apply in_map_iff in Hx. destruct Hx as [k [<- Hx]]. rewrite (l_con_repl I L). unfold inb. specialize (H2 (c_var k)). lia.
      - apply Forall_forall. intros y Hx. apply in_map_iff in Hx. destruct Hx as [x [<- Hx]]. unfold inb. specialize (H2 x). lia.
      - rewrite map_map, keep_map. apply map_ext_in. intros x Hx. apply Hv. auto.
      - clear -L Hv Hk2. induction (constraints c) as [|k l IH]; cbn [map forallb]; auto. rewrite IH by (intros; apply Hk2; right; auto).
        rewrite (l_con_verify I L), (l_con_repl I L), Hv; auto. apply Hk2; left; auto.
    Qed.

    Lemma run_fwd E rank : ranked I cs rank -> forall id, used id -> fwd E id.
    Proof.
      intros R. apply (rank_ind rank (fun id => used id -> fwd E id)). intros id IH Hu c ins outs b Hc Hl Hr.
      apply run_iff in Hr. destruct Hr as [c' [vf [b0 [Hc' [Hx [Hk [Ho [-> ->]]]]]]]]. rewrite Hc in Hc'. injection Hc' as <-.
      pose proof (Hcs' _ _ Hu Hc) as Hn. unfold rb_circuit in Hn. destruct (rb_insns I vis id 0 _ _ _) as [is' vm] eqn:Er.
      destruct (exec_fwd E rank R id c Hu Hc ltac:(intros; apply IH; auto) _ _ _ _ _ _ _ _ _ (inv_init id c ins Hu Hc Hl) Hx _ _ Er) as [vf' [mxf [Hx' [HRs [HRv Hlf]]]]].
      destruct (finish id c vm vf vf' mxf Hu Hc HRs HRv Hlf Hk Ho) as [G1 [G2 [G3 G4]]].
      apply run_iff. eexists _, vf', b0. split; [exact Hn|]. cbn [instructions constraints outputs]. rewrite G3, G4. auto 8.
    Qed.
    Lemma run_bwd E rank : ranked I cs rank -> total I E cs -> forall id, used id -> bwd E id.
    Proof.
      intros R T. apply (rank_ind rank (fun id => used id -> bwd E id)). intros id IH Hu c ins outs' b Hc Hl Hr.
      pose proof (Hcs' _ _ Hu Hc) as Hn. unfold rb_circuit in Hn. destruct (rb_insns I vis id 0 _ _ _) as [is' vm] eqn:Er.
      apply run_iff in Hr. destruct Hr as [c' [vf' [b0 [Hc' [Hx [Hk [Ho [-> ->]]]]]]]]. rewrite Hn in Hc'. injection Hc' as <-.
      cbn [instructions constraints outputs] in *.
      destruct (exec_bwd E rank R id c Hu Hc T ltac:(intros; apply IH; auto) _ _ _ _ _ _ _ _ _ (inv_init id c ins Hu Hc Hl) _ _ Er Hx) as [vf [mxf [Hx' [HRs [HRv Hlf]]]]].
      pose proof (exec_len I L _ _ _ _ _ _ (wf_calls _ _ Hwf _ _ Hc) Hx') as Hlen. cbn [length] in Hlen.
      pose proof (wf_each _ _ Hwf _ _ Hc) as W.
      assert (Hk2 : Forall (fun k => inb vf (c_var k)) (constraints c)). { eapply Forall_impl; [|apply W]. unfold inb; cbn; intros; lia. }
      assert (Ho2 : Forall (inb vf) (outputs c)). { eapply Forall_impl; [|apply W]. unfold inb; cbn; intros; lia. }
      destruct (finish id c vm vf vf' mxf Hu Hc HRs HRv Hlf Hk2 Ho2) as [G1 [G2 [G3 G4]]].
      eexists. split; [|exact G3]. apply run_iff. exists c, vf, b0. rewrite G4. auto 8.
    Qed.
  End Fixed.
End Proofs.

Lemma mask_mapping_length EMPTY m : forall cur, length (mask_mapping EMPTY m cur) = length m.
Proof. induction m as [|[] m IH]; intros; cbn; auto. Qed.
Lemma mask_loop {T} EMPTY (d : T) m : forall pre ins, length ins = length m -> length pre + ntrue m <= EMPTY ->
  map_inputs_loop EMPTY (mask_mapping EMPTY m (length pre)) ins (pre ++ repeat d (ntrue m)) = Some (pre ++ keep m ins).
Proof.
  induction m as [|[] m IH]; intros pre [|x ins] Hl He; cbn [mask_mapping map_inputs_loop keep length] in *; try discriminate.
  - cbn. auto.
  - change (ntrue (true :: m)) with (S (ntrue m)) in *. destruct (Nat.eqb_spec (length pre) EMPTY); [lia|].
    unfold vset. cbn [repeat]. rewrite app_length; cbn [length].
    destruct (Nat.ltb_spec (length pre) (length pre + S (length (repeat d (ntrue m))))); [|lia]. cbn [obind].
    assert (Hu : upd (pre ++ d :: repeat d (ntrue m)) (length pre) x = (pre ++ [x]) ++ repeat d (ntrue m)).
    { rewrite <- app_assoc. cbn. clear. induction pre as [|y pre IH]; cbn; auto. f_equal; auto. }
    rewrite Hu. specialize (IH (pre ++ [x]) ins ltac:(lia)). rewrite app_length in IH; cbn [length] in IH.
    rewrite Nat.add_1_r in IH. rewrite IH by lia. rewrite <- app_assoc; auto.
  - rewrite Nat.eqb_refl. apply IH; auto.
Qed.
Lemma mask_map_inputs {T} EMPTY (d : T) m ins : length ins = length m -> ntrue m <= EMPTY ->
  map_inputs EMPTY d {| next_size := ntrue m; mapping := mask_mapping EMPTY m 0 |} ins = Some (keep m ins).
Proof.
  intros Hl He. unfold map_inputs. cbn [mapping next_size]. rewrite mask_mapping_length, Hl, Nat.eqb_refl. apply (mask_loop EMPTY d m []); auto.
Qed.

Section Top.
  Context {F : Fld} (I : IRC F) (L : IRC_laws I).
  Notation Circuit := (Circuit I). Notation RootCircuit := (RootCircuit I).

  Lemma mark_used_incl cs order : forall used, incl used (mark_used I cs order used).
  Proof.
    induction order as [|id order IH]; intros used x Hx; cbn [mark_used]; auto. apply IH.
    destruct (memb id used); auto. destruct (lookup id cs); auto. apply in_or_app; auto.
  Qed.
  Lemma mark_used_src cs order : forall used x, In x (mark_used I cs order used) ->
    In x used \/ exists y c, In y order /\ lookup y cs = Some c /\ In x (calls c).
  Proof.
    induction order as [|id order IH]; intros used x Hx; cbn [mark_used] in Hx; auto.
    apply IH in Hx. destruct Hx as [Hx|[y [c [H1 H2]]]].
    - destruct (memb id used); auto. destruct (lookup id cs) as [c|] eqn:E; auto. apply in_app_or in Hx. destruct Hx as [Hx|Hx]; auto.
      right. exists id, c. split; [left|]; auto.
    - right. exists y, c. split; [right|]; auto.
  Qed.
  Lemma mark_used_rank cs rank r : ranked I cs rank -> forall order used x, In x (mark_used I cs order used) -> (forall y, In y used -> rank y <= r)%nat -> (rank x <= r)%nat.
  Proof.
    intros R. induction order as [|id order IH]; intros used x Hx Hu; cbn [mark_used] in Hx; [auto|]. eapply IH; [exact Hx|].
    intros y Hy. destruct (memb id used) eqn:Em; [|auto]. destruct (lookup id cs) as [c|] eqn:Ec; [|auto]. apply in_app_or in Hy. destruct Hy as [Hy|Hy]; auto.
    specialize (R id c y Ec Hy). apply memb_spec in Em. specialize (Hu id Em). lia.
  Qed.
  Lemma mark_used_closed cs order : NoDup order ->
    (forall pre id post c o, order = pre ++ id :: post -> lookup id cs = Some c -> In o (calls c) -> In o post) ->
    forall used id c o, In id order -> In id (mark_used I cs order used) -> lookup id cs = Some c -> In o (calls c) ->
      In o (mark_used I cs order used).
  Proof.
    induction order as [|id0 order IH]; intros Hnd Hord used id c o Hin Hu Hc Ho; [destruct Hin|]. cbn [mark_used] in *.
    inversion Hnd as [|? ? Hn Hnd2]; subst. destruct Hin as [->|Hin].
    - apply mark_used_incl. assert (Hidu : In id used).
      { apply mark_used_src in Hu. destruct Hu as [Hu|[y [c' [H1 [H2 H3]]]]].
        - destruct (memb id used) eqn:E; [apply memb_spec; auto|auto].
        - exfalso. apply in_split in H1. destruct H1 as [l1 [l2 ->]]. apply Hn.
          apply in_or_app; right; right. eapply (Hord (id :: l1) y l2); eauto. }
      apply memb_spec in Hidu. rewrite Hidu, Hc. apply in_or_app; auto.
    - eapply IH; eauto. intros pre id1 post c1 o1 -> H1 H2. eapply (Hord (id0 :: pre)); eauto. reflexivity.
  Qed.

  Lemma rules_sym id k is : forall cur a r t, In (a, Some r, t) (insn_rules I id k is cur) -> In (r, Some a, t) (insn_rules I id k is cur).
  Proof.
    revert k. induction is as [|i is IH]; intros k cur a r t H; cbn [insn_rules] in *; auto.
    apply in_app_or in H. apply in_or_app. destruct H as [H|H]; [left|right; apply IH; auto].
    destruct (i_call i) as [[[sub l] n]|].
    - apply in_app_or in H. destruct H as [H|H].
      { apply in_flat_map in H. destruct H as [j [_ [H|[H|[]]]]]; discriminate. }
      apply in_app_or in H. destruct H as [H|H]; [|destruct H as [H|[H|[]]]; discriminate].
      apply in_or_app; right. apply in_or_app; left. apply in_flat_map in H. destruct H as [p [Hp H]]. apply in_flat_map. exists p. split; auto.
      destruct H as [H|[H|[]]]; injection H as <- <- <-; [right; left|left]; auto.
    - apply in_app_or in H. destruct H as [H|H]; apply in_map_iff in H; destruct H as [? [? _]]; discriminate.
  Qed.

  Theorem remove_unreachable_spec EMPTY rc : wf_root I rc -> exists rc' im,
    remove_unreachable I EMPTY rc = Some (rc', im) /\ wf_root I rc' /\
    num_public_inputs rc' = num_public_inputs rc /\ expected_num_output_zeroes rc' = expected_num_output_zeroes rc /\
    (incl (keys (circuits rc')) (keys (circuits rc)) /\ forall id c', lookup id (circuits rc') = Some c' -> ~ In 0%nat (calls c')) /\
    forall c0, lookup 0 (circuits rc) = Some c0 ->
      (exists c0', lookup 0 (circuits rc') = Some c0' /\ num_inputs c0' = next_size im /\ length (outputs c0') = length (outputs c0)) /\
      cur_size im = num_inputs c0 /\ (next_size im <= num_inputs c0)%nat /\
      (exists mask, length mask = num_inputs c0 /\ mapping im = mask_mapping EMPTY mask 0 /\ next_size im = ntrue mask) /\
      forall (ins : list F), length ins = num_inputs c0 -> (num_inputs c0 <= EMPTY)%nat ->
        exists ins', map_inputs EMPTY f0 im ins = Some ins' /\
          forall E outs b, (root_run I E rc ins outs b -> root_run I E rc' ins' outs b) /\
                           (total I E (circuits rc) -> root_run I E rc' ins' outs b -> root_run I E rc ins outs b).
  Proof.
    intros [W [rank R] [c0 [Hc0 Hz]]]. pose proof (wf_keys _ _ W) as Hk.
    destruct (root_order_spec I rc W (ex_intro _ rank R)) as [q [Hq [Hnd [Hqk Hord]]]].
    unfold remove_unreachable. rewrite Hq. cbn [obind]. set (cs := circuits rc) in *. pose proof R as R0.
    set (usedl := mark_used I cs q [0%nat]).
    set (uq := filter (fun x => memb x usedl) q).
    assert (Huq : forall x, In x uq <-> In x q /\ In x usedl). { intros x. unfold uq. rewrite filter_In, memb_spec. tauto. }
    assert (Hom : exists ucs, omap (fun id => let* c := lookup id cs in Some (id, c)) uq = Some ucs /\ keys ucs = uq /\
                  forall id c, In (id, c) ucs <-> In id uq /\ lookup id cs = Some c).
    { assert (Hin : forall x, In x uq -> In x (keys cs)) by (intros x Hx; apply Hqk; apply Huq in Hx; tauto).
      clear -Hin. induction uq as [|x l IH]; cbn [omap keys map].
      - exists []. split; auto. split; auto. intros; cbn; tauto.
      - destruct (proj1 (lookup_keys x cs) (Hin x (or_introl eq_refl))) as [c Hc]. rewrite Hc. cbn [obind].
        destruct IH as [ucs [H1 [H2 H3]]]; [intros; apply Hin; right; auto|]. rewrite H1. exists ((x, c) :: ucs).
        split; auto. split; [cbn; f_equal; auto|]. intros id c'. cbn [In]. rewrite H3. split.
        + intros [H|H]; [injection H as <- <-; auto|tauto].
        + intros [[<-|H] H']; [left; congruence|right; auto]. }
    destruct Hom as [ucs [Hom [Hkeys Hucs]]]. rewrite Hom. cbn [obind]. rewrite Hc0. cbn [obind].
    set (rules := flat_map _ ucs). set (seeds := _ ++ _).
    assert (Hsym : forall a r t, In (a, Some r, t) rules -> In (r, Some a, t) rules).
    { intros a r t H. unfold rules in *. apply in_flat_map in H. destruct H as [p [Hp H]]. apply in_flat_map. exists p; split; auto.
      unfold circuit_rules in *. apply in_app_or in H. apply in_or_app. destruct H as [H|H]; [left; apply rules_sym; auto|].
      apply in_map_iff in H. destruct H as [? [? _]]; discriminate. }
    destruct (mark_spec rules Hsym seeds) as [V [HV1 [HV2 [HV3 _]]]]. rewrite HV1. cbn [obind].
    set (vis := visb V). set (cs' := map _ (rev ucs)).
    set (used := fun id => In id uq).
    assert (Hcl : forall id c, used id -> lookup id cs = Some c -> closed_circuit I vis id c).
    { intros id c Hu Hc. assert (Hin : In (id, c) ucs) by (apply Hucs; auto). eapply closed_circuit_of; eauto.
      - intros r Hr. unfold rules. apply in_flat_map. exists (id, c); auto.
      - intros e He. apply HV2. unfold seeds. apply in_or_app; left. apply in_flat_map. exists (id, c); auto. }
    assert (Hus : forall id c o, used id -> lookup id cs = Some c -> In o (calls c) -> used o).
    { intros id c o Hu Hc Ho. apply Huq in Hu. apply Huq. split.
      - apply Hqk. eapply wf_incl; eauto.
      - eapply mark_used_closed; eauto; tauto. }
    assert (Hnd2 : NoDup (keys (rev ucs))).
    { unfold keys. rewrite map_rev. apply NoDup_rev. fold (keys ucs). rewrite Hkeys. apply NoDup_filter; auto. }
    assert (Hcs' : forall id, lookup id cs' = option_map (rb_circuit I vis id) (lookup id (rev ucs))).
    { intros id. unfold cs'. apply (lookup_map (rb_circuit I vis)). }
    assert (Hlk : forall id c, lookup id (rev ucs) = Some c <-> used id /\ lookup id cs = Some c).
    { intros id c. split.
      - intros H. apply lookup_In in H. apply in_rev in H. apply Hucs; auto.
      - intros H. apply In_lookup; auto. apply -> in_rev. apply Hucs; auto. }
    assert (Hcs2 : forall id c, used id -> lookup id cs = Some c -> lookup id cs' = Some (rb_circuit I vis id c)).
    { intros id c H1 H2. rewrite Hcs'. rewrite (proj2 (Hlk id c)) by auto. auto. }
    assert (Hcs3 : forall id c', lookup id cs' = Some c' -> exists c, used id /\ lookup id cs = Some c /\ c' = rb_circuit I vis id c).
    { intros id c' H. rewrite Hcs' in H. destruct (lookup id (rev ucs)) as [c|] eqn:E; [|discriminate]. injection H as <-.
      apply Hlk in E. exists c; tauto. }
    assert (Hu0 : used 0%nat).
    { apply Huq. split. apply Hqk. apply lookup_keys; eauto. apply mark_used_incl. left; auto. }
    assert (Hout0 : out_mask vis 0 (length (outputs c0)) = repeat true (length (outputs c0))).
    { unfold out_mask. rewrite <- (seq_length (length (outputs c0)) 0) at 2. assert (Hall : forall j, In j (seq 0 (length (outputs c0))) -> vis (0%nat, j, TOut) = true).
      { intros j Hj. apply visb_spec, HV2. unfold seeds. apply in_or_app; right. apply in_map_iff; eauto. }
      revert Hall. clear. induction (seq 0 (length (outputs c0))) as [|j l IH]; intros H; cbn; auto.
      rewrite H by (left; auto). f_equal. apply IH. intros; apply H; right; auto. }
    pose proof (rb_num_inputs I vis 0 c0) as Hni. pose proof (rb_outputs_length I vis 0 c0) as Hno.
    rewrite Hout0, ntrue_repeat in Hno.
    set (m0 := in_mask vis 0 (num_inputs c0)) in *.
    assert (Hm0 : length m0 = num_inputs c0) by apply in_mask_length.
    eexists _, _. split; [reflexivity|]. cbn [circuits num_public_inputs expected_num_output_zeroes].
    assert (Hkey' : keys cs' = keys (rev ucs)). { unfold cs', keys. rewrite map_map. apply map_ext; auto. }
    split; [|split; [auto|split; [auto|split]]].
    - split; cbn [circuits expected_num_output_zeroes].
      + split.
        * rewrite Hkey'; auto.
        * intros id c' H. apply Hcs3 in H. destruct H as [c [H1 [H2 ->]]]. apply (rb_wf I L vis cs cs' used W Hcl Hus Hcs2 id c H1 H2).
        * intros id c' H. apply Hcs3 in H. destruct H as [c [H1 [H2 ->]]]. apply (rb_wf I L vis cs cs' used W Hcl Hus Hcs2 id c H1 H2).
      + exists rank. intros id c' o H Ho. apply Hcs3 in H. destruct H as [c [H1 [H2 ->]]].
        apply (R id c); auto. apply (rb_wf I L vis cs cs' used W Hcl Hus Hcs2 id c H1 H2); auto.
      + exists (rb_circuit I vis 0 c0). split; [apply Hcs2; auto|]. rewrite Hno; auto.
    - split; [|intros id c' H Ho; apply Hcs3 in H; destruct H as [c [H1 [H2 ->]]];
        assert (Hin : In 0%nat (calls c)) by (apply (rb_wf I L vis cs cs' used W Hcl Hus Hcs2 id c H1 H2); auto);
        specialize (R id c 0%nat H2 Hin); apply Huq in H1; destruct H1 as [_ H1]; apply (mark_used_rank cs rank (rank 0%nat) R0) in H1; [lia|intros x [<-|[]]; lia]].
      rewrite Hkey'. intros x Hx. unfold keys in Hx. rewrite map_rev in Hx. apply in_rev in Hx. fold (keys ucs) in Hx. rewrite Hkeys in Hx.
      apply Hqk. apply Huq in Hx. tauto.
    - intros c0' Hc0'. fold cs in Hc0'. assert (c0' = c0) as -> by congruence. cbn [next_size mapping cur_size].
      split; [exists (rb_circuit I vis 0 c0); split; [apply Hcs2; auto|]; split; [rewrite Hni|rewrite Hno]; auto|].
      split; [unfold cur_size; cbn [mapping]; rewrite mask_mapping_length; auto|].
      split; [pose proof (ntrue_le m0); lia|].
      split; [exists m0; auto|].
      intros ins Hl HE. exists (keep m0 ins). split.
      + apply mask_map_inputs. congruence. pose proof (ntrue_le m0); lia.
      + intros E outs b. unfold root_run. cbn [circuits expected_num_output_zeroes]. fold cs. split.
        * intros [c [all [b0 [H1 [H2 [H3 [H4 [-> ->]]]]]]]]. rewrite Hc0 in H1; injection H1 as <-.
          exists (rb_circuit I vis 0 c0), all, b0. split; [apply Hcs2; auto|].
          split; [rewrite keep_length; congruence|].
          pose proof (run_fwd I L vis cs cs' used W Hcl Hus Hcs2 E rank R 0 Hu0 c0 ins all b0 Hc0 Hl H3) as Hr.
          rewrite Hout0, keep_repeat in Hr; auto. rewrite (run_len I _ _ _ _ _ _ _ H3 Hc0); auto.
        * intros T [c [all [b0 [H1 [H2 [H3 [H4 [-> ->]]]]]]]].
          pose proof (run_bwd I L vis cs cs' used W Hcl Hus Hcs2 E rank R T 0 Hu0 c0 ins all b0 Hc0 Hl H3) as Hr.
          destruct Hr as [all2 [Hr ->]]. rewrite Hout0, keep_repeat in * by (apply (run_len I _ _ _ _ _ _ _ Hr Hc0)).
          exists c0, all2, b0. auto 10.
  Qed.
End Top.
