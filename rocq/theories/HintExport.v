(* Model of RootCircuit::remove_and_export_hints and add_back_removed_inputs,
   circuit/ir/hint_normalized/mod.rs:246-467. *)
From Verif Require Import Prelude Field InputMapping Expr Topo Hints Ir IrFacts IrInst Sim RevPass RemoveUnreachable ReassignDup VarMap.

Lemma app_inj_len {A} (a b c d : list A) : a ++ b = c ++ d -> length a = length c -> a = c /\ b = d.
Proof.
  revert c; induction a as [|x a IH]; intros [|y c] H Hl; cbn in *; try discriminate; auto.
  injection H as -> H. destruct (IH _ H ltac:(lia)) as [-> ->]. auto.
Qed.
Section HE.
  Context {F : Fld}.
  Notation HC := (Circuit (HnI F)). Notation LC := (Circuit (HlI F)).
  Notation HR := (RootCircuit (HnI F)). Notation LR := (RootCircuit (HlI F)).

  (* mod.rs:246-266: (hints in calls, hints of its own) *)
  Fixpoint hs_insns (m : nat -> option (nat * nat)) (is : list (HInsn F)) : option (nat * nat) :=
    match is with
    | [] => Some (0, 0)
    | i :: is =>
        let* r := hs_insns m is in
        match i with
        | HHint _ _ n => Some (fst r, n + snd r)
        | HCall id _ _ => let* p := m id in Some (fst p + fst r, snd r)
        | _ => Some r
        end
    end.
  Definition hint_sizes1 (m : nat -> option (nat * nat)) (id : nat) (c : HC) : option (unit * (nat * nat)) :=
    let* r := hs_insns m (instructions c) in Some (tt, (fst r + snd r, snd r)).
  (* mod.rs:412-419 *)
  Definition hint_sizes (rc : HR) : option (nat -> option (nat * nat)) :=
    let* q := root_order _ rc in
    let* acc := rev_pass _ hint_sizes1 (circuits rc) (rev q) [] in
    Some (summary acc).

  (* mod.rs:268-342.  The code first assigns the new variables of all hint outputs in a separate loop (own counts them);
     the result is the same because a variable is only read after its definition. *)
  Definition h2l (f : nat -> nat) (i : HInsn F) : option (LInsn F) :=
    match i with
    | HConst c => Some (LConst c) | HLin l => Some (LLin (lc_replace f l)) | HMul l => Some (LMul (map f l))
    | HGate g l => Some (LGate g (map f l)) | HCall id l n => Some (LCall id (map f l) n) | HHint _ _ _ => None
    end.
  Fixpoint rh_insns (sz : nat -> option (nat * nat)) (is : list (HInsn F)) (vm : list nat) (own sub new : nat)
      : option (list (LInsn F) * list nat * nat) :=
    match is with
    | [] => Some ([], vm, sub)
    | i :: is =>
        match h2l (vmap vm) i with
        | None => rh_insns sz is (vm ++ seq (S own) (h_nout F i)) (own + h_nout F i) sub new
        | Some j =>
            let* p := match j with LCall id l n => let* p := sz id in Some (LCall id (l ++ seq (S sub) (fst p)) n, fst p) | _ => Some (j, 0) end in
            let* r := rh_insns sz is (vm ++ seq (S new) (h_nout F i)) own (sub + snd p) (new + h_nout F i) in
            let '(is', vm', s) := r in Some (fst p :: is', vm', s)
        end
    end.
  Definition remove_hints (sz : nat -> option (nat * nat)) (id : nat) (c : HC) : option LC :=
    let* p := sz id in
    let '(tot, self) := p in
    let n := num_inputs c in
    let* r := rh_insns sz (instructions c) (seq 0 (S n)) n (n + self) (n + self + (tot - self)) in
    let '(is', vm, s) := r in
    if s =? n + self + (tot - self) then
      Some {| instructions := is' : list (Insn (HlI F)); constraints := map (vmap vm) (constraints c) : list (Con (HlI F));
              outputs := map (vmap vm) (outputs c); num_inputs := n + tot |}
    else None.

  (* mod.rs:344-407 *)
  Definition ex_call (sz : nat -> option (nat * nat)) (j : HInsn F) : option (HInsn F) :=
    match j with HCall id l n => let* p := sz id in Some (HCall id l (n + fst p)) | j => Some j end.
  Fixpoint ex_insns (sz : nat -> option (nat * nat)) (is : list (HInsn F)) (vm : list nat) (new : nat) (own sub : list nat)
      : option (list (HInsn F) * list nat * list nat * list nat) :=
    match is with
    | [] => Some ([], vm, own, sub)
    | i :: is =>
        let n := h_nout F i in
        let vm' := vm ++ seq (S new) n in
        let* r := match i with
                  | HHint _ _ _ => ex_insns sz is vm' (new + n) (own ++ seq (S new) n) sub
                  | HCall id _ _ => let* p := sz id in ex_insns sz is vm' (new + n + fst p) own (sub ++ seq (S (new + n)) (fst p))
                  | _ => ex_insns sz is vm' (new + n) own sub
                  end in
        let '(is', vm2, own2, sub2) := r in
        let* j := ex_call sz (h_replace F (vmap vm') i) in
        Some (j :: is', vm2, own2, sub2)
    end.
  Definition export_hints (is_root : bool) (sz : nat -> option (nat * nat)) (c : HC) : option HC :=
    let n := num_inputs c in
    let* r := ex_insns sz (instructions c) (seq 0 (S n)) n [] [] in
    let '(is', vm, own, sub) := r in
    Some {| instructions := is' : list (Insn (HnI F)); constraints := (if is_root then [1] else []) : list (Con (HnI F));
            outputs := (if is_root then seq 1 n else map (vmap vm) (outputs c)) ++ own ++ sub; num_inputs := n |}.

  (* mod.rs:411-448 *)
  Definition remove_and_export_hints (rc : HR) : option (LR * HR) :=
    let* sz := hint_sizes rc in
    let* removed := omap (fun p => let* c := remove_hints sz (fst p) (snd p) in Some (fst p, c)) (circuits rc) in
    let* exported := omap (fun p => let* c := export_hints (fst p =? 0) sz (snd p) in Some (fst p, c)) (circuits rc) in
    Some ({| num_public_inputs := num_public_inputs rc; expected_num_output_zeroes := expected_num_output_zeroes rc; circuits := removed |},
          {| num_public_inputs := num_public_inputs rc; expected_num_output_zeroes := 0; circuits := exported |}).

  (* ------------------------------------------------------------ runs with a record of the hint values *)
  Definition tstep (R : nat -> list F -> list F -> bool -> list F -> Prop) (E : Env F) (i : HInsn F) (vals outs : list F) (b : bool) (own sub : list F) : Prop :=
    Forall (inb vals) (h_inputs F i) /\
    match i with
    | HCall id l _ => R id (map (getv vals) l) outs b sub /\ own = []
    | HHint h l n => hint_sem F E h n (map (getv vals) l) outs /\ b = true /\ own = outs /\ sub = []
    | _ => h_sem F E i (getv vals) outs /\ b = true /\ own = [] /\ sub = []
    end.
  Inductive texec (R : nat -> list F -> list F -> bool -> list F -> Prop) (E : Env F) : list (HInsn F) -> list F -> list F -> bool -> list F -> list F -> Prop :=
  | TNil vals : texec R E [] vals vals true [] []
  | TSem i is vals outs vals' b o s : Forall (inb vals) (h_inputs F i) -> h_call F i = None -> (forall h l n, i <> HHint h l n) ->
      h_sem F E i (getv vals) outs -> texec R E is (vals ++ outs) vals' b o s -> texec R E (i :: is) vals vals' b o s
  | THint h l n is vals outs vals' b o s : Forall (inb vals) l -> hint_sem F E h n (map (getv vals) l) outs ->
      texec R E is (vals ++ outs) vals' b o s -> texec R E (HHint h l n :: is) vals vals' b (outs ++ o) s
  | TCall id l n is vals outs b1 s1 vals' b o s : Forall (inb vals) l -> R id (map (getv vals) l) outs b1 s1 ->
      texec R E is (vals ++ outs) vals' b o s -> texec R E (HCall id l n :: is) vals vals' (b1 && b) o (s1 ++ s).
  Inductive trun (E : Env F) (cs : list (nat * HC)) : nat -> list F -> list F -> bool -> list F -> Prop :=
  | TRun id c ins vals b own sub : lookup id cs = Some c -> texec (trun E cs) E (instructions c) (f0 :: ins) vals b own sub ->
      Forall (inb vals) (constraints c) -> Forall (inb vals) (outputs c) ->
      trun E cs id ins (map (getv vals) (outputs c)) (b && forallb (fun k => is0 F (getv vals k)) (constraints c)) (own ++ sub).

  Lemma texec_cons R E i is vals vals' b own sub : texec R E (i :: is) vals vals' b own sub <->
    exists outs b1 b2 o1 o2 s1 s2, tstep R E i vals outs b1 o1 s1 /\ texec R E is (vals ++ outs) vals' b2 o2 s2 /\
      b = b1 && b2 /\ own = o1 ++ o2 /\ sub = s1 ++ s2.
  Proof.
    split.
    - intros H. inversion H; subst.
      + exists outs, true, b, [], own, [], sub. split; [|auto]. unfold tstep. destruct i; cbn in *; try discriminate; auto. exfalso. match goal with H : forall h l n, HHint _ _ _ <> _ |- _ => eapply H; reflexivity end.
      + exists outs, true, b, outs, o, [], sub. split; [|auto]. unfold tstep. auto.
      + exists outs, b1, b0, [], own, s1, s. split; [|auto]. unfold tstep. auto.
    - intros [outs [b1 [b2 [o1 [o2 [s1 [s2 [[H1 H2] [H3 [-> [-> ->]]]]]]]]]]].
      destruct i; try (destruct H2 as [H2 [-> [-> ->]]]; eapply TSem; eauto; congruence).
      + destruct H2 as [H2 [-> [-> ->]]]. eapply THint; eauto.
      + destruct H2 as [H2 ->]. cbn [app]. eapply TCall; eauto.
  Qed.
  Lemma texec_nil R E vals vals' b own sub : texec R E [] vals vals' b own sub <-> vals' = vals /\ b = true /\ own = [] /\ sub = [].
  Proof. split; [intros H; inversion H; auto|intros [-> [-> [-> ->]]]; constructor]. Qed.
  Lemma trun_iff E cs id ins outs b hv : trun E cs id ins outs b hv <->
    exists c vals b0 own sub, lookup id cs = Some c /\ texec (trun E cs) E (instructions c) (f0 :: ins) vals b0 own sub /\
        Forall (inb vals) (constraints c) /\ Forall (inb vals) (outputs c) /\ outs = map (getv vals) (outputs c) /\ hv = own ++ sub /\
        b = b0 && forallb (fun k => is0 F (getv vals k)) (constraints c).
  Proof.
    split.
    - intros H. inversion H; subst. eexists _, _, _, _, _. eauto 10.
    - intros [c [vals [b0 [own [sub [H1 [H2 [H3 [H4 [-> [-> ->]]]]]]]]]]]. apply TRun; auto.
  Qed.

  (* the environment in which hints may answer anything *)
  Definition adv (E : Env F) : Env F := {| e_pub := e_pub E; e_gate := e_gate E; e_hint := fun _ _ _ _ => True; e_rnd := e_rnd E |}.
  (* randomness is fixed *)
  Definition one_rnd (E : Env F) : Prop := forall r r', e_rnd E r -> e_rnd E r' -> r = r'.

  Section Fixed.
    Variable cs : list (nat * HC).
    Hypothesis W : wf_circuits (HnI F) cs.
    Variable rank : nat -> nat.
    Hypothesis R : ranked (HnI F) cs rank.

    Lemma call_cases id c i sub l n : lookup id cs = Some c -> In i (instructions c) -> i = HCall sub l n ->
      rank sub < rank id /\ exists c', lookup sub cs = Some c' /\ length l = num_inputs c' /\ n = length (outputs c').
    Proof.
      intros Hc Hi ->. split. eapply R; eauto. eapply in_calls; eauto. reflexivity.
      pose proof (wf_calls _ _ W _ _ Hc) as H. rewrite Forall_forall in H. apply (H _ Hi). reflexivity.
    Qed.

    (* A: a run is a recorded run *)
    Lemma run_trun E : forall id ins outs b, run (HnI F) E cs id ins outs b <-> exists hv, trun E cs id ins outs b hv.
    Proof.
      apply (rank_ind rank (fun id => forall ins outs b, run (HnI F) E cs id ins outs b <-> exists hv, trun E cs id ins outs b hv)).
      intros id IH ins outs b.
      assert (Hx : forall c, lookup id cs = Some c -> forall is vals vals' b, incl is (instructions c) ->
        (exec (HnI F) E cs is vals vals' b <-> exists own sub, texec (trun E cs) E is vals vals' b own sub)).
      { intros c Hc. induction is as [|i is IHi]; intros vals vals' b0 Hin.
        - rewrite exec_nil. split. intros [-> ->]. exists [], []. constructor. intros [o [s H]]. apply texec_nil in H. tauto.
        - rewrite exec_cons. assert (Hin2 : incl is (instructions c)) by (intros x Hx; apply Hin; right; auto).
          assert (Hst : forall outs b1, step (HnI F) E cs i vals outs b1 <-> exists o s, tstep (trun E cs) E i vals outs b1 o s).
          { intros outs1 b1. unfold step, tstep. destruct i; cbn [i_call HnI h_call i_inputs i_sem h_inputs h_sem];
              try (split; [intros [H1 [H2 ->]]; eexists _, _; eauto|intros [o [s [H1 [H2 [-> _]]]]]; auto]; fail).
            destruct (call_cases id c _ id0 l n Hc (Hin _ (or_introl eq_refl)) eq_refl) as [Hr _].
            split.
            - intros [H1 H2]. apply (IH _ Hr) in H2. destruct H2 as [hv H2]. exists [], hv. auto.
            - intros [o [s [H1 [H2 _]]]]. split; auto. apply (IH _ Hr). eauto. }
          split.
          + intros [outs1 [b1 [b2 [H1 [H2 ->]]]]]. apply Hst in H1. destruct H1 as [o1 [s1 H1]]. apply IHi in H2; auto. destruct H2 as [o2 [s2 H2]].
            exists (o1 ++ o2), (s1 ++ s2). apply texec_cons. exists outs1, b1, b2, o1, o2, s1, s2. auto.
          + intros [o [s H]]. apply texec_cons in H. destruct H as [outs1 [b1 [b2 [o1 [o2 [s1 [s2 [H1 [H2 [-> _]]]]]]]]]].
            exists outs1, b1, b2. split; [apply Hst; eauto|]. split; auto. apply IHi; eauto. }
      rewrite run_iff. split.
      - intros [c [vals [b0 [H1 [H2 [H3 [H4 [-> ->]]]]]]]]. apply (Hx c H1) in H2; [|apply incl_refl]. destruct H2 as [own [sub H2]].
        exists (own ++ sub). apply trun_iff. exists c, vals, b0, own, sub. auto 10.
      - intros [hv H]. apply trun_iff in H. destruct H as [c [vals [b0 [own [sub [H1 [H2 [H3 [H4 [-> [-> ->]]]]]]]]]]].
        exists c, vals, b0. split; auto. split; [apply (Hx c H1); [apply incl_refl|eauto]|]. auto.
    Qed.

    (* B: the record of a circuit has the size computed for it *)
    Variable sz : nat -> option (nat * nat).
    Hypothesis Hsz : forall id c, lookup id cs = Some c -> exists r, hs_insns sz (instructions c) = Some r /\ sz id = Some (fst r + snd r, snd r).
    Lemma trun_size E : forall id c ins outs b hv, lookup id cs = Some c -> trun E cs id ins outs b hv ->
      forall t s, sz id = Some (t, s) -> length hv = t.
    Proof.
      apply (rank_ind rank (fun id => forall c ins outs b hv, lookup id cs = Some c -> trun E cs id ins outs b hv -> forall t s, sz id = Some (t, s) -> length hv = t)).
      intros id IH c ins outs b hv Hc H t s Hs. apply trun_iff in H. destruct H as [c1 [vals [b0 [own [sub [H1 [H2 [_ [_ [_ [-> _]]]]]]]]]]].
      rewrite Hc in H1. injection H1 as <-. destruct (Hsz id c Hc) as [r [Hr Hs2]]. rewrite Hs in Hs2. injection Hs2 as -> ->.
      assert (Hx : forall is, incl is (instructions c) -> forall r vals vf b o s, hs_insns sz is = Some r -> texec (trun E cs) E is vals vf b o s -> length o = snd r /\ length s = fst r).
      { clear -IH R W Hc Hsz. induction is as [|i is IHi]; intros Hin r vals vf b o s Hr H; cbn [hs_insns] in Hr.
        - injection Hr as <-. apply texec_nil in H. destruct H as [_ [_ [-> ->]]]. auto.
        - apply texec_cons in H. destruct H as [outs [b1 [b2 [o1 [o2 [s1 [s2 [[H1 H2] [H3 [-> [-> ->]]]]]]]]]]].
          apply obind_some in Hr. destruct Hr as [r1 [Hr1 Hr]]. rewrite !app_length.
          destruct (IHi (fun x Hx => Hin x (or_intror Hx)) _ _ _ _ _ _ Hr1 H3) as [L1 L2].
          destruct i; try (injection Hr as <-; destruct H2 as [_ [_ [-> ->]]]; cbn; lia).
          + injection Hr as <-. destruct H2 as [[H2 _] [_ [-> ->]]]. cbn [fst snd length]. lia.
          + destruct H2 as [H2 ->]. destruct (call_cases id c _ id0 l n Hc (Hin _ (or_introl eq_refl)) eq_refl) as [Hlt [c' [Hc' _]]].
            apply obind_some in Hr. destruct Hr as [p [Hp Hr]]. injection Hr as <-. cbn [fst snd length].
            rewrite (IH _ Hlt c' _ _ _ _ Hc' H2 (fst p) (snd p)); [lia|]. rewrite Hp. destruct p; auto. }
      destruct (Hx _ (incl_refl _) _ _ _ _ _ _ Hr H2) as [L1 L2]. rewrite app_length. lia.
    Qed.

    Lemma trun_size' E id c ins outs b hv p : lookup id cs = Some c -> sz id = Some p -> trun E cs id ins outs b hv -> length hv = fst p.
    Proof. intros Hc Hp H. apply (trun_size E id c ins outs b hv Hc H (fst p) (snd p)). rewrite Hp. destruct p; auto. Qed.

    (* C: removing hints = letting them answer anything *)
    Variable cs' : list (nat * LC).
    Hypothesis Hcs' : forall id c, lookup id cs = Some c -> exists c', remove_hints sz id c = Some c' /\ lookup id cs' = Some c'.
    Definition simC (E : Env F) (id : nat) : Prop := forall c t s ins outs b hv, lookup id cs = Some c -> sz id = Some (t, s) ->
      length ins = num_inputs c -> length hv = t -> (trun (adv E) cs id ins outs b hv <-> run (HlI F) E cs' id (ins ++ hv) outs b).

    Lemma h2l_step E vm vals vals' i j outs : rel vm vals vals' -> Forall (fun x => x < length vals) (h_inputs F i) -> h2l (vmap vm) i = Some j -> h_call F i = None ->
      l_callf F j = None /\ Forall (inb vals') (l_inputs F j) /\ l_nout F j = h_nout F i /\ (forall h l n, i <> HHint h l n) /\
      (h_sem F (adv E) i (getv vals) outs <-> l_sem F E j (getv vals') outs).
    Proof.
      intros Hr Hin Hj Hc. assert (Hb : forall x, In x (h_inputs F i) -> getv vals' (vmap vm x) = getv vals x).
      { intros x Hx. rewrite Forall_forall in Hin. apply rel_get; auto. }
      destruct i; cbn [h2l] in Hj; try discriminate; injection Hj as <-; cbn [l_callf l_inputs l_nout h_nout h_inputs h_sem l_sem] in *.
      - split; auto. split; [rewrite lc_replace_vars; apply rel_inb_l with (vals := vals); auto|]. split; auto. split; [congruence|].
        rewrite lc_eval_replace. rewrite (lc_eval_ext (fun x => getv vals' (vmap vm x)) (getv vals)); [tauto|]. auto.
      - split; auto. split; [apply rel_inb_l with (vals := vals); auto|]. split; auto. split; [congruence|].
        rewrite mul_eval_map. rewrite (mul_eval_ext (fun x => getv vals' (vmap vm x)) (getv vals)); [tauto|]. auto.
      - split; auto. split; auto. split; auto. split; [congruence|]. reflexivity.
      - split; auto. split; [apply rel_inb_l with (vals := vals); auto|]. split; auto. split; [congruence|].
        cbn [adv e_gate]. rewrite (rel_map vm vals vals'); auto. reflexivity.
    Qed.
    Lemma map_getv_app (vals o : list F) a n : a + n <= length vals -> map (getv (vals ++ o)) (seq a n) = map (getv vals) (seq a n).
    Proof. intros H. apply map_ext_in. intros x Hx. apply in_seq in Hx. apply getv_app_l. lia. Qed.

    Lemma rh_exec E id c : lookup id cs = Some c -> (forall o, rank o < rank id -> simC E o) ->
      forall is vm own sub new is' vm' s' r vals vals', incl is (instructions c) -> hs_insns sz is = Some r ->
        rh_insns sz is vm own sub new = Some (is', vm', s') -> rel vm vals vals' -> length vals' = S new -> vals <> [] ->
        own + snd r <= new -> sub + fst r <= new -> wf_insns (HnI F) is (length vals - 1) ->
        s' = sub + fst r /\
        forall b,
          (forall vf, texec (trun (adv E) cs) (adv E) is vals vf b (map (getv vals') (seq (S own) (snd r))) (map (getv vals') (seq (S sub) (fst r))) ->
             exists vf', exec (HlI F) E cs' is' vals' vf' b /\ rel vm' vf vf') /\
          (forall vf', exec (HlI F) E cs' is' vals' vf' b -> exists vf,
             texec (trun (adv E) cs) (adv E) is vals vf b (map (getv vals') (seq (S own) (snd r))) (map (getv vals') (seq (S sub) (fst r))) /\ rel vm' vf vf').
    Proof.
      intros Hc IHc. induction is as [|i is IH]; intros vm own sub new is' vm' s' r vals vals' Hin Hr Hrh Hrel Hl Hne Ho Hs Hw; cbn [hs_insns rh_insns] in Hr, Hrh.
      - injection Hr as <-. injection Hrh as <- <- <-. split; [cbn; lia|]. intros b. cbn [fst snd seq map]. split.
        + intros vf H. apply texec_nil in H. destruct H as [-> [-> _]]. exists vals'. split; auto. constructor.
        + intros vf' H. apply exec_nil in H. destruct H as [-> ->]. exists vals. split; auto. constructor.
      - destruct Hw as [Hi Hw]. cbn [i_inputs HnI] in Hi. cbn [i_nout HnI] in Hw.
        assert (Hlen : 0 < length vals) by (destruct vals; [contradiction|cbn; lia]).
        assert (Hi2 : Forall (fun x => x < length vals) (h_inputs F i)) by (eapply Forall_impl; [|exact Hi]; cbn; intros; lia).
        assert (Hin2 : incl is (instructions c)) by (intros x Hx; apply Hin; right; auto).
        apply obind_some in Hr. destruct Hr as [r1 [Hr1 Hr]].
        assert (Hne2 : forall outs, vals ++ outs <> []) by (intros outs; destruct vals; [contradiction|discriminate]).
        assert (Hw2 : forall outs, length outs = h_nout F i -> wf_insns (HnI F) is (length (vals ++ outs) - 1)).
        { intros outs Ho2. rewrite app_length, Ho2. replace (length vals + h_nout F i - 1) with (length vals - 1 + h_nout F i) by lia. auto. }
        assert (Hrel3 : forall outs, length outs = h_nout F i -> rel (vm ++ seq (S new) (h_nout F i)) (vals ++ outs) (vals' ++ outs)) by (intros outs <-; apply rel_seq; auto).
        assert (Hl3 : forall outs, length outs = h_nout F i -> length (vals' ++ outs) = S (new + h_nout F i)) by (intros outs Hon; rewrite app_length; lia).
        destruct (h2l (vmap vm) i) as [j|] eqn:Ej.
        + apply obind_some in Hrh. destruct Hrh as [[j2 k] [Hp Hrh]]. apply obind_some in Hrh. destruct Hrh as [[[is1 vm1] s1] [Hrh E2]].
          cbn [fst snd] in *. injection E2 as <- <- <-.
          destruct (h_call F i) as [[[sb l] n]|] eqn:Ec.
          * (* call *)
            destruct i; try discriminate. injection Ec as -> -> ->. cbn [h2l] in Ej. injection Ej as <-. cbn [h_nout] in *.
            apply obind_some in Hp. destruct Hp as [[t s] [Hp E2]]. injection E2 as <- <-. rewrite Hp in Hr. cbn [obind fst snd] in *. injection Hr as <-.
            cbn [fst snd] in *. destruct (call_cases id c _ sb l n Hc (Hin _ (or_introl eq_refl)) eq_refl) as [Hlt [c' [Hc' [Hll Hnn]]]].
            assert (Hcall : forall outs b, trun (adv E) cs sb (map (getv vals) l) outs b (map (getv vals') (seq (S sub) t)) <->
              run (HlI F) E cs' sb (map (getv vals') (map (vmap vm) l ++ seq (S sub) t)) outs b).
            { intros outs b. rewrite map_app, (rel_map vm vals vals') by auto. apply (IHc sb Hlt c' t s); auto; rewrite map_length; auto. rewrite seq_length; auto. }
            assert (Hol : forall outs b, trun (adv E) cs sb (map (getv vals) l) outs b (map (getv vals') (seq (S sub) t)) -> length outs = n).
            { intros outs b H. apply trun_iff in H. destruct H as [c2 [? [? [? [? [G1 [_ [_ [_ [-> _]]]]]]]]]]. rewrite map_length. congruence. }
            pose proof (fun outs Hon => IH _ own (sub + t) (new + n) is1 vm1 s1 r1 (vals ++ outs) (vals' ++ outs) Hin2 Hr1 Hrh (Hrel3 outs Hon) (Hl3 outs Hon) (Hne2 outs)
              ltac:(lia) ltac:(lia) (Hw2 outs Hon)) as Hrec.
            split. { destruct (Hrec (repeat f0 n) (repeat_length _ _)) as [-> _]. lia. }
            assert (Hseq : map (getv vals') (seq (S sub) (t + fst r1)) = map (getv vals') (seq (S sub) t) ++ map (getv vals') (seq (S (sub + t)) (fst r1))).
            { rewrite seq_app, map_app. auto. }
            intros b. split.
            -- intros vf H. apply texec_cons in H. destruct H as [outs [b1 [b2 [o1 [o2 [s2 [s3 [[H1 [H2 ->]] [H3 [-> [Eo Es]]]]]]]]]]]. cbn [app] in Eo.
               rewrite Hseq in Es. assert (Hls2 : length s2 = t) by (eapply (trun_size (adv E)); eauto).
               apply app_inj_len in Es; [|rewrite map_length, seq_length; auto]. destruct Es as [<- <-]. subst o2.
               pose proof (Hol _ _ H2) as Hon. destruct (Hrec outs Hon) as [_ Hb]. specialize (Hb b2). destruct Hb as [Hb _].
               rewrite !map_getv_app in Hb by lia. destruct (Hb _ H3) as [vf' [X1 X2]]. exists vf'. split; auto.
               apply exec_cons. exists outs, b1, b2. split; [|auto]. unfold step. cbn [i_call HlI l_callf]. split; [|apply Hcall; auto].
               apply Forall_app. split; [apply rel_inb_l with (vals := vals); auto|]. apply Forall_seq. intros; unfold inb; lia.
            -- intros vf' H. apply exec_cons in H. destruct H as [outs [b1 [b2 [H1 [H2 ->]]]]]. unfold step in H1. cbn [i_call HlI l_callf] in H1. destruct H1 as [_ H1].
               apply Hcall in H1. pose proof (Hol _ _ H1) as Hon. destruct (Hrec outs Hon) as [_ Hb]. specialize (Hb b2). destruct Hb as [_ Hb].
               destruct (Hb _ H2) as [vf [X1 X2]]. rewrite !map_getv_app in X1 by lia. exists vf. split; auto. rewrite Hseq.
               apply texec_cons. exists outs, b1, b2, [], (map (getv vals') (seq (S own) (snd r1))), (map (getv vals') (seq (S sub) t)), (map (getv vals') (seq (S (sub + t)) (fst r1))).
               split; [|auto]. unfold tstep. cbn [h_inputs]. auto.
          * (* an ordinary instruction *)
            assert (Hj2 : j2 = j /\ k = 0 /\ r = r1).
            { destruct i; cbn [h2l] in Ej; try discriminate; injection Ej as <-; injection Hp as <- <-; injection Hr as <-; auto. }
            destruct Hj2 as [-> [-> ->]]. rewrite Nat.add_0_r in Hrh.
            pose proof (fun outs => h2l_step E vm vals vals' i j outs Hrel Hi2 Ej Ec) as Hst.
            destruct (Hst []) as [Jc [Jin [Jn [Jh _]]]].
            pose proof (fun outs Hon => IH _ own sub (new + h_nout F i) is1 vm1 s1 r1 (vals ++ outs) (vals' ++ outs) Hin2 Hr1 Hrh (Hrel3 outs Hon) (Hl3 outs Hon) (Hne2 outs)
              ltac:(lia) ltac:(lia) (Hw2 outs Hon)) as Hrec.
            split. { destruct (Hrec (repeat f0 _) (repeat_length _ _)) as [-> _]. lia. }
            intros b. split.
            -- intros vf H. inversion H; subst; try discriminate; try congruence.
               assert (Hon : length outs = h_nout F i) by (eapply (l_sem_len _ (HnL F)); eauto).
               destruct (Hrec outs Hon) as [_ Hb]. specialize (Hb b). destruct Hb as [Hb _].
               rewrite !map_getv_app in Hb by lia. match goal with X : texec _ _ is _ _ _ _ _ |- _ => destruct (Hb _ X) as [vf' [X1 X2]] end. exists vf'. split; auto.
               apply exec_cons. exists outs, true, b. split; [|auto]. unfold step. cbn [i_call i_inputs i_sem HlI]. rewrite Jc. split; auto. split; auto. apply Hst; auto.
            -- intros vf' H. apply exec_cons in H. destruct H as [outs [b1 [b2 [H1 [H2 ->]]]]]. unfold step in H1. cbn [i_call i_inputs i_sem HlI] in H1. rewrite Jc in H1. destruct H1 as [_ [H1 ->]].
               apply Hst in H1. assert (Hon : length outs = h_nout F i) by (eapply (l_sem_len _ (HnL F)); eauto).
               destruct (Hrec outs Hon) as [_ Hb]. specialize (Hb b2). destruct Hb as [_ Hb]. destruct (Hb _ H2) as [vf [X1 X2]]. rewrite !map_getv_app in X1 by lia.
               exists vf. split; auto. eapply TSem; eauto.
        + (* hint *)
          destruct i; try discriminate. cbn [h_nout] in *. injection Hr as <-. cbn [fst snd] in *.
          assert (Hseq : map (getv vals') (seq (S own) (n + snd r1)) = map (getv vals') (seq (S own) n) ++ map (getv vals') (seq (S (own + n)) (snd r1))).
          { rewrite seq_app, map_app. auto. }
          set (outs := map (getv vals') (seq (S own) n)) in *. assert (Hon : length outs = n) by (unfold outs; rewrite map_length, seq_length; auto).
          assert (Hrel2 : rel (vm ++ seq (S own) n) (vals ++ outs) vals').
          { apply rel_app; auto; [rewrite seq_length; auto|]. intros k Hk. rewrite seq_nth by lia. split; [lia|]. unfold outs. rewrite nth_map_d by (rewrite seq_length; lia). rewrite seq_nth by lia. auto. }
          destruct (IH _ (own + n) sub new is' vm' s' r1 (vals ++ outs) vals' Hin2 Hr1 Hrh Hrel2 Hl (Hne2 _) ltac:(lia) ltac:(lia) (Hw2 _ Hon)) as [E1 Hb]. split; auto.
          intros b. specialize (Hb b). destruct Hb as [Hb1 Hb2]. rewrite Hseq. split.
          * intros vf H. apply texec_cons in H. destruct H as [outs1 [b1 [b2 [o1 [o2 [s2 [s3 [[H1 [[Hlo H2] [-> [-> ->]]]] [H3 [-> [Eo Es]]]]]]]]]]].
            cbn [app andb] in *. apply app_inj_len in Eo; [|congruence]. destruct Eo as [<- <-]. subst s3. auto.
          * intros vf' H. destruct (Hb2 _ H) as [vf [X1 X2]]. exists vf. split; auto. eapply THint; eauto. split; auto. exact I.
    Qed.

    Lemma rh_static is : forall cur vm own sub new r, wf_insns (HnI F) is cur -> length vm = S cur -> vpos vm new -> hs_insns sz is = Some r ->
      own + snd r <= new -> sub + fst r <= new ->
      exists is' vm' s', rh_insns sz is vm own sub new = Some (is', vm', s') /\ s' = sub + fst r /\ wf_insns (HlI F) is' new /\
        length vm' = S (cur + nouts (HnI F) is) /\ vpos vm' (new + nouts (HlI F) is') /\
        forall j o l n, In j is' -> l_callf F j = Some (o, l, n) -> exists l0 p, In (HCall o l0 n) is /\ sz o = Some p /\ length l = length l0 + fst p.
    Proof.
      induction is as [|i is IH]; intros cur vm own sub new r Hw Hl Hv Hr Ho Hs; cbn [hs_insns rh_insns] in *.
      - injection Hr as <-. exists [], vm, sub. cbn. rewrite !Nat.add_0_r. split; auto. split; auto. split; auto. split; auto. split; auto. intros ? ? ? ? [].
      - destruct Hw as [Hi Hw]. cbn [i_inputs i_nout HnI] in Hi, Hw. apply obind_some in Hr. destruct Hr as [r1 [Hr1 Hr]].
        assert (Hi2 : Forall (fun x => 0 < x < length vm) (h_inputs F i)) by (eapply Forall_impl; [|exact Hi]; cbn; intros; lia).
        cbn [nouts]. cbn [i_nout HnI].
        assert (Hpush : forall sub', sub' + fst r1 <= new -> own + snd r1 <= new -> exists is' vm' s', rh_insns sz is (vm ++ seq (S new) (h_nout F i)) own sub' (new + h_nout F i) = Some (is', vm', s') /\
          s' = sub' + fst r1 /\ wf_insns (HlI F) is' (new + h_nout F i) /\ length vm' = S (cur + h_nout F i + nouts (HnI F) is) /\ vpos vm' (new + h_nout F i + nouts (HlI F) is') /\
          forall j o l n, In j is' -> l_callf F j = Some (o, l, n) -> exists l0 p, In (HCall o l0 n) is /\ sz o = Some p /\ length l = length l0 + fst p).
        { intros sub' Hs' Ho'. apply IH; auto; try lia.
          - rewrite app_length, seq_length. lia.
          - eapply vpos_app; eauto; try lia. apply Forall_seq. intros; lia. }
        assert (Hord : forall j, h2l (vmap vm) i = Some j -> l_callf F j = None -> l_nout F j = h_nout F i -> incl (l_inputs F j) (map (vmap vm) (h_inputs F i)) -> r1 = r ->
          exists is' vm' s', (let* r := rh_insns sz is (vm ++ seq (S new) (h_nout F i)) own (sub + 0) (new + h_nout F i) in let '(is', vm', s) := r in Some (j :: is', vm', s)) = Some (is', vm', s') /\
          s' = sub + fst r /\ wf_insns (HlI F) is' new /\ length vm' = S (cur + (h_nout F i + nouts (HnI F) is)) /\ vpos vm' (new + nouts (HlI F) is') /\
          forall j o l n, In j is' -> l_callf F j = Some (o, l, n) -> exists l0 p, In (HCall o l0 n) (i :: is) /\ sz o = Some p /\ length l = length l0 + fst p).
        { intros j _ Hjc Hjn Hji ->. rewrite Nat.add_0_r. destruct (Hpush sub ltac:(lia) ltac:(lia)) as [is1 [vm1 [s1 [H1 [H2 [H3 [H4 [H5 H6]]]]]]]]. rewrite H1. cbn [obind].
          exists (j :: is1), vm1, s1. split; auto. split; auto. cbn [wf_insns nouts i_inputs i_nout HlI]. rewrite Hjn, !Nat.add_assoc. split; [split; auto|].
          - apply Forall_forall. intros y Hy. apply Hji in Hy. revert y Hy. apply Forall_forall. apply vpos_map; auto.
          - split; auto. split; auto. intros j' o l n [<-|Hj] Ec; [congruence|]. destruct (H6 _ _ _ _ Hj Ec) as [l0 [p [G1 G2]]]. exists l0, p. split; [right; auto|auto]. }
        destruct i; cbn [h2l obind fst snd h_nout] in *.
        + apply (Hord _ eq_refl); auto; [|congruence]. cbn [l_inputs h_inputs]. rewrite lc_replace_vars. apply incl_refl.
        + apply (Hord _ eq_refl); auto; [|congruence]. apply incl_refl.
        + injection Hr as <-. cbn [fst snd] in *.
          destruct (IH (cur + n) (vm ++ seq (S own) n) (own + n) sub new r1) as [is1 [vm1 [s1 [H1 [H2 [H3 [H4 [H5 H6]]]]]]]]; auto; try lia.
          { rewrite app_length, seq_length. lia. }
          { eapply vpos_app; eauto; try lia. apply Forall_seq. intros; lia. }
          rewrite H1. exists is1, vm1, s1. rewrite Nat.add_assoc. split; auto. split; auto. split; auto. split; auto. split; auto.
          intros j o l' m Hj Ec. destruct (H6 _ _ _ _ Hj Ec) as [l0 [p [G1 G2]]]. exists l0, p. split; [right; auto|auto].
        + apply (Hord _ eq_refl); auto; [|congruence]. intros ? [].
        + apply obind_some in Hr. destruct Hr as [p [Hp Hr]]. injection Hr as <-. rewrite Hp. cbn [obind fst snd] in *.
          destruct (Hpush (sub + fst p) ltac:(lia) ltac:(lia)) as [is1 [vm1 [s1 [H1 [H2 [H3 [H4 [H5 H6]]]]]]]]. rewrite H1. cbn [obind].
          eexists _, vm1, s1. split; [reflexivity|]. split; [lia|]. cbn [wf_insns nouts i_inputs i_nout HlI l_inputs l_nout]. rewrite !Nat.add_assoc. split; [split; auto|].
          * apply Forall_app. split. apply vpos_map; auto. apply Forall_seq. intros; lia.
          * split; auto. split; auto. intros j' o l' m [<-|Hj] Ec.
            -- injection Ec as <- <- <-. exists l, p. split; [left; auto|]. split; auto. rewrite app_length, map_length, seq_length. auto.
            -- destruct (H6 _ _ _ _ Hj Ec) as [l0 [p' [G1 G2]]]. exists l0, p'. split; [right; auto|auto].
        + apply (Hord _ eq_refl); auto; [|congruence]. apply incl_refl.
    Qed.

    (* what remove_hints produces, statically *)
    Lemma remove_hints_static id c : lookup id cs = Some c -> exists c' t, remove_hints sz id c = Some c' /\ option_map fst (sz id) = Some t /\
      num_inputs c' = num_inputs c + t /\ length (outputs c') = length (outputs c) /\ wf_circuit (HlI F) c' /\ incl (calls c') (calls c) /\
      forall cs2 : list (nat * LC), (forall o co p, lookup o cs = Some co -> sz o = Some p -> exists co', lookup o cs2 = Some co' /\ num_inputs co' = num_inputs co + fst p /\ length (outputs co') = length (outputs co)) ->
        Forall (call_wf (HlI F) cs2) (instructions c').
    Proof.
      intros Hc. destruct (Hsz id c Hc) as [r [Hr Hs]]. pose proof (wf_each _ _ W _ _ Hc) as Wc. unfold remove_hints. rewrite Hs. cbn [obind].
      replace (fst r + snd r - snd r) with (fst r) by lia. set (n := num_inputs c).
      destruct (rh_static (instructions c) n (seq 0 (S n)) n (n + snd r) (n + snd r + fst r) r) as [is' [vm [s' [H1 [-> [H3 [H4 [H5 H6]]]]]]]]; auto; try lia.
      { apply Wc. } { apply seq_length. }
      { destruct (vpos_id n) as [V1 V2]. split; auto. intros x Hx. specialize (V2 x Hx). lia. }
      rewrite H1. cbn [obind]. rewrite Nat.eqb_refl. eexists _, (fst r + snd r). split; [reflexivity|]. cbn [option_map fst num_inputs outputs]. split; auto. split; auto.
      split; [apply map_length|].
      assert (Hvm : forall x, 0 < x <= n + nouts (HnI F) (instructions c) -> 0 < vmap vm x <= n + (fst r + snd r) + nouts (HlI F) is').
      { intros x Hx. destruct H5 as [_ H5]. specialize (H5 x ltac:(lia)). lia. }
      split; [|split].
      - split; cbn [instructions num_inputs constraints outputs].
        + replace (n + (fst r + snd r)) with (n + snd r + fst r) by lia. auto.
        + apply Forall_forall. intros k Hk. apply in_map_iff in Hk. destruct Hk as [x [<- Hx]]. apply Hvm. pose proof (wf_con _ _ Wc) as G. rewrite Forall_forall in G. apply (G x Hx).
        + apply Forall_forall. intros k Hk. apply in_map_iff in Hk. destruct Hk as [x [<- Hx]]. apply Hvm. pose proof (wf_out _ _ Wc) as G. rewrite Forall_forall in G. apply (G x Hx).
      - intros o Ho. apply calls_in in Ho. destruct Ho as [i [l [m [Hi Ec]]]]. cbn [instructions] in Hi. destruct (H6 _ _ _ _ Hi Ec) as [l0 [p [G1 _]]]. eapply in_calls; eauto. reflexivity.
      - intros cs2 Hcs2. cbn [instructions]. apply Forall_forall. intros i Hi o l m Ec. destruct (H6 _ _ _ _ Hi Ec) as [l0 [p [G1 [G2 G3]]]].
        pose proof (wf_calls _ _ W _ _ Hc) as Wl. rewrite Forall_forall in Wl. destruct (Wl _ G1 _ _ _ eq_refl) as [co [K1 [K2 K3]]].
        destruct (Hcs2 o co p K1 G2) as [co' [K4 [K5 K6]]]. exists co'. split; auto. split; congruence.
    Qed.

    Lemma simC_all E : forall id, simC E id.
    Proof.
      apply (rank_ind rank (simC E)). intros id IH c t s ins outs b hv Hc Hs Hl Hh.
      destruct (Hsz id c Hc) as [r [Hr Hs2]]. rewrite Hs in Hs2. injection Hs2 as -> ->. pose proof (wf_each _ _ W _ _ Hc) as Wc.
      destruct (Hcs' id c Hc) as [c' [Hrm Hc']]. unfold remove_hints in Hrm. rewrite Hs in Hrm. cbn [obind] in Hrm.
      replace (fst r + snd r - snd r) with (fst r) in Hrm by lia.
      apply obind_some in Hrm. destruct Hrm as [[[is' vm] s'] [Hrh E2]]. destruct (s' =? _); [|discriminate]. injection E2 as <-.
      set (n := num_inputs c) in *. set (vals' := f0 :: ins ++ hv).
      assert (Hlv : length vals' = S (n + snd r + fst r)) by (unfold vals'; cbn; rewrite app_length; lia).
      assert (Hrel : rel (seq 0 (S n)) (f0 :: ins) vals').
      { replace vals' with ((f0 :: ins) ++ hv) by reflexivity. apply rel_more. apply rel_id'. cbn. lia. }
      assert (Hown : hv = map (getv vals') (seq (S n) (snd r)) ++ map (getv vals') (seq (S (n + snd r)) (fst r))).
      { rewrite <- map_app. replace (S (n + snd r)) with (S n + snd r) by lia. rewrite <- seq_app. apply (nth_ext _ _ f0 f0).
        - rewrite map_length, seq_length. lia.
        - intros j Hj. rewrite nth_map_d by (rewrite seq_length; lia). rewrite seq_nth by lia. unfold vals', getv. cbn [nth Nat.add]. rewrite app_nth2 by lia. f_equal. lia. }
      destruct (rh_exec E id c Hc IH (instructions c) (seq 0 (S n)) n (n + snd r) (n + snd r + fst r) is' vm s' r (f0 :: ins) vals') as [_ Hx]; auto; try lia; try discriminate.
      { apply incl_refl. } { cbn [length]. replace (S (length ins) - 1) with n by lia. apply Wc. }
      assert (Hend : forall vf vf', length vf = S (n + nouts (HnI F) (instructions c)) -> rel vm vf vf' ->
        map (getv vf') (map (vmap vm) (outputs c)) = map (getv vf) (outputs c) /\ Forall (inb vf') (map (vmap vm) (outputs c)) /\ Forall (inb vf) (outputs c) /\
        Forall (inb vf') (map (vmap vm) (constraints c)) /\ Forall (inb vf) (constraints c) /\
        forallb (fun k => is0 F (getv vf' k)) (map (vmap vm) (constraints c)) = forallb (fun k => is0 F (getv vf k)) (constraints c)).
      { intros vf vf' Hlf Hrf. assert (Ho : Forall (fun x => x < length vf) (outputs c)) by (eapply Forall_impl; [|apply (wf_out _ _ Wc)]; cbn; intros; lia).
        assert (Hk : Forall (fun x => x < length vf) (constraints c)) by (eapply Forall_impl; [|apply (wf_con _ _ Wc)]; cbn; intros; lia).
        split; [apply rel_map; auto|]. split; [eapply rel_inb_l; eauto|]. split; auto. split; [eapply rel_inb_l; eauto|]. split; auto.
        clear -Hrf Hk. induction (constraints c) as [|k l IHl]; cbn [map forallb]; auto. inversion Hk; subst. rewrite IHl by auto. f_equal. f_equal. apply rel_get; auto. }
      assert (Htl : forall vf b0 own sub, texec (trun (adv E) cs) (adv E) (instructions c) (f0 :: ins) vf b0 own sub -> length vf = S (n + nouts (HnI F) (instructions c)) /\ length own = snd r).
      { intros vf b0 own sub H.
        assert (Hgen : forall is, incl is (instructions c) -> forall vals r, hs_insns sz is = Some r -> forall vf b o s, texec (trun (adv E) cs) (adv E) is vals vf b o s -> length vf = length vals + nouts (HnI F) is /\ length o = snd r).
        { clear -Hc R W. induction is as [|i is IHi]; intros Hin vals r Hr vf b o s H; cbn [hs_insns] in Hr.
          - injection Hr as <-. apply texec_nil in H. destruct H as [-> [_ [-> _]]]. cbn. auto.
          - apply texec_cons in H. destruct H as [outs [b1 [b2 [o1 [o2 [s1 [s2 [[_ H1] [H2 [-> [-> ->]]]]]]]]]]]. apply obind_some in Hr. destruct Hr as [r1 [Hr1 Hr]].
            destruct (IHi (fun x Hx => Hin x (or_intror Hx)) _ _ Hr1 _ _ _ _ H2) as [L1 L2]. rewrite app_length in L1 |- *. cbn [nouts]. cbn [i_nout HnI].
            destruct i; try (injection Hr as <-; destruct H1 as [H1 [_ [-> _]]]; apply (l_sem_len _ (HnL F)) in H1; cbn in H1 |- *; lia).
            + injection Hr as <-. destruct H1 as [[H1 _] [_ [-> _]]]. cbn. lia.
            + apply obind_some in Hr. destruct Hr as [p [_ Hr]]. injection Hr as <-. destruct H1 as [H1 ->]. cbn [h_nout snd length].
              destruct (call_cases id c _ id0 l n Hc (Hin _ (or_introl eq_refl)) eq_refl) as [_ [c' [Hc' [_ Hn]]]].
              apply trun_iff in H1. destruct H1 as [c2 [? [? [? [? [G1 [_ [_ [_ [-> _]]]]]]]]]]. rewrite map_length in *. assert (c2 = c') as -> by congruence. lia. }
        destruct (Hgen _ (incl_refl _) _ _ Hr _ _ _ _ H) as [L1 L2]. cbn [length] in L1. split; auto. lia. }
      rewrite trun_iff, run_iff. split.
      - intros [c1 [vf [b0 [own [sub [K1 [K2 [K3 [K4 [-> [Eh ->]]]]]]]]]]]. rewrite Hc in K1. injection K1 as <-.
        destruct (Htl _ _ _ _ K2) as [L1 L2]. rewrite Hown in Eh at 1. apply app_inj_len in Eh; [|rewrite map_length, seq_length; auto]. destruct Eh as [<- <-].
        destruct (proj1 (Hx b0) vf K2) as [vf' [X1 X2]]. destruct (Hend vf vf' L1 X2) as [G1 [G2 [G3 [G4 [G5 G6]]]]].
        eexists _, vf', b0. split; [exact Hc'|]. cbn [instructions constraints outputs].
        split; [exact X1|]. split; [exact G4|]. split; [exact G2|]. split; [symmetry; exact G1|]. f_equal. symmetry. exact G6.
      - intros [c1 [vf' [b0 [K1 [K2 [K3 [K4 [-> ->]]]]]]]]. rewrite Hc' in K1. injection K1 as <-. cbn [instructions constraints outputs c_var c_verify HlI] in *.
        destruct (proj2 (Hx b0) vf' K2) as [vf [X1 X2]]. destruct (Htl _ _ _ _ X1) as [L1 L2].
        destruct (Hend vf vf' L1 X2) as [G1 [G2 [G3 [G4 [G5 G6]]]]]. eexists c, vf, b0, _, _. split; auto. split; [exact X1|]. split; auto. split; auto. split; [exact G1|]. split; [auto|]. f_equal. exact G6.
    Qed.

    Lemma trun_outs E id ins outs b hv c : trun E cs id ins outs b hv -> lookup id cs = Some c -> length outs = length (outputs c).
    Proof. intros H Hc. apply trun_iff in H. destruct H as [c2 [? [? [? [? [G1 [_ [_ [_ [-> _]]]]]]]]]]. rewrite map_length. congruence. Qed.
    (* D: exporting hints *)
    Variable csx : list (nat * HC).
    Hypothesis Hcsx : forall id c, lookup id cs = Some c -> exists c', export_hints (id =? 0) sz c = Some c' /\ lookup id csx = Some c'.
    Hypothesis Hn0 : forall id c, lookup id cs = Some c -> ~ In 0 (calls c).
    Definition simD (E : Env F) (id : nat) : Prop := id <> 0 -> forall c ins, lookup id cs = Some c -> length ins = num_inputs c ->
      (forall outs b hv, trun E cs id ins outs b hv -> run (HnI F) E csx id ins (outs ++ hv) true) /\
      (forall o' b', run (HnI F) E csx id ins o' b' -> b' = true /\ exists outs b hv, o' = outs ++ hv /\ trun E cs id ins outs b hv).

    Lemma h_step E vm vals vals' (i : HInsn F) outs : rel vm vals vals' -> Forall (fun x => x < length vals) (h_inputs F i) ->
      Forall (inb vals') (h_inputs F (h_replace F (vmap vm) i)) /\ (h_sem F E (h_replace F (vmap vm) i) (getv vals') outs <-> h_sem F E i (getv vals) outs).
    Proof.
      intros Hr Hin. pose proof (l_repl_inputs _ (HnL F) (vmap vm) i) as Hri. cbn [i_inputs i_replace HnI] in Hri. rewrite Hri.
      split; [eapply rel_inb_l; eauto|]. pose proof (l_sem_repl _ (HnL F) E (vmap vm) i (getv vals') outs) as Hs. cbn [i_sem i_replace HnI] in Hs. rewrite Hs.
      assert (Hg : forall x, In x (h_inputs F i) -> getv vals' (vmap vm x) = getv vals x) by (intros x Hx; rewrite Forall_forall in Hin; apply rel_get; auto).
      split; apply (l_sem_ext _ (HnL F)); auto. intros; symmetry; auto.
    Qed.

    Lemma ex_exec E id c : lookup id cs = Some c -> (forall o, rank o < rank id -> simD E o) ->
      forall is cur vm new own sub r, incl is (instructions c) -> wf_insns (HnI F) is cur -> length vm = S cur -> vpos vm new -> hs_insns sz is = Some r ->
      exists is' vm' O Sb, ex_insns sz is vm new own sub = Some (is', vm', own ++ O, sub ++ Sb) /\
        (* static *)
        wf_insns (HnI F) is' new /\ length vm' = S (cur + nouts (HnI F) is) /\ vpos vm' (new + nouts (HnI F) is') /\
        Forall (fun x => 0 < x <= new + nouts (HnI F) is') O /\ Forall (fun x => 0 < x <= new + nouts (HnI F) is') Sb /\ length O = snd r /\ length Sb = fst r /\
        (forall j o l n, In j is' -> h_call F j = Some (o, l, n) -> exists l0 p n0, In (HCall o l0 n0) is /\ sz o = Some p /\ length l = length l0 /\ n = n0 + fst p) /\
        (* dynamic *)
        forall vals vals', rel vm vals vals' -> length vals' = S new ->
          (forall vf b o s, texec (trun E cs) E is vals vf b o s -> exists vf', exec (HnI F) E csx is' vals' vf' true /\ rel vm' vf vf' /\
             length vf' = S (new + nouts (HnI F) is') /\ map (getv vf') O = o /\ map (getv vf') Sb = s) /\
          (forall vf' b', exec (HnI F) E csx is' vals' vf' b' -> b' = true /\ exists vf b o s, texec (trun E cs) E is vals vf b o s /\ rel vm' vf vf' /\
             length vf' = S (new + nouts (HnI F) is') /\ map (getv vf') O = o /\ map (getv vf') Sb = s).
    Proof.
      intros Hc IHc. induction is as [|i is IH]; intros cur vm new own sub r Hin Hw Hl Hv Hr; cbn [hs_insns ex_insns] in *.
      - injection Hr as <-. exists [], vm, [], []. rewrite !app_nil_r. cbn [nouts wf_insns length]. rewrite !Nat.add_0_r. split; auto. split; auto. split; auto. split; auto. split; auto. split; auto.
        split; auto. split; auto. split; [intros ? ? ? ? []|]. intros vals vals' Hrel Hlv. split.
        + intros vf b o s H. apply texec_nil in H. destruct H as [-> [-> [-> ->]]]. exists vals'. split; [constructor|auto].
        + intros vf' b' H. apply exec_nil in H. destruct H as [-> ->]. split; auto. exists vals, true, [], []. split; [constructor|auto].
      - destruct Hw as [Hi Hw]. cbn [i_inputs i_nout HnI] in Hi, Hw. apply obind_some in Hr. destruct Hr as [r1 [Hr1 Hr]].
        set (n := h_nout F i) in *.
        assert (Hin2 : incl is (instructions c)) by (intros x Hx; apply Hin; right; auto).
        assert (Hl2 : length (vm ++ seq (S new) n) = S (cur + n)) by (rewrite app_length, seq_length; lia).
        assert (Hrepl : h_replace F (vmap (vm ++ seq (S new) n)) i = h_replace F (vmap vm) i).
        { apply (l_repl_ext _ (HnL F)). intros x Hx. cbn [i_inputs HnI] in Hx. rewrite Forall_forall in Hi. specialize (Hi x Hx). apply vmap_app_l. lia. }
        rewrite Hrepl. clear Hrepl.
        assert (Hi2 : Forall (fun x => 0 < x < length vm) (h_inputs F i)) by (eapply Forall_impl; [|exact Hi]; cbn; intros; lia).
        assert (Hjin : Forall (fun x => 0 < x <= new) (h_inputs F (h_replace F (vmap vm) i))).
        { pose proof (l_repl_inputs _ (HnL F) (vmap vm) i) as Hri. cbn [i_inputs i_replace HnI] in Hri. rewrite Hri. apply vpos_map; auto. }
        assert (Hi3 : forall (vals vals' : list F), rel vm vals vals' -> Forall (fun x => x < length vals) (h_inputs F i)).
        { intros vals vals' Hrel. rewrite <- (rel_len _ _ _ Hrel). eapply Forall_impl; [|exact Hi2]. cbn; intros; lia. }
        destruct (h_call F i) as [[[sb l] n1]|] eqn:Ec.
        + (* call *)
          destruct i; try discriminate. injection Ec as -> -> ->. cbn [h_nout h_replace h_inputs] in *. subst n.
          apply obind_some in Hr. destruct Hr as [p [Hp Hr]]. injection Hr as <-. unfold ex_call. rewrite Hp. cbn [obind fst snd].
          destruct (call_cases id c _ sb l n1 Hc (Hin _ (or_introl eq_refl)) eq_refl) as [Hlt [cb [Hcb [Hll Hnn]]]].
          assert (Hsb0 : sb <> 0). { intros ->. apply (Hn0 id c Hc). eapply in_calls; [apply Hin; left; reflexivity|reflexivity]. }
          destruct (IH (cur + n1) (vm ++ seq (S new) n1) (new + n1 + fst p) own (sub ++ seq (S (new + n1)) (fst p)) r1 Hin2 Hw Hl2) as [is' [vm' [O [Sb [H1 [H2 [H3 [H4 [H5 [H6 [H7 [H8 [H9 H10]]]]]]]]]]]]]; auto.
          { eapply vpos_app; eauto; try lia. apply Forall_seq. intros; lia. }
          rewrite H1. cbn [obind]. eexists _, vm', O, (seq (S (new + n1)) (fst p) ++ Sb). rewrite app_assoc. split; [reflexivity|].
          cbn [wf_insns nouts i_inputs i_nout HnI h_inputs h_nout]. rewrite <- !Nat.add_assoc in *. rewrite app_length, seq_length.
          split; [split; auto|]. split; auto. split; auto. split; auto. split; [apply Forall_app; split; auto; apply Forall_seq; intros; lia|]. split; auto. split; [lia|].
          split. { intros j o l' m [<-|Hj] Ec2. injection Ec2 as <- <- <-. exists l, p, n1. rewrite map_length. split; [left; auto|auto].
            destruct (H9 _ _ _ _ Hj Ec2) as [l0 [p' [n0 [G1 G2]]]]. exists l0, p', n0. split; [right; auto|auto]. }
          intros vals vals' Hrel Hlv.
          assert (Hrel2 : forall outs hv, length outs = n1 -> length hv = fst p -> rel (vm ++ seq (S new) n1) (vals ++ outs) (vals' ++ outs ++ hv) /\ length (vals' ++ outs ++ hv) = S (new + (n1 + fst p)) /\
             forall more, map (getv ((vals' ++ outs ++ hv) ++ more)) (seq (S (new + n1)) (fst p)) = hv).
          { intros outs hv L1 L2. split; [|split].
            - rewrite app_assoc. apply rel_more. rewrite <- L1. apply rel_seq; auto.
            - rewrite !app_length. lia.
            - intros more. apply (nth_ext _ _ f0 f0); [rewrite map_length, seq_length; auto|]. intros j Hj. rewrite map_length, seq_length in Hj. rewrite nth_map_d by (rewrite seq_length; auto).
              rewrite seq_nth by auto. unfold getv. rewrite <- !app_assoc. rewrite app_nth2 by lia. rewrite app_nth2 by lia. rewrite app_nth1 by lia. f_equal. lia. }
          specialize (IHc sb Hlt Hsb0 cb (map (getv vals) l) Hcb ltac:(rewrite map_length; auto)). destruct IHc as [IHf IHb].
          assert (Hargs : map (getv vals') (map (vmap vm) l) = map (getv vals) l) by (apply rel_map; [exact Hrel|exact (Hi3 _ _ Hrel)]).
          split.
          * intros vf b o s H. apply texec_cons in H. destruct H as [outs [b1 [b2 [o1 [o2 [s1 [s2 [[_ [K1 ->]] [K2 [-> [-> ->]]]]]]]]]]]. cbn [app].
            assert (L1 : length outs = n1) by (rewrite (trun_outs _ _ _ _ _ _ _ K1 Hcb); auto). assert (L2 : length s1 = fst p) by (eapply (trun_size' E sb cb); eauto).
            destruct (Hrel2 outs s1 L1 L2) as [R1 [R2 R3]]. destruct (H10 _ _ R1 ltac:(rewrite R2; lia)) as [H11 _]. destruct (H11 _ _ _ _ K2) as [vf' [X1 [X2 [X3 [X4 X5]]]]].
            exists vf'. split; [|split; [auto|split; [lia|split; [auto|]]]].
            -- apply exec_cons. exists (outs ++ s1), true, true. split; [|auto]. unfold step. cbn [i_call HnI h_call]. split; [eapply rel_inb_l; [exact Hrel|exact (Hi3 _ _ Hrel)]|]. rewrite Hargs. eauto.
            -- rewrite map_app, X5. f_equal. destruct (exec_prefix _ _ _ _ _ _ _ X1) as [more ->]. auto.
          * intros vf' b' H. apply exec_cons in H. destruct H as [o' [b1 [b2 [K1 [K2 ->]]]]]. unfold step in K1. cbn [i_call HnI h_call] in K1. destruct K1 as [_ K1]. rewrite Hargs in K1.
            destruct (IHb _ _ K1) as [-> [outs [b [hv [-> K3]]]]].
            assert (L1 : length outs = n1) by (rewrite (trun_outs _ _ _ _ _ _ _ K3 Hcb); auto). assert (L2 : length hv = fst p) by (eapply (trun_size' E sb cb); eauto).
            destruct (Hrel2 outs hv L1 L2) as [R1 [R2 R3]]. destruct (H10 _ _ R1 ltac:(rewrite R2; lia)) as [_ H11]. destruct (H11 _ _ K2) as [-> [vf [b3 [o [s [X1 [X2 [X3 [X4 X5]]]]]]]]].
            split; auto. exists vf, (b && b3), o, (hv ++ s). split; [|split; [auto|split; [lia|split; [auto|]]]].
            -- eapply TCall; eauto.
            -- rewrite map_app, X5. f_equal. destruct (exec_prefix _ _ _ _ _ _ _ K2) as [more ->]. auto.
        + (* hint or ordinary *)
          assert (Hv2 : vpos (vm ++ seq (S new) n) (new + n)) by (eapply vpos_app; eauto; try lia; apply Forall_seq; intros; lia).
          set (j := h_replace F (vmap vm) i) in *.
          assert (Hjc : h_call F j = None). { unfold j. pose proof (l_repl_call _ (HnL F) (vmap vm) i) as H. cbn [i_call i_replace HnI] in H. rewrite H, Ec. auto. }
          assert (Hjn : h_nout F j = n). { exact (l_repl_nout _ (HnL F) (vmap vm) i). }
          assert (Hisj : ex_call sz j = Some j) by (destruct j; try discriminate; auto).
          assert (Hstep : forall (vals vals' outs : list F), rel vm vals vals' -> (step (HnI F) E csx (j : Insn (HnI F)) vals' outs true <-> h_sem F E i (getv vals) outs)).
          { intros vals vals' outs Hrel. unfold step. change (i_call (j : Insn (HnI F))) with (h_call F j). rewrite Hjc. cbn [i_inputs i_sem HnI].
            destruct (h_step E vm vals vals' i outs Hrel (Hi3 _ _ Hrel)) as [A B]. fold j in A, B. rewrite B. tauto. }
          assert (Hcase : (exists h l m, i = HHint h l m) \/ (forall h l m, i <> HHint h l m)). { destruct i; try (right; congruence). left; eauto. }
          destruct Hcase as [[h [l [m ->]]]|Hnh].
          * injection Hr as <-. cbn [h_nout] in n. subst n.
            destruct (IH (cur + m) (vm ++ seq (S new) m) (new + m) (own ++ seq (S new) m) sub r1 Hin2 Hw Hl2 Hv2 Hr1) as [is' [vm' [O [Sb [H1 [H2 [H3 [H4 [H5 [H6 [H7 [H8 [H9 H10]]]]]]]]]]]]].
            rewrite H1. cbn [obind]. rewrite Hisj. cbn [obind]. exists (j :: is'), vm', (seq (S new) m ++ O), Sb. rewrite app_assoc. split; auto.
            cbn [wf_insns nouts i_inputs i_nout HnI h_nout]. rewrite Hjn. rewrite <- !Nat.add_assoc in *. rewrite app_length, seq_length. cbn [fst snd].
            split; [split; auto|]. split; auto. split; auto. split; [apply Forall_app; split; auto; apply Forall_seq; intros; lia|]. split; auto. split; [lia|]. split; auto.
            split. { intros j' o l' m' [<-|Hj] Ec2; [congruence|]. destruct (H9 _ _ _ _ Hj Ec2) as [l0 [p' [n0 [G1 G2]]]]. exists l0, p', n0. split; [right; auto|auto]. }
            intros vals vals' Hrel Hlv.
            assert (Hrel2 : forall outs, length outs = m -> rel (vm ++ seq (S new) m) (vals ++ outs) (vals' ++ outs) /\ length (vals' ++ outs) = S (new + m) /\
               forall more, map (getv ((vals' ++ outs) ++ more)) (seq (S new) m) = outs).
            { intros outs L1. split; [|split].
              - rewrite <- L1. apply rel_seq; auto.
              - rewrite !app_length. lia.
              - intros more. apply (nth_ext _ _ f0 f0); [rewrite map_length, seq_length; auto|]. intros k Hk. rewrite map_length, seq_length in Hk. rewrite nth_map_d by (rewrite seq_length; auto).
                rewrite seq_nth by auto. unfold getv. rewrite <- !app_assoc. rewrite app_nth2 by lia. rewrite app_nth1 by lia. f_equal. lia. }
            split.
            -- intros vf b o s H. apply texec_cons in H. destruct H as [outs [b1 [b2 [o1 [o2 [s1 [s2 [[_ [K1 [-> [-> ->]]]] [K2 [-> [-> ->]]]]]]]]]]]. cbn [app andb].
               assert (L1 : length outs = m) by apply K1. destruct (Hrel2 outs L1) as [R1 [R2 R3]]. destruct (H10 _ _ R1 R2) as [H11 _]. destruct (H11 _ _ _ _ K2) as [vf' [X1 [X2 [X3 [X4 X5]]]]].
               exists vf'. split; [|split; [auto|split; [lia|split; [|auto]]]].
               ++ apply exec_cons. exists outs, true, true. split; [|auto]. apply (Hstep vals); auto.
               ++ rewrite map_app, X4. f_equal. destruct (exec_prefix _ _ _ _ _ _ _ X1) as [more ->]. auto.
            -- intros vf' b' H. apply exec_cons in H. destruct H as [outs [b1 [b2 [K1 [K2 ->]]]]].
               assert (Hb1 : b1 = true). { unfold step in K1. change (i_call (j : Insn (HnI F))) with (h_call F j) in K1. rewrite Hjc in K1. tauto. } subst b1.
               apply (Hstep vals) in K1; auto. assert (L1 : length outs = m) by apply K1. destruct (Hrel2 outs L1) as [R1 [R2 R3]]. destruct (H10 _ _ R1 R2) as [_ H11].
               destruct (H11 _ _ K2) as [-> [vf [b3 [o [s [X1 [X2 [X3 [X4 X5]]]]]]]]].
               split; auto. exists vf, b3, (outs ++ o), s. split; [|split; [auto|split; [lia|split; [|auto]]]].
               ++ eapply THint; eauto.
               ++ rewrite map_app, X4. f_equal. destruct (exec_prefix _ _ _ _ _ _ _ K2) as [more ->]. auto.
          * assert (r1 = r) as <-. { destruct i; try (injection Hr as <-; auto); [edestruct Hnh; reflexivity|discriminate]. }
            destruct (IH (cur + n) (vm ++ seq (S new) n) (new + n) own sub r1 Hin2 Hw Hl2 Hv2 Hr1) as [is' [vm' [O [Sb [H1 [H2 [H3 [H4 [H5 [H6 [H7 [H8 [H9 H10]]]]]]]]]]]]].
            exists (j :: is'), vm', O, Sb.
            assert (Hex : match i with HHint _ _ _ => ex_insns sz is (vm ++ seq (S new) n) (new + n) (own ++ seq (S new) n) sub
                  | HCall id _ _ => let* p := sz id in ex_insns sz is (vm ++ seq (S new) n) (new + n + fst p) own (sub ++ seq (S (new + n)) (fst p))
                  | _ => ex_insns sz is (vm ++ seq (S new) n) (new + n) own sub end = Some (is', vm', own ++ O, sub ++ Sb)).
            { destruct i; auto; [edestruct Hnh; reflexivity|discriminate]. }
            rewrite Hex. cbn [obind]. rewrite Hisj. cbn [obind]. split; auto.
            cbn [wf_insns nouts i_inputs i_nout HnI]. rewrite Hjn. fold n. rewrite <- !Nat.add_assoc in *.
            split; [split; auto|]. split; auto. split; auto. split; auto. split; auto. split; auto. split; auto.
            split. { intros j' o l' m' [<-|Hj] Ec2; [congruence|]. destruct (H9 _ _ _ _ Hj Ec2) as [l0 [p' [n0 [G1 G2]]]]. exists l0, p', n0. split; [right; auto|auto]. }
            intros vals vals' Hrel Hlv.
            assert (Hrel2 : forall outs, length outs = n -> rel (vm ++ seq (S new) n) (vals ++ outs) (vals' ++ outs) /\ length (vals' ++ outs) = S (new + n)).
            { intros outs L1. split; [rewrite <- L1; apply rel_seq; auto|rewrite !app_length; lia]. }
            split.
            -- intros vf b o s H. inversion H; subst; try discriminate; [|edestruct Hnh; reflexivity].
               assert (L1 : length outs = n) by (eapply (l_sem_len _ (HnL F)); eauto). destruct (Hrel2 outs L1) as [R1 R2]. destruct (H10 _ _ R1 R2) as [H11 _].
               match goal with X : texec _ _ is _ _ _ _ _ |- _ => destruct (H11 _ _ _ _ X) as [vf' [X1 [X2 [X3 [X4 X5]]]]] end.
               exists vf'. split; [|split; [auto|split; [lia|split; auto]]].
               apply exec_cons. exists outs, true, true. split; [|auto]. apply (Hstep vals); auto.
            -- intros vf' b' H. apply exec_cons in H. destruct H as [outs [b1 [b2 [K1 [K2 ->]]]]].
               assert (Hb1 : b1 = true). { unfold step in K1. change (i_call (j : Insn (HnI F))) with (h_call F j) in K1. rewrite Hjc in K1. tauto. } subst b1.
               apply (Hstep vals) in K1; auto. assert (L1 : length outs = n) by (eapply (l_sem_len _ (HnL F)); eauto). destruct (Hrel2 outs L1) as [R1 R2]. destruct (H10 _ _ R1 R2) as [_ H11].
               destruct (H11 _ _ K2) as [-> [vf [b3 [o [s [X1 [X2 [X3 [X4 X5]]]]]]]]].
               split; auto. exists vf, b3, o, s. split; [|split; [auto|split; [lia|split; auto]]].
               eapply TSem; eauto.
    Qed.

    Lemma simD_all E : forall id, simD E id.
    Proof.
      apply (rank_ind rank (simD E)). intros id IH Hid c ins Hc Hl. pose proof (wf_each _ _ W _ _ Hc) as Wc.
      destruct (Hsz id c Hc) as [r [Hr Hs]]. destruct (Hcsx id c Hc) as [c' [Hx Hc']]. unfold export_hints in Hx.
      destruct (ex_exec E id c Hc IH (instructions c) (num_inputs c) (seq 0 (S (num_inputs c))) (num_inputs c) [] [] r (incl_refl _) (wf_is _ _ Wc) (seq_length _ _) (vpos_id _) Hr)
        as [is' [vm [O [Sb [H1 [H2 [H3 [H4 [H5 [H6 [H7 [H8 [H9 H10]]]]]]]]]]]]].
      rewrite H1 in Hx. cbn [obind app] in Hx. apply Nat.eqb_neq in Hid. rewrite Hid in Hx. injection Hx as <-.
      destruct (H10 (f0 :: ins) (f0 :: ins)) as [Hf Hb]; [apply rel_id'; cbn; lia|cbn; lia|].
      assert (Hend : forall (vf vf' : list F), rel vm vf vf' -> length vf' = S (num_inputs c + nouts (HnI F) is') ->
         map (getv vf') (map (vmap vm) (outputs c)) = map (getv vf) (outputs c) /\ Forall (inb vf') (map (vmap vm) (outputs c) ++ O ++ Sb) /\ Forall (inb vf) (outputs c) /\ Forall (inb vf) (constraints c)).
      { intros vf vf' Hrel Hlf. pose proof (rel_len _ _ _ Hrel) as Hlv. rewrite H3 in Hlv.
        assert (Ho : Forall (fun x => x < length vf) (outputs c)) by (eapply Forall_impl; [|apply (wf_out _ _ Wc)]; cbn; intros; lia).
        assert (Hk : Forall (fun x => x < length vf) (constraints c)) by (eapply Forall_impl; [|apply (wf_con _ _ Wc)]; cbn; intros; lia).
        split; [apply rel_map; auto|]. split; [|split; auto].
        apply Forall_app; split; [eapply rel_inb_l; eauto|]. apply Forall_app; split; [eapply Forall_impl; [|exact H5]|eapply Forall_impl; [|exact H6]]; cbn; unfold inb; intros; lia. }
      split.
      - intros outs b hv H. apply trun_iff in H. destruct H as [c1 [vf [b0 [own [sub [K1 [K2 [K3 [K4 [-> [-> ->]]]]]]]]]]]. rewrite Hc in K1. injection K1 as <-.
        destruct (Hf _ _ _ _ K2) as [vf' [X1 [X2 [X3 [<- <-]]]]]. destruct (Hend _ _ X2 X3) as [G1 [G2 _]].
        apply run_iff. eexists _, vf', true. split; [exact Hc'|]. cbn [instructions constraints outputs]. split; [exact X1|]. split; [constructor|]. split; [exact G2|]. split; [|reflexivity]. rewrite !map_app. f_equal. symmetry; exact G1.
      - intros o' b' H. apply run_iff in H. destruct H as [c1 [vf' [b0 [K1 [K2 [K3 [K4 [-> ->]]]]]]]]. rewrite Hc' in K1. injection K1 as <-. cbn [instructions constraints outputs] in *.
        destruct (Hb _ _ K2) as [-> [vf [b [o [s [X1 [X2 [X3 [X4 X5]]]]]]]]]. split; auto. destruct (Hend _ _ X2 X3) as [G1 [G2 [G3 G4]]].
        eexists _, _, _. split; [rewrite !map_app; f_equal; exact G1|]. apply trun_iff. exists c, vf, b, o, s. split; auto. split; auto. split; auto. split; auto. split; auto. split; [congruence|reflexivity].
    Qed.
    (* the root of the exported circuit returns its inputs followed by the record *)
    Lemma simD_root E c0 ins : lookup 0 cs = Some c0 -> (forall c', lookup 0 csx = Some c' -> 0 < num_inputs c' + nouts (HnI F) (instructions c')) -> length ins = num_inputs c0 ->
      (forall outs b hv, trun E cs 0 ins outs b hv -> exists b', run (HnI F) E csx 0 ins (ins ++ hv) b') /\
      (forall o' b', run (HnI F) E csx 0 ins o' b' -> exists outs b hv, o' = ins ++ hv /\ trun E cs 0 ins outs b hv).
    Proof.
      intros Hc Hpos Hl. pose proof (wf_each _ _ W _ _ Hc) as Wc.
      destruct (Hsz 0 c0 Hc) as [r [Hr Hs]]. destruct (Hcsx 0 c0 Hc) as [c' [Hx Hc']]. unfold export_hints in Hx.
      destruct (ex_exec E 0 c0 Hc (fun o _ => simD_all E o) (instructions c0) (num_inputs c0) (seq 0 (S (num_inputs c0))) (num_inputs c0) [] [] r (incl_refl _) (wf_is _ _ Wc) (seq_length _ _) (vpos_id _) Hr)
        as [is' [vm [O [Sb [H1 [H2 [H3 [H4 [H5 [H6 [H7 [H8 [H9 H10]]]]]]]]]]]]].
      rewrite H1 in Hx. cbn [obind app Nat.eqb] in Hx. injection Hx as <-. specialize (Hpos _ Hc'). cbn [num_inputs instructions] in Hpos.
      destruct (H10 (f0 :: ins) (f0 :: ins)) as [Hf Hb]; [apply rel_id'; cbn; lia|cbn; lia|].
      assert (Hpre : forall vf' b', exec (HnI F) E csx is' (f0 :: ins) vf' b' -> map (getv vf') (seq 1 (num_inputs c0)) = ins).
      { intros vf' b' H. destruct (exec_prefix _ _ _ _ _ _ _ H) as [more ->]. apply (nth_ext _ _ f0 f0); [rewrite map_length, seq_length; auto|].
        intros j Hj. rewrite map_length, seq_length in Hj. rewrite nth_map_d by (rewrite seq_length; auto). rewrite seq_nth by auto. cbn [Nat.add]. unfold getv. cbn [app nth]. rewrite app_nth1 by lia. auto. }
      assert (Hend : forall (vf vf' : list F), rel vm vf vf' -> length vf' = S (num_inputs c0 + nouts (HnI F) is') ->
         Forall (inb vf') (seq 1 (num_inputs c0) ++ O ++ Sb) /\ 1 < length vf' /\ Forall (inb vf) (outputs c0) /\ Forall (inb vf) (constraints c0)).
      { intros vf vf' Hrel Hlf. pose proof (rel_len _ _ _ Hrel) as Hlv. rewrite H3 in Hlv.
        assert (Ho : Forall (fun x => x < length vf) (outputs c0)) by (eapply Forall_impl; [|apply (wf_out _ _ Wc)]; cbn; intros; lia).
        assert (Hk : Forall (fun x => x < length vf) (constraints c0)) by (eapply Forall_impl; [|apply (wf_con _ _ Wc)]; cbn; intros; lia).
        split; [|split; [|split; auto]].
        - apply Forall_app; split; [apply Forall_seq; unfold inb; intros; lia|]. apply Forall_app; split; [eapply Forall_impl; [|exact H5]|eapply Forall_impl; [|exact H6]]; cbn; unfold inb; intros; lia.
        - lia. }
      split.
      - intros outs b hv H. apply trun_iff in H. destruct H as [c1 [vf [b0 [own [sub [K1 [K2 [K3 [K4 [-> [-> ->]]]]]]]]]]]. rewrite Hc in K1. injection K1 as <-.
        destruct (Hf _ _ _ _ K2) as [vf' [X1 [X2 [X3 [<- <-]]]]]. destruct (Hend _ _ X2 X3) as [G1 [G2 _]].
        eexists. apply run_iff. eexists _, vf', true. split; [exact Hc'|]. cbn [instructions constraints outputs]. split; [exact X1|]. split; [constructor; [exact G2|constructor]|]. split; [exact G1|].
        split; [|reflexivity]. rewrite !map_app. f_equal. symmetry. exact (Hpre _ _ X1).
      - intros o' b' H. apply run_iff in H. destruct H as [c1 [vf' [b0 [K1 [K2 [K3 [K4 [-> ->]]]]]]]]. rewrite Hc' in K1. injection K1 as <-. cbn [instructions constraints outputs] in *.
        destruct (Hb _ _ K2) as [-> [vf [b [o [s [X1 [X2 [X3 [X4 X5]]]]]]]]]. destruct (Hend _ _ X2 X3) as [G1 [G2 [G3 G4]]].
        eexists _, _, _. split; [rewrite !map_app; f_equal; exact (Hpre _ _ K2)|]. apply trun_iff. exists c0, vf, b, o, s. split; auto. split; auto. split; auto. split; auto. split; auto. split; [congruence|reflexivity].
    Qed.
    (* a recorded run is also one in which the hints answered whatever they liked *)
    Lemma trun_adv E : forall id ins outs b hv, trun E cs id ins outs b hv -> trun (adv E) cs id ins outs b hv.
    Proof.
      apply (rank_ind rank (fun id => forall ins outs b hv, trun E cs id ins outs b hv -> trun (adv E) cs id ins outs b hv)).
      intros id IH ins outs b hv H. apply trun_iff in H. destruct H as [c [vals [b0 [own [sub [H1 [H2 H3]]]]]]].
      apply trun_iff. exists c, vals, b0, own, sub. split; auto. split; auto. clear H3.
      assert (Hgen : forall is b0 own sub v, incl is (instructions c) -> texec (trun E cs) E is v vals b0 own sub -> texec (trun (adv E) cs) (adv E) is v vals b0 own sub); [|apply Hgen; auto; apply incl_refl].
      clear -IH H1 W R.
      induction is as [|i is IHi]; intros b0 own sub v Hin H2.
      - apply texec_nil in H2. apply texec_nil. auto.
      - apply texec_cons in H2. destruct H2 as [o [b1 [b2 [o1 [o2 [s1 [s2 [[A B] [C D]]]]]]]]].
        apply texec_cons. exists o, b1, b2, o1, o2, s1, s2. split; [|split; auto; apply IHi; auto; intros x Hx; apply Hin; right; auto].
        split; auto. destruct i; cbn in *; try tauto.
        + destruct B as [[B1 B2] B3]. split; auto. split; auto. exact I.
        + destruct B as [B1 B2]. split; auto. apply IH; auto. eapply (call_cases id c); eauto. apply Hin; left; auto.
    Qed.

    Lemma ex_static is : forall cur vm new own sub r, wf_insns (HnI F) is cur -> length vm = S cur -> vpos vm new -> hs_insns sz is = Some r ->
      exists is' vm' O Sb, ex_insns sz is vm new own sub = Some (is', vm', own ++ O, sub ++ Sb) /\
        wf_insns (HnI F) is' new /\ length vm' = S (cur + nouts (HnI F) is) /\ vpos vm' (new + nouts (HnI F) is') /\
        Forall (fun x => 0 < x <= new + nouts (HnI F) is') O /\ Forall (fun x => 0 < x <= new + nouts (HnI F) is') Sb /\ length O = snd r /\ length Sb = fst r /\
        (forall j o l n, In j is' -> h_call F j = Some (o, l, n) -> exists l0 p n0, In (HCall o l0 n0) is /\ sz o = Some p /\ length l = length l0 /\ n = n0 + fst p).
    Proof.
      induction is as [|i is IH]; intros cur vm new own sub r Hw Hl Hv Hr; cbn [hs_insns ex_insns] in *.
      - injection Hr as <-. exists [], vm, [], []. rewrite !app_nil_r. cbn [nouts wf_insns length]. rewrite !Nat.add_0_r. split; auto. split; auto. split; auto. split; auto. split; auto. split; auto.
        split; auto. split; auto. intros ? ? ? ? [].
      - destruct Hw as [Hi Hw]. cbn [i_inputs i_nout HnI] in Hi, Hw. apply obind_some in Hr. destruct Hr as [r1 [Hr1 Hr]].
        set (n := h_nout F i) in *.
        assert (Hl2 : length (vm ++ seq (S new) n) = S (cur + n)) by (rewrite app_length, seq_length; lia).
        assert (Hrepl : h_replace F (vmap (vm ++ seq (S new) n)) i = h_replace F (vmap vm) i).
        { apply (l_repl_ext _ (HnL F)). intros x Hx. cbn [i_inputs HnI] in Hx. rewrite Forall_forall in Hi. specialize (Hi x Hx). apply vmap_app_l. lia. }
        rewrite Hrepl. clear Hrepl.
        assert (Hi2 : Forall (fun x => 0 < x < length vm) (h_inputs F i)) by (eapply Forall_impl; [|exact Hi]; cbn; intros; lia).
        assert (Hjin : Forall (fun x => 0 < x <= new) (h_inputs F (h_replace F (vmap vm) i))).
        { pose proof (l_repl_inputs _ (HnL F) (vmap vm) i) as Hri. cbn [i_inputs i_replace HnI] in Hri. rewrite Hri. apply vpos_map; auto. }
        destruct (h_call F i) as [[[sb l] n1]|] eqn:Ec.
        + destruct i; try discriminate. injection Ec as -> -> ->. cbn [h_nout h_replace h_inputs] in *. subst n.
          apply obind_some in Hr. destruct Hr as [p [Hp Hr]]. injection Hr as <-. unfold ex_call. rewrite Hp. cbn [obind fst snd].
          destruct (IH (cur + n1) (vm ++ seq (S new) n1) (new + n1 + fst p) own (sub ++ seq (S (new + n1)) (fst p)) r1 Hw Hl2) as [is' [vm' [O [Sb [H1 [H2 [H3 [H4 [H5 [H6 [H7 [H8 H9]]]]]]]]]]]]; auto.
          { eapply vpos_app; eauto; try lia. apply Forall_seq. intros; lia. }
          rewrite H1. cbn [obind]. eexists _, vm', O, (seq (S (new + n1)) (fst p) ++ Sb). rewrite app_assoc. split; [reflexivity|].
          cbn [wf_insns nouts i_inputs i_nout HnI h_inputs h_nout]. rewrite <- !Nat.add_assoc in *. rewrite app_length, seq_length.
          split; [split; auto|]. split; auto. split; auto. split; auto. split; [apply Forall_app; split; auto; apply Forall_seq; intros; lia|]. split; auto. split; [lia|].
          intros j o l' m [<-|Hj] Ec2. injection Ec2 as <- <- <-. exists l, p, n1. rewrite map_length. split; [left; auto|auto].
          destruct (H9 _ _ _ _ Hj Ec2) as [l0 [p' [n0 [G1 G2]]]]. exists l0, p', n0. split; [right; auto|auto].
        + assert (Hv2 : vpos (vm ++ seq (S new) n) (new + n)) by (eapply vpos_app; eauto; try lia; apply Forall_seq; intros; lia).
          set (j := h_replace F (vmap vm) i) in *.
          assert (Hjc : h_call F j = None). { unfold j. pose proof (l_repl_call _ (HnL F) (vmap vm) i) as H. cbn [i_call i_replace HnI] in H. rewrite H, Ec. auto. }
          assert (Hjn : h_nout F j = n). { exact (l_repl_nout _ (HnL F) (vmap vm) i). }
          assert (Hisj : ex_call sz j = Some j) by (destruct j; try discriminate; auto).
          assert (Hcase : (exists h l m, i = HHint h l m) \/ (forall h l m, i <> HHint h l m)). { destruct i; try (right; congruence). left; eauto. }
          destruct Hcase as [[h [l [m ->]]]|Hnh].
          * injection Hr as <-. cbn [h_nout] in n. subst n.
            destruct (IH (cur + m) (vm ++ seq (S new) m) (new + m) (own ++ seq (S new) m) sub r1 Hw Hl2 Hv2 Hr1) as [is' [vm' [O [Sb [H1 [H2 [H3 [H4 [H5 [H6 [H7 [H8 H9]]]]]]]]]]]].
            rewrite H1. cbn [obind]. rewrite Hisj. cbn [obind]. exists (j :: is'), vm', (seq (S new) m ++ O), Sb. rewrite app_assoc. split; auto.
            cbn [wf_insns nouts i_inputs i_nout HnI h_nout]. rewrite Hjn. rewrite <- !Nat.add_assoc in *. rewrite app_length, seq_length. cbn [fst snd].
            split; [split; auto|]. split; auto. split; auto. split; [apply Forall_app; split; auto; apply Forall_seq; intros; lia|]. split; auto. split; [lia|]. split; auto.
            intros j' o l' m' [<-|Hj] Ec2; [congruence|]. destruct (H9 _ _ _ _ Hj Ec2) as [l0 [p' [n0 [G1 G2]]]]. exists l0, p', n0. split; [right; auto|auto].
          * assert (r1 = r) as <-. { destruct i; try (injection Hr as <-; auto); [edestruct Hnh; reflexivity|discriminate]. }
            destruct (IH (cur + n) (vm ++ seq (S new) n) (new + n) own sub r1 Hw Hl2 Hv2 Hr1) as [is' [vm' [O [Sb [H1 [H2 [H3 [H4 [H5 [H6 [H7 [H8 H9]]]]]]]]]]]].
            exists (j :: is'), vm', O, Sb.
            assert (Hex : match i with HHint _ _ _ => ex_insns sz is (vm ++ seq (S new) n) (new + n) (own ++ seq (S new) n) sub
                  | HCall id _ _ => let* p := sz id in ex_insns sz is (vm ++ seq (S new) n) (new + n + fst p) own (sub ++ seq (S (new + n)) (fst p))
                  | _ => ex_insns sz is (vm ++ seq (S new) n) (new + n) own sub end = Some (is', vm', own ++ O, sub ++ Sb)).
            { destruct i; auto; [edestruct Hnh; reflexivity|discriminate]. }
            rewrite Hex. cbn [obind]. rewrite Hisj. cbn [obind]. split; auto.
            cbn [wf_insns nouts i_inputs i_nout HnI]. rewrite Hjn. fold n. rewrite <- !Nat.add_assoc in *.
            split; [split; auto|]. split; auto. split; auto. split; auto. split; auto. split; auto. split; auto.
            intros j' o l' m' [<-|Hj] Ec2; [congruence|]. destruct (H9 _ _ _ _ Hj Ec2) as [l0 [p' [n0 [G1 G2]]]]. exists l0, p', n0. split; [right; auto|auto].
    Qed.
    Lemma export_hints_ok b id c : lookup id cs = Some c -> exists c', export_hints b sz c = Some c' /\ num_inputs c' = num_inputs c /\
      (0 < num_inputs c + nouts (HnI F) (instructions c) -> 0 < num_inputs c' + nouts (HnI F) (instructions c')).
    Proof.
      intros Hc. destruct (Hsz id c Hc) as [r [Hr Hs]]. pose proof (wf_each _ _ W _ _ Hc) as Wc. unfold export_hints.
      destruct (ex_static (instructions c) (num_inputs c) (seq 0 (S (num_inputs c))) (num_inputs c) [] [] r (wf_is _ _ Wc) (seq_length _ _) (vpos_id _) Hr)
        as [is' [vm [O [Sb [H1 [H2 [H3 [H4 [H5 [H6 [H7 [H8 H9]]]]]]]]]]]].
      rewrite H1. cbn [obind app]. eexists. split; [reflexivity|]. cbn [num_inputs instructions]. split; auto. intros Hp. destruct H4 as [_ H4]. specialize (H4 1 ltac:(lia)). lia.
    Qed.
    Lemma export_hints_static b id c p : lookup id cs = Some c -> sz id = Some p -> (b = true -> forall c', export_hints b sz c = Some c' -> 0 < num_inputs c' + nouts (HnI F) (instructions c')) ->
      exists c', export_hints b sz c = Some c' /\ num_inputs c' = num_inputs c /\
      length (outputs c') = (if b then num_inputs c else length (outputs c)) + fst p /\ wf_circuit (HnI F) c' /\ incl (calls c') (calls c) /\
      forall cs2 : list (nat * HC), (forall o co p, In o (calls c) -> lookup o cs = Some co -> sz o = Some p -> exists co', lookup o cs2 = Some co' /\ num_inputs co' = num_inputs co /\ length (outputs co') = length (outputs co) + fst p) ->
        Forall (call_wf (HnI F) cs2) (instructions c').
    Proof.
      intros Hc Hp Hb. destruct (Hsz id c Hc) as [r [Hr Hs]]. rewrite Hp in Hs. injection Hs as ->. pose proof (wf_each _ _ W _ _ Hc) as Wc. unfold export_hints.
      destruct (ex_static (instructions c) (num_inputs c) (seq 0 (S (num_inputs c))) (num_inputs c) [] [] r (wf_is _ _ Wc) (seq_length _ _) (vpos_id _) Hr)
        as [is' [vm [O [Sb [H1 [H2 [H3 [H4 [H5 [H6 [H7 [H8 H9]]]]]]]]]]]].
      unfold export_hints in Hb. rewrite H1 in *. cbn [obind app] in *. eexists. split; [reflexivity|]. cbn [num_inputs outputs fst snd]. split; auto. rewrite !app_length. split.
      { destruct b; [rewrite seq_length|rewrite map_length]; lia. }
      split; [|split].
      - split; cbn [instructions num_inputs constraints outputs]; auto.
        + destruct b; [|constructor]. constructor; [|constructor]. change (c_var _) with 1. specialize (Hb eq_refl _ eq_refl). cbn [num_inputs instructions] in Hb. lia.
        + apply Forall_app; split; [|apply Forall_app; auto]. destruct b; [apply Forall_seq; intros; lia|]. apply vpos_map; auto.
          eapply Forall_impl; [|apply (wf_out _ _ Wc)]. cbn; intros; lia.
      - intros o Ho. apply calls_in in Ho. destruct Ho as [i [l [m [Hi Ec]]]]. cbn [instructions] in Hi. destruct (H9 _ _ _ _ Hi Ec) as [l0 [p [n0 [G1 _]]]]. eapply in_calls; eauto. reflexivity.
      - intros cs2 Hcs2. cbn [instructions]. apply Forall_forall. intros i Hi o l m Ec. destruct (H9 _ _ _ _ Hi Ec) as [l0 [p [n0 [G1 [G2 [G3 G4]]]]]].
        pose proof (wf_calls _ _ W _ _ Hc) as Wl. rewrite Forall_forall in Wl. destruct (Wl _ G1 _ _ _ eq_refl) as [co [K1 [K2 K3]]].
        destruct (Hcs2 o co p) as [co' [K4 [K5 K6]]]; auto. { eapply in_calls; eauto; reflexivity. } exists co'. split; auto. split; [congruence|lia].
    Qed.
  End Fixed.

  (* sizes are computed for every circuit *)
  Lemma hint_sizes_ok (rc : HR) : wf_root _ rc -> exists sz, hint_sizes rc = Some sz /\
    forall id c, lookup id (circuits rc) = Some c -> exists r, hs_insns sz (instructions c) = Some r /\ sz id = Some (fst r + snd r, snd r).
  Proof.
    intros [W R _]. assert (Hloc : forall is m m', (forall i o l n, In i is -> h_call F i = Some (o, l, n) -> m o = m' o) -> hs_insns m is = hs_insns m' is).
    { induction is as [|i is IH]; intros m m' H; cbn [hs_insns]; auto. rewrite (IH m m') by (intros; eapply H; eauto; right; auto).
      destruct (hs_insns m' is); cbn [obind]; auto. destruct i; auto. rewrite (H (HCall id l n) id l n (or_introl eq_refl) eq_refl). auto. }
    destruct (rev_pass_spec (HnI F) hint_sizes1 (fun _ _ => True)) with (rc := rc) as [q [acc [H1 [H2 [_ [_ H3]]]]]]; auto.
    - intros m m' id c H. unfold hint_sizes1. rewrite (Hloc _ m m'); auto. intros i o l n Hi Ec. apply H. eapply in_calls; eauto.
    - intros m id c Hc Hm. unfold hint_sizes1.
      assert (exists r, hs_insns m (instructions c) = Some r) as [r ->]; [|eexists _, _; split; [reflexivity|auto]].
      assert (Hm2 : forall i o l n, In i (instructions c) -> h_call F i = Some (o, l, n) -> exists s, m o = Some s).
      { intros i o l n Hi Ec. destruct (Hm o) as [s [Hs _]]; eauto. eapply in_calls; eauto. }
      induction (instructions c) as [|i is IH]; cbn [hs_insns]; eauto. destruct IH as [r ->]; [intros; eapply Hm2; eauto; right; auto|]. cbn [obind].
      destruct i; eauto. destruct (Hm2 (HCall id0 l n) id0 l n (or_introl eq_refl) eq_refl) as [s ->]. cbn [obind]. eauto.
    - exists (summary acc). unfold hint_sizes. rewrite H1. cbn [obind]. rewrite H2. cbn [obind]. split; auto.
      intros id c Hc. destruct (H3 id c Hc) as [[] [s [A [B _]]]]. unfold hint_sizes1 in B. apply obind_some in B. destruct B as [r [B C]]. injection C as <-.
      exists r. split; auto. unfold summary. rewrite A. auto.
  Qed.

  (* with the randomness fixed, a circuit without hints has one outcome *)
  Lemma l_sem_det E (i : LInsn F) g o o' : one_rnd E -> l_sem F E i g o -> l_sem F E i g o' -> o = o'.
  Proof.
    intros H1. destruct i; cbn; try (intros; subst; auto; fail).
    - intros [v [-> H2]] [v' [-> H3]]. f_equal. destruct c; cbn in *; try congruence. auto.
    - tauto.
  Qed.
  Lemma run_det_hl E (cs : list (nat * LC)) rank : one_rnd E -> ranked (HlI F) cs rank -> forall id ins o b o' b', run (HlI F) E cs id ins o b -> run (HlI F) E cs id ins o' b' -> o = o' /\ b = b'.
  Proof.
    intros H1 R. apply (rank_ind rank (fun id => forall ins o b o' b', run (HlI F) E cs id ins o b -> run (HlI F) E cs id ins o' b' -> o = o' /\ b = b')).
    intros id IH ins o b o' b' A B. apply run_iff in A, B. destruct A as [c [v [b0 [A1 [A2 [_ [_ [-> ->]]]]]]]]. destruct B as [c' [v' [b0' [B1 [B2 [_ [_ [-> ->]]]]]]]].
    rewrite A1 in B1. injection B1 as <-.
    assert (Hx : forall is v0 v b v' b', incl is (instructions c) -> exec (HlI F) E cs is v0 v b -> exec (HlI F) E cs is v0 v' b' -> v = v' /\ b = b').
    { clear -IH R A1 H1. induction is as [|i is IHi]; intros v0 v b v' b' Hin A B.
      - apply exec_nil in A, B. destruct A as [-> ->], B as [-> ->]. auto.
      - apply exec_cons in A, B. destruct A as [o1 [b1 [b2 [A1' [A2 ->]]]]]. destruct B as [o1' [b1' [b2' [B1 [B2 ->]]]]].
        assert (o1 = o1' /\ b1 = b1') as [<- <-].
        { unfold step in A1', B1. destruct (i_call i) as [[[sb l] n]|] eqn:Ec.
          - eapply IH; [|apply A1'|apply B1]. apply (R id c); auto. eapply in_calls; [apply Hin; left; reflexivity|exact Ec].
          - destruct A1' as [_ [A1' ->]], B1 as [_ [B1 ->]]. split; auto. exact (l_sem_det E i _ _ _ H1 A1' B1). }
        destruct (IHi _ _ _ _ _ (fun x Hx => Hin x (or_intror Hx)) A2 B2) as [-> ->]. auto. }
    destruct (Hx _ _ _ _ _ _ (incl_refl _) A2 B2) as [-> ->]. auto.
  Qed.

  Lemma omap_assoc {A B} (f : nat * A -> option B) (cs : list (nat * A)) : (forall id c, lookup id cs = Some c -> exists c', f (id, c) = Some c') -> NoDup (keys cs) ->
    exists cs', omap (fun p => let* c := f p in Some (fst p, c)) cs = Some cs' /\ keys cs' = keys cs /\
      forall id c, lookup id cs = Some c -> exists c', f (id, c) = Some c' /\ lookup id cs' = Some c'.
  Proof.
    induction cs as [|[id c] cs IH]; intros H Hk; cbn [omap keys map fst lookup] in *.
    - exists []. split; auto. split; auto. discriminate.
    - inversion Hk as [|? ? Hn Hk2]; subst. destruct (H id c) as [c' Hc']; [rewrite Nat.eqb_refl; auto|]. rewrite Hc'. cbn [obind].
      destruct IH as [cs' [H1 [H2 H3]]]; auto.
      { intros id2 c2 Hl. apply H. destruct (Nat.eqb_spec id id2); auto. subst. exfalso. apply Hn. apply lookup_keys; eauto. }
      rewrite H1. eexists. split; [reflexivity|]. cbn [keys map fst]. split; [f_equal; auto|]. intros id2 c2 Hl. cbn [lookup]. destruct (Nat.eqb_spec id id2); auto.
      subst. injection Hl as <-. eauto.
  Qed.

  Theorem remove_and_export_hints_spec' (rc : HR) c0 : wf_root _ rc -> lookup 0 (circuits rc) = Some c0 -> (forall hl ex cx, remove_and_export_hints rc = Some (hl, ex) -> lookup 0 (circuits ex) = Some cx -> 0 < num_inputs cx + nouts (HnI F) (instructions cx)) ->
    (forall id c, lookup id (circuits rc) = Some c -> ~ In 0 (calls c)) ->
    exists hl ex nh, remove_and_export_hints rc = Some (hl, ex) /\ wf_root _ hl /\ wf_root _ ex /\
      num_public_inputs hl = num_public_inputs rc /\ expected_num_output_zeroes hl = expected_num_output_zeroes rc /\
      num_public_inputs ex = num_public_inputs rc /\ expected_num_output_zeroes ex = 0 /\
      (exists cl, lookup 0 (circuits hl) = Some cl /\ num_inputs cl = num_inputs c0 + nh /\ length (outputs cl) = length (outputs c0)) /\
      (exists cx, lookup 0 (circuits ex) = Some cx /\ num_inputs cx = num_inputs c0 /\ length (outputs cx) = num_inputs c0 + nh) /\
      forall E ins, length ins = num_inputs c0 ->
        (forall outs b, root_run _ (adv E) rc ins outs b <-> exists hv, length hv = nh /\ root_run _ E hl (ins ++ hv) outs b) /\
        (forall outs b, root_run _ E rc ins outs b -> exists hv b', length hv = nh /\ root_run _ E ex ins (ins ++ hv) b' /\ root_run _ E hl (ins ++ hv) outs b) /\
        (forall w b', root_run _ E ex ins w b' -> exists hv, w = ins ++ hv /\ length hv = nh /\
           exists outs b, root_run _ E rc ins outs b /\ root_run _ E hl w outs b) /\
        (one_rnd E -> forall w b' outs b, root_run _ E ex ins w b' -> root_run _ E hl w outs b -> root_run _ E rc ins outs b).
  Proof.
    intros Hwf Hc0 Hpos Hn0. pose proof Hwf as [W [rank R] [c0' [Hc0' Hz]]]. rewrite Hc0 in Hc0'. injection Hc0' as <-.
    destruct (hint_sizes_ok rc Hwf) as [sz [Hs1 Hsz]]. set (cs := circuits rc) in *.
    unfold remove_and_export_hints. rewrite Hs1. cbn [obind]. fold cs.
    destruct (omap_assoc (fun p => remove_hints sz (fst p) (snd p)) cs) as [cs' [G1 [G2 G3]]]; [|apply W|].
    { intros id c Hc. destruct (remove_hints_static cs W sz Hsz id c Hc) as [c' [t [K _]]]. eauto. }
    destruct (omap_assoc (fun p => export_hints (fst p =? 0) sz (snd p)) cs) as [csx [X1 [X2 X3]]]; [|apply W|].
    { intros id c Hc. destruct (export_hints_ok cs W sz Hsz (id =? 0) id c Hc) as [c' [K _]]; eauto. }
    unfold remove_and_export_hints in Hpos. rewrite Hs1 in Hpos. cbn [obind] in Hpos. fold cs in Hpos. rewrite G1, X1 in Hpos. cbn [obind] in Hpos.
    assert (Hposx : forall cx, lookup 0 csx = Some cx -> 0 < num_inputs cx + nouts (HnI F) (instructions cx)) by (intros cx Hcx; eapply Hpos; [reflexivity|exact Hcx]). clear Hpos.
    rewrite G1. cbn [obind]. rewrite X1. cbn [obind]. cbn [fst snd] in G3, X3. destruct (Hsz 0 c0 Hc0) as [r0 [Hr0 Hp0]]. eexists _, _, (fst r0 + snd r0). split; [reflexivity|].
    destruct (G3 0 c0 Hc0) as [cl [Gl Hcl]]. destruct (X3 0 c0 Hc0) as [cx [Xl Hcx]].
    destruct (remove_hints_static cs W sz Hsz 0 c0 Hc0) as [cl' [t0 [K1 [K2 [K3 [K4 _]]]]]]. rewrite Gl in K1. injection K1 as <-. rewrite Hp0 in K2. injection K2 as <-.
    cbn [Nat.eqb] in Xl. destruct (export_hints_static cs W sz Hsz true 0 c0 _ Hc0 Hp0) as [cx' [M1 [M2 [M3 _]]]]; [intros _ c' Hc'; rewrite Xl in Hc'; injection Hc' as <-; auto|]. rewrite Xl in M1. injection M1 as <-. cbn [fst] in M3.
    assert (Hl2 : forall id c', lookup id cs' = Some c' -> exists c, lookup id cs = Some c /\ remove_hints sz id c = Some c').
    { intros id c' H. assert (In id (keys cs)) as Hin by (rewrite <- G2; apply lookup_keys; eauto). apply lookup_keys in Hin. destruct Hin as [c Hc]. destruct (G3 id c Hc) as [c2 [Q1 Q2]]. rewrite H in Q2. injection Q2 as <-. eauto. }
    assert (Hx2 : forall id c', lookup id csx = Some c' -> exists c, lookup id cs = Some c /\ export_hints (id =? 0) sz c = Some c').
    { intros id c' H. assert (In id (keys cs)) as Hin by (rewrite <- X2; apply lookup_keys; eauto). apply lookup_keys in Hin. destruct Hin as [c Hc]. destruct (X3 id c Hc) as [c2 [Q1 Q2]]. rewrite H in Q2. injection Q2 as <-. eauto. }
    assert (Hroot : forall id c, lookup id cs = Some c -> (id =? 0) = true -> forall c', export_hints (id =? 0) sz c = Some c' -> 0 < num_inputs c' + nouts (HnI F) (instructions c')).
    { intros id c Hc E c' Hc'. apply Nat.eqb_eq in E. subst. rewrite Hc0 in Hc. injection Hc as <-. cbn [Nat.eqb] in Hc'. rewrite Xl in Hc'. injection Hc' as <-. auto. }
    assert (Rl : ranked (HlI F) cs' rank).
    { intros id c' o Hc Ho. destruct (Hl2 id c' Hc) as [c [Q1 Q2]]. destruct (remove_hints_static cs W sz Hsz id c Q1) as [c2 [t [S1 [_ [_ [_ [_ [S2 _]]]]]]]]. rewrite Q2 in S1. injection S1 as <-. eapply R; eauto. }
    split; [|split; [|split; [auto|split; [auto|split; [auto|split; [auto|split; [|split]]]]]]].
    - split; cbn [circuits expected_num_output_zeroes].
      + split.
        * rewrite G2. apply W.
        * intros id c' H. destruct (Hl2 id c' H) as [c [Q1 Q2]]. destruct (remove_hints_static cs W sz Hsz id c Q1) as [c2 [t [S1 [_ [_ [_ [S2 _]]]]]]]. rewrite Q2 in S1. injection S1 as <-. auto.
        * intros id c' H. destruct (Hl2 id c' H) as [c [Q1 Q2]]. destruct (remove_hints_static cs W sz Hsz id c Q1) as [c2 [t [S1 [_ [_ [_ [_ [_ S2]]]]]]]]. rewrite Q2 in S1. injection S1 as <-.
          apply S2. intros o co p Ho Hp. destruct (G3 o co Ho) as [co' [T1 T2]]. exists co'. split; auto. destruct (remove_hints_static cs W sz Hsz o co Ho) as [c3 [t3 [U1 [U2 [U3 [U4 _]]]]]].
          rewrite T1 in U1. injection U1 as <-. rewrite Hp in U2. injection U2 as ->. auto.
      + exists rank. exact Rl.
      + exists cl. split; auto. rewrite K4. auto.
    - split; cbn [circuits expected_num_output_zeroes].
      + split.
        * rewrite X2. apply W.
        * intros id c' H. destruct (Hx2 id c' H) as [c [Q1 Q2]]. destruct (Hsz id c Q1) as [r [_ Hp]]. destruct (export_hints_static cs W sz Hsz (id =? 0) id c _ Q1 Hp (Hroot id c Q1)) as [c2 [S1 [_ [_ [S2 _]]]]].
          rewrite Q2 in S1. injection S1 as <-. auto.
        * intros id c' H. destruct (Hx2 id c' H) as [c [Q1 Q2]]. destruct (Hsz id c Q1) as [r [_ Hp]]. destruct (export_hints_static cs W sz Hsz (id =? 0) id c _ Q1 Hp (Hroot id c Q1)) as [c2 [S1 [_ [_ [_ [_ S2]]]]]].
          rewrite Q2 in S1. injection S1 as <-. apply S2. intros o co p Hoc Ho Hp2. destruct (X3 o co Ho) as [co' [T1 T2]]. exists co'. split; auto.
          destruct (export_hints_static cs W sz Hsz (o =? 0) o co _ Ho Hp2 (Hroot o co Ho)) as [c3 [U1 [U2 [U3 _]]]]. rewrite T1 in U1. injection U1 as <-. split; auto.
          destruct (Nat.eqb_spec o 0); auto. subst o. exfalso. apply (Hn0 id c Q1); auto.
      + exists rank. intros id c' o Hc Ho. destruct (Hx2 id c' Hc) as [c [Q1 Q2]]. destruct (Hsz id c Q1) as [r [_ Hp]]. destruct (export_hints_static cs W sz Hsz (id =? 0) id c _ Q1 Hp (Hroot id c Q1)) as [c2 [S1 [_ [_ [_ [S2 _]]]]]].
        rewrite Q2 in S1. injection S1 as <-. eapply R; eauto.
      + exists cx. split; auto. lia.
    - exists cl. cbn [circuits]. auto.
    - exists cx. cbn [circuits]. auto.
    - intros E ins Hl.
      assert (Htr : forall E' outs b, root_run _ E' rc ins outs b <-> exists all b0 hv, trun E' cs 0 ins all b0 hv /\ (expected_num_output_zeroes rc <= length all)%nat /\
          outs = skipn (expected_num_output_zeroes rc) all /\ b = b0 && forallb (is0 F) (firstn (expected_num_output_zeroes rc) all)).
      { intros E' outs b. split.
        - intros [c [all [b0 [A1 [A2 [A3 A4]]]]]]. apply (run_trun cs W rank R) in A3. destruct A3 as [hv A3]. exists all, b0, hv. auto.
        - intros [all [b0 [hv [A1 A2]]]]. exists c0, all, b0. split; auto. split; auto. split; [|auto]. apply (run_trun cs W rank R). eauto. }
      assert (Hsize : forall E' outs b hv, trun E' cs 0 ins outs b hv -> length hv = fst r0 + snd r0) by (intros E' outs b hv H; exact (trun_size cs W rank R sz Hsz E' 0 c0 ins outs b hv Hc0 H _ _ Hp0)).
      assert (Hhl : forall outs b hv, length hv = fst r0 + snd r0 -> (trun (adv E) cs 0 ins outs b hv <-> run (HlI F) E cs' 0 (ins ++ hv) outs b)).
      { intros outs b hv Hh. apply (simC_all cs W rank R sz Hsz cs' G3 E 0 c0 (fst r0 + snd r0) (snd r0)); auto. }
      assert (Hrl : forall hv outs b, length hv = fst r0 + snd r0 -> (root_run (HlI F) E {| num_public_inputs := num_public_inputs rc; expected_num_output_zeroes := expected_num_output_zeroes rc; circuits := cs' |} (ins ++ hv) outs b <->
          exists all b0, trun (adv E) cs 0 ins all b0 hv /\ (expected_num_output_zeroes rc <= length all)%nat /\
          outs = skipn (expected_num_output_zeroes rc) all /\ b = b0 && forallb (is0 F) (firstn (expected_num_output_zeroes rc) all))).
      { intros hv outs b Hh. split.
        - intros [c [all [b0 [A1 [A2 [A3 A4]]]]]]. exists all, b0. split; auto. apply Hhl; auto.
        - intros [all [b0 [A1 A2]]]. exists cl, all, b0. split; auto. split; [rewrite app_length; lia|]. split; auto. apply Hhl; auto. }
      destruct (simD_root cs W rank R sz Hsz csx X3 Hn0 E c0 ins Hc0 Hposx Hl) as [D1 D2].
      assert (Hex : forall w b', root_run (HnI F) E {| num_public_inputs := num_public_inputs rc; expected_num_output_zeroes := 0; circuits := csx |} ins w b' <-> run (HnI F) E csx 0 ins w b').
      { intros w b'. unfold root_run. cbn [circuits expected_num_output_zeroes skipn firstn forallb]. split.
        - intros [c [all [b0 [A1 [A2 [A3 [A4 [-> ->]]]]]]]]. rewrite andb_true_r. auto.
        - intros H. exists cx, w, b'. rewrite andb_true_r. split; auto. split; [congruence|]. split; auto. split; auto. lia. }
      assert (P3 : forall w b', root_run (HnI F) E {| num_public_inputs := num_public_inputs rc; expected_num_output_zeroes := 0; circuits := csx |} ins w b' ->
         exists hv all b0, w = ins ++ hv /\ trun E cs 0 ins all b0 hv /\ trun (adv E) cs 0 ins all b0 hv /\ length hv = fst r0 + snd r0 /\ length all = length (outputs c0)).
      { intros w b' H. apply Hex in H. destruct (D2 _ _ H) as [all [b0 [hv [-> T]]]]. exists hv, all, b0. split; auto. split; auto. split; [apply (trun_adv cs W rank R); auto|]. split; [eapply Hsize; eauto|].
        eapply trun_outs; eauto. }
      split; [|split; [|split]].
      + intros outs b. rewrite Htr. split.
        * intros [all [b0 [hv [A1 A2]]]]. exists hv. split; [eapply Hsize; eauto|]. apply Hrl; [eapply Hsize; eauto|]. eauto.
        * intros [hv [Hh A]]. apply Hrl in A; auto. destruct A as [all [b0 A]]. exists all, b0, hv. auto.
      + intros outs b H. apply Htr in H. destruct H as [all [b0 [hv [A1 A2]]]]. destruct (D1 _ _ _ A1) as [b' A3]. exists hv, b'. split; [eapply Hsize; eauto|]. split; [apply Hex; auto|].
        apply Hrl; [eapply Hsize; eauto|]. exists all, b0. split; auto. apply (trun_adv cs W rank R); auto.
      + intros w b' H. destruct (P3 w b' H) as [hv [all [b0 [-> [T1 [T2 [T3 T4]]]]]]]. exists hv. split; auto. split; auto.
        eexists _, _. split; [apply Htr; exists all, b0, hv; split; [exact T1|split; [lia|split; reflexivity]]|]. apply Hrl; auto. exists all, b0. split; [exact T2|split; [lia|split; reflexivity]].
      + intros H1 w b' outs b H Hh. destruct (P3 w b' H) as [hv [all [b0 [-> [T1 [T2 [T3 T4]]]]]]]. apply Hrl in Hh; auto. destruct Hh as [all2 [b2 [U1 U2]]].
        apply Hhl in T2; auto. apply Hhl in U1; auto. destruct (run_det_hl E cs' rank H1 Rl _ _ _ _ _ _ T2 U1) as [<- <-]. apply Htr. exists all, b0, hv. auto.
  Qed.
  Theorem remove_and_export_hints_spec (rc : HR) c0 : wf_root _ rc -> lookup 0 (circuits rc) = Some c0 -> 0 < num_inputs c0 + nouts (HnI F) (instructions c0) ->
    (forall id c, lookup id (circuits rc) = Some c -> ~ In 0 (calls c)) ->
    exists hl ex nh, remove_and_export_hints rc = Some (hl, ex) /\ wf_root _ hl /\ wf_root _ ex /\
      num_public_inputs hl = num_public_inputs rc /\ expected_num_output_zeroes hl = expected_num_output_zeroes rc /\
      num_public_inputs ex = num_public_inputs rc /\ expected_num_output_zeroes ex = 0 /\
      (exists cl, lookup 0 (circuits hl) = Some cl /\ num_inputs cl = num_inputs c0 + nh /\ length (outputs cl) = length (outputs c0)) /\
      (exists cx, lookup 0 (circuits ex) = Some cx /\ num_inputs cx = num_inputs c0 /\ length (outputs cx) = num_inputs c0 + nh) /\
      forall E ins, length ins = num_inputs c0 ->
        (forall outs b, root_run _ (adv E) rc ins outs b <-> exists hv, length hv = nh /\ root_run _ E hl (ins ++ hv) outs b) /\
        (forall outs b, root_run _ E rc ins outs b -> exists hv b', length hv = nh /\ root_run _ E ex ins (ins ++ hv) b' /\ root_run _ E hl (ins ++ hv) outs b) /\
        (forall w b', root_run _ E ex ins w b' -> exists hv, w = ins ++ hv /\ length hv = nh /\
           exists outs b, root_run _ E rc ins outs b /\ root_run _ E hl w outs b) /\
        (one_rnd E -> forall w b' outs b, root_run _ E ex ins w b' -> root_run _ E hl w outs b -> root_run _ E rc ins outs b).
  Proof.
    intros Hwf Hc0 Hpos Hn0. apply (remove_and_export_hints_spec' rc c0 Hwf Hc0); auto. intros hl ex cx Hre Hcx. pose proof Hwf as [W _ _].
    destruct (hint_sizes_ok rc Hwf) as [sz [Hs1 Hsz]]. unfold remove_and_export_hints in Hre. rewrite Hs1 in Hre. cbn [obind] in Hre. apply obind_some in Hre. destruct Hre as [cs' [_ Hre]]. apply obind_some in Hre. destruct Hre as [csx [X1 Hre]]. injection Hre as <- <-. cbn [circuits] in Hcx.
    destruct (omap_assoc (fun p => export_hints (fst p =? 0) sz (snd p)) (circuits rc)) as [csx' [X1' [X2 X3]]]; [|apply W|].
    { intros id c Hc. destruct (export_hints_ok (circuits rc) W sz Hsz (id =? 0) id c Hc) as [c' [K _]]; eauto. }
    rewrite X1 in X1'. injection X1' as <-. destruct (X3 0 c0 Hc0) as [cx' [Xl Hcx']]. rewrite Hcx in Hcx'. injection Hcx' as <-. cbn [fst snd] in Xl.
    destruct (export_hints_ok (circuits rc) W sz Hsz (0 =? 0) 0 c0 Hc0) as [c' [K [_ K2]]]. rewrite Xl in K. injection K as <-. auto.
  Qed.
  (* the root circuit of what is exported checks variable 1: if it passes validation it has one *)
  Lemma exported_variable (rc : HR) hl ex c0 cx : wf_root _ rc -> lookup 0 (circuits rc) = Some c0 -> remove_and_export_hints rc = Some (hl, ex) -> validate _ ex = true -> lookup 0 (circuits ex) = Some cx -> 0 < num_inputs cx + nouts (HnI F) (instructions cx).
  Proof.
    intros Hwf Hc0 Hre Hv Hcx. pose proof Hwf as [W _ _].
    destruct (hint_sizes_ok rc Hwf) as [sz [Hs1 Hsz]]. unfold remove_and_export_hints in Hre. rewrite Hs1 in Hre. cbn [obind] in Hre. apply obind_some in Hre. destruct Hre as [cs' [_ Hre]]. apply obind_some in Hre. destruct Hre as [csx [X1 Hre]]. injection Hre as <- <-. cbn [circuits] in Hcx.
    destruct (omap_assoc (fun p => export_hints (fst p =? 0) sz (snd p)) (circuits rc)) as [csx' [X1' [X2 X3]]]; [|apply W|].
    { intros id c Hc. destruct (export_hints_ok (circuits rc) W sz Hsz (id =? 0) id c Hc) as [c' [K _]]; eauto. }
    rewrite X1 in X1'. injection X1' as <-. destruct (X3 0 c0 Hc0) as [cx' [Xl Hcx']]. rewrite Hcx in Hcx'. injection Hcx' as <-. cbn [fst snd Nat.eqb] in Xl.
    apply validate_wf_root in Hv; [|cbn [circuits]; rewrite X2; apply W]. pose proof (wf_con _ _ (wf_each _ _ (wr_cs _ _ Hv) 0 cx Hcx)) as Wc. unfold export_hints in Xl. apply obind_some in Xl. destruct Xl as [[[[is' vm] own] sub] [_ Xl]]. injection Xl as <-.
    cbn [constraints instructions num_inputs] in *. inversion Wc as [|? ? Hk _]; subst. change (0 < 1 <= num_inputs c0 + nouts (HnI F) is') in Hk. lia.
  Qed.
End HE.
