(* What the transformations of hint_normalize (Builder.v) compute. *)
From Verif Require Import Prelude Field Sorting Expr Topo Containers Hints Ir IrFacts IrInst Sim Builder BuilderFacts BuilderSim.

Section HnTrans.
  Context {F : Fld}.
  Add Field Fht : (fth F).
  Open Scope fld_scope.
  Notation Act := (@Act F).

  (* the environment answers the compiler's own hints as the compiler does (hints/builtin.rs) *)
  Definition honest (E : Env F) : Prop :=
    forall h n args outs, impl_builtin_hint h n args = Some outs -> e_hint E (builtin_id h) n args outs.

  Definition bool01 (x : F) : Prop := x = 0 \/ x = 1.
  Lemma boolean_spec x : boolean F x = true <-> bool01 x.
  Proof. unfold boolean, bool01. rewrite orb_true_iff, is0_spec. rewrite (feqb_spec F). reflexivity. Qed.
  Lemma bool01_poly x : bool01 x <-> x * (x - 1) = 0.
  Proof.
    unfold bool01. split; [intros [-> | ->]; ring|]. intros H. apply fmul_0 in H. destruct H as [H|H]; auto. right. apply fsub_0. auto.
  Qed.

  (* What a source instruction guarantees when everything it does not constrain is chosen by an adversary:
     hints as the environment allows, the results of the "unconstrained" operations arbitrary, the result of a division q with
     q * y = x, a bit decomposition any sequence of bits with the right sum *)
  Definition rel_sem (E : Env F) (i : SInsn F) (g : nat -> F) (outs : list F) : Prop :=
    match i with
    | SDiv x y false => exists q, outs = [q] /\ q * g y = g x
    | SCommit _ => exists r, outs = [r] /\ e_rnd E r
    | SUnOp _ _ _ => exists v, outs = [v]
    | SSelect _ _ _ => exists v, outs = [v]
    | SToBin x n => length outs = n /\ Forall bool01 outs /\ from_bits outs = g x
    | _ => s_sem F E i g outs
    end.

  Definition act_push (a : Act) : list (HInsn F) := match a with APush i => [i] | _ => [] end.
  Definition pushes (l : list Act) : list (HInsn F) := flat_map act_push l.
  Definition asserts (l : list Act) : list nat := flat_map (fun a => match a with AAssert x => [x] | _ => [] end) l.
  Definition marks (l : list Act) : list nat := flat_map (fun a => match a with AMark x => [x] | _ => [] end) l.
  Fixpoint prun (E : Env F) (l : list Act) (vals vals' : list F) : Prop :=
    match l with
    | [] => vals' = vals
    | APush i :: l => exists outs, h_sem F E i (getv vals) outs /\ prun E l (vals ++ outs) vals'
    | _ :: l => prun E l vals vals'
    end.
  Fixpoint acts_ok (q n : nat) (l : list Act) : Prop :=
    match l with
    | [] => True
    | APush i :: l => Forall (fun x => (1 <= x < n)%nat) (h_inputs F i) /\ h_validate F q i = true /\ h_call F i = None /\ acts_ok q (n + h_nout F i) l
    | AAssert x :: l => (1 <= x < n)%nat /\ acts_ok q n l
    | AMark x :: l => (1 <= x < n)%nat /\ acts_ok q n l
    end.
  Definition acts_n (l : list Act) : nat := nouts (HnI F) (pushes l).
  Lemma prun_app E a b vals vals' : prun E (a ++ b) vals vals' <-> exists mid, prun E a vals mid /\ prun E b mid vals'.
  Proof.
    revert vals. induction a as [|x a IH]; intros vals; cbn [app prun].
    - split; [intros H; exists vals; auto|intros [mid [-> H]]; auto].
    - destruct x as [i|x|x]; try apply IH. split.
      + intros [outs [H1 H2]]. apply IH in H2. destruct H2 as [mid [H2 H3]]. exists mid. split; eauto.
      + intros [mid [[outs [H1 H2]] H3]]. exists outs. split; auto. apply IH; eauto.
  Qed.
  Lemma acts_ok_app q a : forall n b, acts_ok q n (a ++ b) <-> acts_ok q n a /\ acts_ok q (n + acts_n a) b.
  Proof.
    induction a as [|x a IH]; intros n b; cbn [app acts_ok].
    - unfold acts_n; cbn. rewrite Nat.add_0_r. tauto.
    - destruct x as [i|x|x]; rewrite IH; unfold acts_n; cbn [pushes flat_map act_push app nouts]; [|tauto|tauto]. fold (pushes a). change (@i_nout F (HnI F) i) with (h_nout F i). rewrite Nat.add_assoc. tauto.
  Qed.
  Lemma acts_n_app a b : acts_n (a ++ b) = (acts_n a + acts_n b)%nat.
  Proof. unfold acts_n, pushes. rewrite flat_map_app. apply nouts_app. Qed.
  Lemma asserts_app a b : asserts (a ++ b) = asserts a ++ asserts b.
  Proof. apply flat_map_app. Qed.
  Lemma marks_app a b : marks (a ++ b) = marks a ++ marks b.
  Proof. apply flat_map_app. Qed.

  Lemma prun_prefix E l vals vals' : prun E l vals vals' -> exists w, vals' = vals ++ w.
  Proof.
    revert vals. induction l as [|a l IH]; intros vals; cbn [prun].
    - intros ->. exists []. rewrite app_nil_r. auto.
    - destruct a as [i|x|x]; auto. intros [outs [_ H]]. apply IH in H. destruct H as [w ->]. exists (outs ++ w). rewrite app_assoc. auto.
  Qed.
  Lemma prun_len E q n l vals vals' : acts_ok q n l -> prun E l vals vals' -> length vals' = (length vals + acts_n l)%nat.
  Proof.
    revert n vals. induction l as [|a l IH]; intros n vals; cbn [prun acts_ok].
    - intros _ ->. unfold acts_n; cbn. lia.
    - destruct a as [i|x|x].
      + intros [_ [_ [Hc Ho]]] [outs [Hs H]]. rewrite (IH _ _ Ho H), app_length. pose proof (l_sem_len (HnI F) (HnL F) E i _ _ Hs) as Hl. cbn in Hl. rewrite Hl.
        unfold acts_n; cbn [pushes flat_map act_push app nouts]. change (@i_nout F (HnI F) i) with (h_nout F i). fold (pushes l). lia.
      + intros [_ Ho] H. apply (IH _ _ Ho H).
      + intros [_ Ho] H. apply (IH _ _ Ho H).
  Qed.
  Lemma prun_lin E l acts vals vals' : prun E (APush (HLin l) :: acts) vals vals' <-> prun E acts (vals ++ [lc_eval (getv vals) l]) vals'.
  Proof. cbn [prun h_sem]. split; [intros [outs [-> H]]; auto|intros H; eauto]. Qed.
  Lemma prun_mul E l acts vals vals' : prun E (APush (HMul l) :: acts) vals vals' <-> prun E acts (vals ++ [mul_eval (getv vals) l]) vals'.
  Proof. cbn [prun h_sem]. split; [intros [outs [-> H]]; auto|intros H; eauto]. Qed.
  Lemma prun_const E c acts vals vals' : prun E (APush (HConst (CConst c)) :: acts) vals vals' <-> prun E acts (vals ++ [c]) vals'.
  Proof. cbn [prun h_sem]. unfold const_sem; cbn [coef_sem]. split; [intros [outs [[v [-> ->]] H]]; auto|intros H; exists [c]; eauto]. Qed.
  Lemma prun_assert E x acts vals vals' : prun E (AAssert x :: acts) vals vals' <-> prun E acts vals vals'.
  Proof. reflexivity. Qed.
  Lemma prun_mark E x acts vals vals' : prun E (AMark x :: acts) vals vals' <-> prun E acts vals vals'.
  Proof. reflexivity. Qed.
  Lemma prun_nil E vals vals' : prun E [] vals vals' <-> vals' = vals.
  Proof. reflexivity. Qed.
  Lemma prun_hint1 E h l acts vals vals' : prun E (APush (HHint h l 1) :: acts) vals vals' <-> exists v, e_hint E h 1%nat (map (getv vals) l) [v] /\ prun E acts (vals ++ [v]) vals'.
  Proof.
    cbn [prun h_sem]. unfold hint_sem. split.
    - intros [outs [[Hl Hh] H]]. destruct outs as [|v [|w outs]]; try discriminate. eauto.
    - intros [v [Hh H]]. exists [v]. auto.
  Qed.
  Lemma lin2_eval (g : nat -> F) ca a cb b : lc_eval g {| lc_terms := [(a, ca); (b, cb)]; lc_const := 0 |} = g a * ca + g b * cb.
  Proof. rewrite lc_eval_sum. cbn [lc_terms lc_const map fst snd]. unfold fsum; cbn [fold_right]. ring. Qed.
  Lemma lin1_eval (g : nat -> F) ca a : lc_eval g {| lc_terms := [(a, ca)]; lc_const := 0 |} = g a * ca.
  Proof. rewrite lc_eval_sum. cbn [lc_terms lc_const map fst snd]. unfold fsum; cbn [fold_right]. ring. Qed.
  Lemma mul2_eval (g : nat -> F) a b : mul_eval g [a; b] = g a * g b.
  Proof. unfold mul_eval. cbn [fold_left]. ring. Qed.
  Lemma getv_snoc_lt (l : list F) a x : (x < length l)%nat -> getv (l ++ [a]) x = getv l x.
  Proof. apply getv_app1. Qed.
  Lemma getv_snoc_eq (l : list F) a x : x = length l -> getv (l ++ [a]) x = a.
  Proof. intros ->. rewrite getv_app2 by lia. rewrite Nat.sub_diag. reflexivity. Qed.

  (* ---------- the transformation of an instruction: shape ---------- *)
  Definition res_ok (q n' : nat) (i : SInsn F) (r : @TRes F) : Prop :=
    match r with
    | TInsn o => Forall (fun x => (1 <= x < n')%nat) (h_inputs F o) /\ h_validate F q o = true /\ h_nout F o = s_nout F i /\ h_call F o = s_call F i
    | TVars l => Forall (fun x => (1 <= x < n')%nat) l /\ length l = s_nout F i /\ s_call F i = None
    | TErr => s_call F i = None
    end.
  Definition bool_acts (a n : nat) : list Act :=
    [APush (HConst (CConst 1)); APush (lin2 1 a (- (1)) n); APush (HMul [a; (n + 1)%nat])].
  Lemma lin2_nout ca a cb b : h_nout F (lin2 ca a cb b) = 1%nat.
  Proof. reflexivity. Qed.
  Lemma bool_cond_acts a n : bool_cond a n = (bool_acts a n, (n + 3)%nat, (n + 2)%nat).
  Proof. unfold bool_cond, wbind, push_const, push_sub, push_mul, push. cbn [h_nout app]. rewrite !lin2_nout. unfold bool_acts. replace (n + 1 + 1 + 1)%nat with (n + 3)%nat by lia. replace (n + 1 + 1)%nat with (n + 2)%nat by lia. reflexivity. Qed.
  Lemma bool_acts_n a n : acts_n (bool_acts a n) = 3%nat.
  Proof. reflexivity. Qed.
  Lemma bool_acts_ok q a n : (1 <= a < n)%nat -> acts_ok q n (bool_acts a n).
  Proof. intros H. unfold bool_acts. cbn [acts_ok h_inputs h_validate h_nout h_call coef_validate lin2 lc_vars lc_terms map fst length Nat.leb]. repeat split; auto; repeat constructor; lia. Qed.

  (* the acts of the loop over the bits, its answer *)
  Fixpoint tb_acts (bits : list nat) (sum : nat) (c : F) (n : nat) : list Act * nat :=
    match bits with
    | [] => ([], sum)
    | bit :: bits =>
        let r := tb_acts bits (n + 4) (c + c) (n + 5) in
        (bool_acts bit n ++ AAssert (n + 2) :: APush (HLin {| lc_terms := [(bit, c)]; lc_const := 0 |}) :: APush (lin2 1 sum 1 (n + 3)) :: fst r, snd r)
    end.
  Lemma tb_acts_spec bits : forall sum c n, to_bin_loop bits sum c n = (fst (tb_acts bits sum c n), (n + 5 * length bits)%nat, snd (tb_acts bits sum c n)).
  Proof.
    induction bits as [|bit bits IH]; intros sum c n; cbn [to_bin_loop tb_acts fst snd length].
    - unfold wret. replace (n + 5 * 0)%nat with n by lia. auto.
    - unfold assert_bool, wbind, wassert, push, push_add. rewrite bool_cond_acts. cbn [app h_nout]. unfold push. rewrite ?lin2_nout. replace (n + 3 + 1 + 1)%nat with (n + 5)%nat by lia. replace (n + 3 + 1)%nat with (n + 4)%nat by lia. rewrite IH. cbn [app]. rewrite <- app_assoc. cbn [app].
      replace (n + 5 + 5 * length bits)%nat with (n + 5 * S (length bits))%nat by lia. auto.
  Qed.
  Lemma tb_acts_ok q bits : forall sum c n, Forall (fun x => (1 <= x < n)%nat) bits -> (1 <= sum < n)%nat ->
    acts_ok q n (fst (tb_acts bits sum c n)) /\ acts_n (fst (tb_acts bits sum c n)) = (5 * length bits)%nat /\ (1 <= snd (tb_acts bits sum c n) < n + 5 * length bits)%nat.
  Proof.
    induction bits as [|bit bits IH]; intros sum c n Hb Hs; cbn [tb_acts fst snd length].
    - cbn. repeat split; lia.
    - inversion Hb as [|? ? Hx Hb2]; subst. destruct (IH (n + 4)%nat (c + c) (n + 5)%nat) as [A [B C]]; [eapply Forall_impl; [|exact Hb2]; cbn; lia|lia|].
      rewrite acts_ok_app, acts_n_app, bool_acts_n. split; [|split; [|lia]].
      + split; [apply bool_acts_ok; auto|]. cbn [acts_ok h_inputs h_validate h_nout h_call lin2 lc_vars lc_terms map fst]. replace (n + 3 + 1 + 1)%nat with (n + 5)%nat by lia.
        repeat split; auto; try lia; repeat constructor; lia.
      + unfold acts_n in *. cbn [pushes flat_map act_push app nouts]. fold (pushes (fst (tb_acts bits (n + 4) (c + c) (n + 5)))). rewrite B. cbn. lia.
  Qed.

  Ltac wb := unfold assert_bool, mark_bool, push_const, push_sub, push_add, push_mul, push, push_multi, wassert, wmark, wbind, wret; cbv beta.
  Ltac triv := wb; split; [exact I|split; [unfold acts_n; cbn; lia|]].
  Definition sb_res (op : BoolOp) (n : nat) : list Act * nat :=
    match op with
    | BAnd => ([], (n + 7)%nat)
    | BOr => ([APush (lin2 1 (n + 6) (- (1)) (n + 7))], (n + 8)%nat)
    | BXor => ([APush (lin2 1 (n + 6) (- (1 + 1)) (n + 7))], (n + 8)%nat)
    end.
  Definition sb_acts (x y : nat) (op : BoolOp) (n : nat) : list Act :=
    bool_acts x n ++ AAssert (n + 2) :: bool_acts y (n + 3) ++ AAssert (n + 5) :: APush (lin2 1 x 1 y) :: APush (HMul [x; y]) ::
    fst (sb_res op n) ++ bool_acts (snd (sb_res op n)) (S (snd (sb_res op n))) ++ [AMark (snd (sb_res op n) + 3)].
  Lemma transform_bool cv x y op n : transform cv (SBool x y op) n = (sb_acts x y op n, (snd (sb_res op n) + 4)%nat, TVars [snd (sb_res op n)]).
  Proof.
    cbn [transform]. wb. rewrite !bool_cond_acts. cbv beta iota. rewrite ?bool_cond_acts. cbv beta iota. rewrite ?lin2_nout. cbn [h_nout].
    replace (n + 3 + 2)%nat with (n + 5)%nat by lia. replace (n + 3 + 3)%nat with (n + 6)%nat by lia. replace (n + 6 + 1 + 1)%nat with (n + 8)%nat by lia. replace (n + 6 + 1)%nat with (n + 7)%nat by lia.
    unfold sb_acts. destruct op; cbv beta iota; rewrite ?lin2_nout, !bool_cond_acts; cbn [sb_res fst snd app]; rewrite <- ?app_assoc; cbn [app];
    repeat match goal with |- context [(n + ?a + ?b)%nat] => let c := eval cbv in (a + b)%nat in replace (n + a + b)%nat with (n + c)%nat by lia end;
    replace (S (n + 7)) with (n + 8)%nat by lia; replace (S (n + 8)) with (n + 9)%nat by lia; reflexivity.
  Qed.
  Definition iz_acts (x n : nat) : list Act :=
    APush (HConst (CConst 1)) :: APush (HHint (hint_id HDiv) [n; x] 1) :: APush (HMul [x; (n + 1)%nat]) :: APush (lin2 1 n (- (1)) (n + 2)) ::
    APush (HMul [x; (n + 3)%nat]) :: AAssert (n + 4) :: bool_acts (n + 3) (n + 5) ++ [AMark (n + 7)].
  Lemma transform_iszero cv x n : cv x = None -> transform cv (SIsZero x) n = (iz_acts x n, (n + 8)%nat, TVars [(n + 3)%nat]).
  Proof.
    intros H. cbn [transform]. rewrite H. wb. rewrite ?lin2_nout. cbn [h_nout].
    repeat match goal with |- context [(n + ?a + ?b)%nat] => let c := eval cbv in (a + b)%nat in replace (n + a + b)%nat with (n + c)%nat by lia end.
    rewrite !bool_cond_acts. cbv beta iota.
    repeat match goal with |- context [(n + ?a + ?b)%nat] => let c := eval cbv in (a + b)%nat in replace (n + a + b)%nat with (n + c)%nat by lia end.
    unfold iz_acts. cbn [app]. reflexivity.
  Qed.
  Definition tob_acts (x k n : nat) : list Act :=
    let r := tb_acts (seq n k) (n + k) 1 (n + k + 1) in
    APush (HHint (hint_id HToBinary) [x] k) :: APush (HConst (CConst 0)) :: fst r ++ [APush (lin2 (- (1)) (snd r) 1 x); AAssert (n + k + 1 + 5 * k)].
  Lemma transform_tobin cv x k n : transform cv (SToBin x k) n = (tob_acts x k n, (n + k + 1 + 5 * k + 1)%nat, TVars (seq n k)).
  Proof.
    cbn [transform]. wb. cbn [h_nout]. rewrite tb_acts_spec, seq_length. cbv beta iota. rewrite lin2_nout. unfold tob_acts. cbn [app]. reflexivity.
  Qed.

  Lemma transform_ok q cv i n : Forall (fun x => (1 <= x < n)%nat) (s_inputs F i) -> s_validate F q i = true ->
    let '(acts, n', r) := transform cv i n in acts_ok q n acts /\ n' = (n + acts_n acts)%nat /\ res_ok q n' i r.
  Proof.
    intros Hi Hv. destruct i as [l|l|x y ck|x y op|x|l|h l k|c|id l k|x y op|c t e|gt l|x k].
    - cbn [transform]. triv; cbn in *; auto.
    - cbn [transform]. triv; cbn in *; auto.
    - assert (Hx : (1 <= x < n)%nat) by (inversion Hi; auto). assert (Hy : (1 <= y < n)%nat) by (inversion Hi as [|? ? ? H]; inversion H; auto).
      cbn [transform]. destruct (cv y) as [yv|]; [destruct (is0 F yv)|destruct ck]; wb; cbn [acts_ok app h_inputs h_validate h_nout h_call lin2 lc_vars lc_terms map fst res_ok coef_validate length Nat.leb]; unfold acts_n; cbn [pushes flat_map act_push app nouts]; cbn [HnI i_nout h_nout lin2].
      + cbn. split; [exact I|split; [lia|auto]].
      + repeat split; auto; repeat constructor; lia.
      + repeat split; auto; try lia; repeat constructor; lia.
      + repeat split; auto; try lia; repeat constructor; lia.
    - assert (Hx : (1 <= x < n)%nat) by (inversion Hi; auto). assert (Hy : (1 <= y < n)%nat) by (inversion Hi as [|? ? ? H]; inversion H; auto).
      rewrite transform_bool. split; [|split; [destruct op; unfold acts_n; cbn; lia|]].
      + unfold sb_acts. rewrite acts_ok_app, bool_acts_n. split; [apply bool_acts_ok; lia|]. cbn [acts_ok]. split; [lia|]. rewrite acts_ok_app, bool_acts_n. split; [apply bool_acts_ok; lia|].
        cbn [acts_ok h_inputs h_validate h_nout h_call lin2 lc_vars lc_terms map fst length Nat.leb]. repeat (split; [solve [auto|lia|repeat constructor; lia]|]).
        rewrite acts_ok_app. replace (n + 3 + 3 + 1 + 1 + acts_n (fst (sb_res op n)))%nat with (S (snd (sb_res op n))) by (destruct op; unfold acts_n; cbn; lia).
        split; [destruct op; cbn; repeat split; auto; repeat constructor; lia|]. rewrite acts_ok_app, bool_acts_n. split; [apply bool_acts_ok; destruct op; cbn; lia|]. cbn [acts_ok]. split; [lia|exact I].
      + cbn [res_ok s_nout length]. split; [|auto]. repeat constructor; destruct op; cbn; lia.
    - assert (Hx : (1 <= x < n)%nat) by (inversion Hi; auto). destruct (cv x) as [xv|] eqn:Ex.
      + cbn [transform]. rewrite Ex. triv; cbn; auto.
      + rewrite (transform_iszero _ _ _ Ex). split; [|split; [unfold acts_n; cbn; lia|cbn [res_ok]; repeat split; auto; repeat constructor; lia]].
        unfold iz_acts. cbn [acts_ok h_inputs h_validate h_nout h_call lin2 lc_vars lc_terms map fst coef_validate length Nat.leb].
        do 16 (split; [solve [auto|lia|repeat constructor; lia]|]). rewrite acts_ok_app, bool_acts_n. replace (n + 1 + 1 + 1 + 1 + 1)%nat with (n + 5)%nat by lia. split; [apply bool_acts_ok; lia|]. cbn [acts_ok]. split; [lia|exact I].
    - cbn [transform]. triv; cbn; repeat split; auto.
    - cbn [transform]. triv; cbn in *; auto.
    - cbn [transform]. triv; cbn in *; auto.
    - cbn [transform]. triv; cbn in *; auto.
    - assert (Hh : validate_hint (hint_id (op_hint op)) 2 1 = true) by (destruct op; reflexivity).
      assert (Hg : res_ok q n (SUnOp x y op) (TInsn (HHint (hint_id (op_hint op)) [x; y] 1))) by (cbn [res_ok h_inputs h_validate length Nat.eqb negb h_nout s_nout h_call s_call]; rewrite Hh; auto).
      cbn [transform]. destruct (cv x) as [xv|]; [destruct (cv y) as [yv|]; [destruct (unop_eval op xv yv) as [v|]|]|]; triv; auto; cbn; auto.
    - cbn [s_inputs] in Hi. inversion Hi as [|? ? Hc H1]; subst. inversion H1 as [|? ? Ht H2]; subst. inversion H2 as [|? ? He H3]; subst.
      cbn [transform]. destruct (cv c) as [v|]; [destruct (is0 F v)|]; triv; auto; cbn; auto.
    - cbn [transform]. triv; cbn in *; auto.
    - assert (Hx : (1 <= x < n)%nat) by (inversion Hi; auto). rewrite transform_tobin. unfold tob_acts.
      assert (Hbits : Forall (fun x => (1 <= x < n + k + 1)%nat) (seq n k)) by (apply Forall_forall; intros z Hz; apply in_seq in Hz; lia).
      destruct (tb_acts_ok q (seq n k) (n + k)%nat 1 (n + k + 1)%nat Hbits ltac:(lia)) as [A [B C]]. rewrite seq_length in B, C.
      cbn [s_validate] in Hv. apply Nat.ltb_lt in Hv. split; [|split].
      + cbn [acts_ok h_inputs h_validate h_nout h_call coef_validate]. split; [auto|]. split.
        { cbn [length Nat.eqb negb]. rewrite andb_true_r. unfold validate_hint, hint_id. rewrite builtin_of_id. cbn [validate_builtin_hint Nat.eqb andb]. destruct k; auto; lia. }
        split; [auto|]. split; [constructor|]. split; [auto|]. split; [auto|]. rewrite acts_ok_app. rewrite B. split; auto. cbn [acts_ok h_inputs h_validate h_nout h_call lin2 lc_vars lc_terms map fst].
        repeat (split; [solve [auto|lia|repeat constructor; lia]|]). exact I.
      + change (?a :: ?b :: ?l) with ([a; b] ++ l). rewrite !acts_n_app, B. unfold acts_n; cbn. lia.
      + cbn [res_ok]. rewrite seq_length. repeat split; auto. eapply Forall_impl; [|exact Hbits]. cbn; intros; lia.
  Qed.

  (* ---------- what it computes ---------- *)
  Ltac len := rewrite ?app_length; cbn [length]; lia.
  Ltac gv := repeat first [rewrite getv_snoc_eq by len | rewrite getv_snoc_lt by len].
  Ltac gvin H := repeat first [rewrite getv_snoc_eq in H by len | rewrite getv_snoc_lt in H by len].
  Definition bool_vals (vals : list F) (a : nat) : list F := ((vals ++ [1]) ++ [getv vals a - 1]) ++ [getv vals a * (getv vals a - 1)].
  Lemma bool_vals_len vals a : length (bool_vals vals a) = (length vals + 3)%nat.
  Proof. unfold bool_vals. rewrite !app_length. cbn [length]. lia. Qed.
  Lemma bool_vals_lt vals a x : (x < length vals)%nat -> getv (bool_vals vals a) x = getv vals x.
  Proof. intros H. unfold bool_vals. gv. auto. Qed.
  Lemma bool_vals_res vals a x : x = (length vals + 2)%nat -> getv (bool_vals vals a) x = getv vals a * (getv vals a - 1).
  Proof. intros ->. unfold bool_vals. gv. auto. Qed.
  Lemma prun_bool E a n rest vals vals' : n = length vals -> (a < n)%nat -> prun E (bool_acts a n ++ rest) vals vals' <-> prun E rest (bool_vals vals a) vals'.
  Proof.
    intros -> Ha. unfold bool_acts. cbn [app]. rewrite prun_const. unfold lin2. rewrite prun_lin, prun_mul, lin2_eval, mul2_eval. gv.
    unfold bool_vals. match goal with |- prun _ _ (((vals ++ [1]) ++ [?u]) ++ [?w]) _ <-> _ => replace u with (getv vals a - 1) by ring end. reflexivity.
  Qed.

  Definition post (E : Env F) (i : SInsn F) (g : nat -> F) (vals' : list F) (r : @TRes F) : Prop :=
    match r with
    | TInsn o => forall outs, h_sem F E o (getv vals') outs -> rel_sem E i g outs
    | TVars l => rel_sem E i g (map (getv vals') l)
    | TErr => True
    end.
  Definition zeros (vals : list F) (l : list nat) : Prop := Forall (fun x => getv vals x = 0) l.

  (* the loop over the bits adds bit * 2^k to the sum and asserts every bit *)
  Lemma tb_run E bits : forall sum c n vals, n = length vals -> Forall (fun x => (x < n)%nat) bits -> (sum < n)%nat ->
    exists w, (forall vals', prun E (fst (tb_acts bits sum c n)) vals vals' <-> vals' = vals ++ w) /\
      getv (vals ++ w) (snd (tb_acts bits sum c n)) = getv vals sum + c * from_bits (map (getv vals) bits) /\
      (forall u, zeros ((vals ++ w) ++ u) (asserts (fst (tb_acts bits sum c n))) <-> Forall bool01 (map (getv vals) bits)) /\ marks (fst (tb_acts bits sum c n)) = [] /\
      length w = (5 * length bits)%nat.
  Proof.
    induction bits as [|bit bits IH]; intros sum c n vals Hn Hb Hs; cbn [tb_acts fst snd].
    - exists []. split; [intros; rewrite app_nil_r; reflexivity|]. rewrite app_nil_r. cbn [map from_bits]. split; [ring|]. split; [intros u; split; intros; constructor|auto].
    - inversion Hb as [|? ? Hx Hb2]; subst. set (n := length vals) in *.
      set (v3 := bool_vals vals bit). assert (L3 : length v3 = (n + 3)%nat) by apply bool_vals_len.
      set (v5 := (v3 ++ [getv vals bit * c]) ++ [getv vals sum + getv vals bit * c]). assert (L5 : length v5 = (n + 5)%nat) by (unfold v5; len).
      assert (G5 : forall x, (x < n)%nat -> getv v5 x = getv vals x). { intros x Hx5. unfold v5. gv. apply bool_vals_lt; auto. }
      destruct (IH (n + 4)%nat (c + c) (n + 5)%nat v5) as [w [W1 [W2 [W3 [W4 W5]]]]]; [auto|eapply Forall_impl; [|exact Hb2]; cbn; intros; lia|lia|].
      assert (Hv5 : exists u, v5 = vals ++ u /\ length u = 5%nat). { unfold v5, v3, bool_vals. rewrite <- !app_assoc. eexists. split; reflexivity. }
      destruct Hv5 as [u [Hu Lu]].
      assert (Hmap : map (getv v5) bits = map (getv vals) bits). { apply map_ext_in. intros x Hxb. apply G5. rewrite Forall_forall in Hb2. auto. }
      rewrite Hmap in W2, W3. exists (u ++ w). rewrite app_assoc, <- Hu. split; [|split; [|split; [|split]]].
      + intros vals'. rewrite prun_bool by auto. fold v3. rewrite prun_assert, prun_lin. unfold lin2 at 1. rewrite prun_lin, lin1_eval, lin2_eval.
        assert (E1 : getv v3 bit = getv vals bit) by (apply bool_vals_lt; auto). assert (E2 : getv v3 sum = getv vals sum) by (apply bool_vals_lt; auto).
        gv. rewrite E1, E2. match goal with |- prun _ _ ((v3 ++ [?a]) ++ [?b]) _ <-> _ => replace b with (getv vals sum + getv vals bit * c) by ring end. fold v5. apply W1.
      + rewrite W2. unfold v5 at 1. gv. cbn [map from_bits]. replace (ofZ 2) with (1 + 1 : F) by (rewrite <- ofZ_1, <- ofZ_add; reflexivity). ring.
      + intros u0. rewrite asserts_app. cbn [asserts flat_map app bool_acts]. fold (asserts (fst (tb_acts bits (n + 4) (c + c) (n + 5)))). cbn [map]. unfold zeros. rewrite Forall_cons_iff, Forall_cons_iff. fold (zeros ((v5 ++ w) ++ u0) (asserts (fst (tb_acts bits (n + 4) (c + c) (n + 5))))). rewrite W3. 
        rewrite <- app_assoc, getv_app1 by lia. unfold v5. gv. unfold v3. rewrite bool_vals_res by auto. rewrite <- bool01_poly. reflexivity.
      + rewrite marks_app. cbn [marks flat_map app bool_acts]. exact W4.
      + rewrite app_length, Lu, W5. cbn [length]. lia.
  Qed.

  Lemma transform_bwd E cv i vals : (forall x c, cv x = Some c -> getv vals x = c) -> Forall (fun x => (1 <= x < length vals)%nat) (s_inputs F i) -> s_call F i = None ->
    let '(acts, _, r) := transform cv i (length vals) in
    forall vals', prun E acts vals vals' -> zeros vals' (asserts acts) -> zeros vals' (marks acts) /\ post E i (getv vals) vals' r.
  Proof.
    intros Hcv Hi Hc. set (n := length vals) in *.
    destruct i as [l|l|x y ck|x y op|x|l|h l k|c|id l k|x y op|c t e|gt l|x k].
    1,2,7,8,12: cbn [transform]; unfold wret; intros vals' H Hz; rewrite prun_nil in H; subst vals'; (split; [constructor|]).
    1-5: cbn [post h_sem rel_sem s_sem s_det]; intros outs Ho; subst; auto.
    - assert (Hx : (1 <= x < n)%nat) by (inversion Hi; auto). assert (Hy : (1 <= y < n)%nat) by (inversion Hi as [|? ? ? H]; inversion H; auto).
      cbn [transform]. destruct (cv y) as [yv|] eqn:Ey; [destruct (is0 F yv) eqn:Ez|destruct ck].
      + wb. intros vals' _ _. split; [constructor|exact I].
      + wb. cbn [app]. intros vals' H Hz. rewrite prun_const, prun_nil in H. subst vals'. split; [constructor|]. cbn [post h_sem]. intros outs ->. rewrite mul2_eval. gv.
        assert (Hnz : yv <> 0) by (intros ->; rewrite (proj2 (is0_spec F 0) eq_refl) in Ez; discriminate).
        destruct ck; cbn [rel_sem s_sem s_det]; [|eexists; split; [reflexivity|rewrite (Hcv _ _ Ey); field; auto]].
        unfold div_eval. rewrite (Hcv _ _ Ey), Ez. reflexivity.
      + wb. cbn [app]. rewrite ?lin2_nout. cbn [h_nout]. intros vals' H Hz. rewrite prun_const, prun_hint1 in H. destruct H as [v [_ H]]. unfold lin2 in H. rewrite prun_mul, prun_lin, prun_assert, prun_nil in H.
        rewrite mul2_eval, lin2_eval in H. gvin H. subst vals'. split; [constructor|]. unfold zeros in Hz. cbn [asserts flat_map app] in Hz. inversion Hz as [|? ? Hz1 _]; subst.
        revert Hz1. gv. intros Hz1. cbn [post h_sem]. intros outs ->. rewrite mul2_eval. gv. cbn [rel_sem s_sem s_det]. unfold div_eval.
        assert (Hyv : getv vals y * v = 1) by (apply fsub_0; rewrite <- Hz1; ring).
        assert (Hnz : getv vals y <> 0). { intros H0. rewrite H0 in Hyv. apply (f1_neq_f0 F). rewrite <- Hyv. ring. }
        destruct (is0 F (getv vals y)) eqn:E0; [apply is0_spec in E0; contradiction|]. cbn [obind]. do 2 f_equal. replace v with (Field.finv (getv vals y)); auto.
        replace (Field.finv (getv vals y)) with (Field.finv (getv vals y) * (getv vals y * v)) by (rewrite Hyv; ring). field. auto.
      + wb. cbn [app]. rewrite ?lin2_nout. cbn [h_nout]. intros vals' H Hz. rewrite prun_hint1 in H. destruct H as [v [_ H]]. unfold lin2 in H. rewrite prun_mul, prun_lin, prun_assert, prun_nil in H.
        rewrite mul2_eval, lin2_eval in H. gvin H. subst vals'. split; [constructor|]. unfold zeros in Hz. cbn [asserts flat_map app] in Hz. inversion Hz as [|? ? Hz1 _]; subst.
        revert Hz1. gv. intros Hz1. cbn [post map rel_sem]. gv. exists v. split; auto. apply fsub_0. rewrite <- Hz1. ring.
    - assert (Hx : (1 <= x < n)%nat) by (inversion Hi; auto). assert (Hy : (1 <= y < n)%nat) by (inversion Hi as [|? ? ? H]; inversion H; auto).
      rewrite transform_bool. intros vals' H Hz. unfold sb_acts in H, Hz |- *.
      rewrite prun_bool, prun_assert, prun_bool, prun_assert in H by (rewrite ?bool_vals_len; lia).
      set (v1 := bool_vals vals x) in *. set (v2 := bool_vals v1 y) in *. assert (L1 : length v1 = (n + 3)%nat) by apply bool_vals_len. assert (L2 : length v2 = (n + 6)%nat) by (unfold v2; rewrite bool_vals_len; lia).
      assert (G2 : forall z, (z < n)%nat -> getv v2 z = getv vals z). { intros z Hzn. unfold v2. rewrite bool_vals_lt by lia. apply bool_vals_lt; auto. }
      unfold lin2 at 1 in H. rewrite prun_lin, prun_mul, lin2_eval, mul2_eval in H. gvin H. rewrite !G2 in H by lia.
      set (v4 := (v2 ++ [_]) ++ [_]) in H. assert (L4 : length v4 = (n + 8)%nat) by (unfold v4; len).
      set (res := match op with BAnd => getv vals x * getv vals y | BOr => getv vals x + getv vals y - getv vals x * getv vals y | BXor => getv vals x + getv vals y - (1 + 1) * (getv vals x * getv vals y) end).
      assert (H2 : exists v5, prun E (bool_acts (snd (sb_res op n)) (S (snd (sb_res op n))) ++ [AMark (snd (sb_res op n) + 3)]) v5 vals' /\ length v5 = S (snd (sb_res op n)) /\ getv v5 (snd (sb_res op n)) = res /\ forall z, (z < n + 8)%nat -> getv v5 z = getv v4 z).
      { destruct op; cbn [sb_res fst snd app] in H |- *.
        - unfold lin2 in H. rewrite prun_lin, lin2_eval in H. eexists. split; [exact H|]. split; [len|]. split; [|intros; gv; auto]. gv. unfold v4. gv. unfold res. ring.
        - unfold lin2 in H. rewrite prun_lin, lin2_eval in H. eexists. split; [exact H|]. split; [len|]. split; [|intros; gv; auto]. gv. unfold v4. gv. unfold res. ring.
        - exists v4. split; [exact H|]. split; [lia|]. split; [|auto]. unfold v4. gv. auto. }
      clear H. destruct H2 as [v5 [H [L5 [R5 G5]]]]. set (rv := snd (sb_res op n)) in *. assert (Hrv : (n + 7 <= rv)%nat) by (unfold rv; destruct op; cbn; lia).
      rewrite prun_bool, prun_mark, prun_nil in H by lia. subst vals'. set (v6 := bool_vals v5 rv) in *.
      assert (As : asserts (bool_acts x n ++ AAssert (n + 2) :: bool_acts y (n + 3) ++ AAssert (n + 5) :: APush (lin2 1 x 1 y) :: APush (HMul [x; y]) :: fst (sb_res op n) ++ bool_acts rv (S rv) ++ [AMark (rv + 3)]) = [(n + 2)%nat; (n + 5)%nat]) by (destruct op; reflexivity).
      rewrite As in Hz. unfold zeros in Hz. inversion Hz as [|? ? Z1 Hz2]; subst. inversion Hz2 as [|? ? Z2 _]; subst.
      assert (Gv : forall z, (z < n + 8)%nat -> (z < length v5)%nat -> getv v6 z = getv v4 z). { intros z Hz8 Hz5. unfold v6. rewrite bool_vals_lt by auto. apply G5. auto. }
      rewrite Gv in Z1, Z2 by lia. unfold v4 in Z1, Z2. gvin Z1. gvin Z2.
      unfold v2 in Z1. rewrite bool_vals_lt in Z1 by lia. unfold v1 in Z1. rewrite bool_vals_res in Z1 by auto. apply bool01_poly in Z1.
      unfold v2 in Z2. rewrite bool_vals_res in Z2 by lia. unfold v1 in Z2. rewrite bool_vals_lt in Z2 by lia. apply bool01_poly in Z2.
      assert (Hres : bool01 res). { unfold res, bool01. destruct Z1 as [-> | ->], Z2 as [-> | ->]; destruct op; (left; ring) || (right; ring). }
      split.
      + assert (Mk : marks (bool_acts x n ++ AAssert (n + 2) :: bool_acts y (n + 3) ++ AAssert (n + 5) :: APush (lin2 1 x 1 y) :: APush (HMul [x; y]) :: fst (sb_res op n) ++ bool_acts rv (S rv) ++ [AMark (rv + 3)]) = [(rv + 3)%nat]) by (destruct op; reflexivity).
        rewrite Mk. constructor; [|constructor]. unfold v6. rewrite bool_vals_res by lia. rewrite R5. apply bool01_poly. auto.
      + cbn [post map rel_sem s_sem s_det]. unfold v6. rewrite bool_vals_lt by lia. rewrite R5. unfold bool_eval. apply boolean_spec in Z1, Z2. rewrite Z1, Z2. cbn [andb obind].
        unfold res. destruct op; do 2 f_equal. replace (ofZ 2) with (1 + 1 : F) by (rewrite <- ofZ_1, <- ofZ_add; reflexivity). ring.
    - assert (Hx : (1 <= x < n)%nat) by (inversion Hi; auto). destruct (cv x) as [xv|] eqn:Ex.
      + cbn [transform]. rewrite Ex. unfold wret. intros vals' H _. rewrite prun_nil in H. subst. split; [constructor|]. cbn [post h_sem]. intros outs [v [-> Hv]]. cbn [coef_sem] in Hv. subst v.
        cbn [rel_sem s_sem s_det]. rewrite (Hcv _ _ Ex). unfold fbool. reflexivity.
      + rewrite (transform_iszero _ _ _ Ex). intros vals' H Hz. unfold iz_acts in H, Hz |- *. rewrite prun_const, prun_hint1 in H. destruct H as [v [_ H]]. unfold lin2 in H at 1.
        rewrite prun_mul, prun_lin, prun_mul, prun_assert, lin2_eval, !mul2_eval in H. gvin H. rewrite prun_bool, prun_mark, prun_nil in H by len. set (v5 := _ ++ [_]) in H.
        assert (L5 : length v5 = (n + 5)%nat) by (unfold v5; len). subst vals'. unfold zeros in Hz. cbn [asserts flat_map app bool_acts] in Hz. inversion Hz as [|? ? Z1 _]; subst.
        rewrite bool_vals_lt in Z1 by lia. unfold v5 in Z1. gvin Z1.
        assert (M5 : getv v5 (n + 3) = 1 - getv vals x * v) by (unfold v5; gv; ring).
        assert (Z2 : getv vals x * (1 - getv vals x * v) = 0) by (rewrite <- Z1; ring). clear Z1. apply fmul_0 in Z2.
        split.
        * cbn [marks flat_map app bool_acts]. constructor; [|constructor]. rewrite bool_vals_res by lia. rewrite M5. destruct Z2 as [-> | ->]; ring.
        * cbn [post map rel_sem s_sem s_det]. rewrite bool_vals_lt by lia. rewrite M5. destruct (is0 F (getv vals x)) eqn:E0.
          -- apply is0_spec in E0. rewrite E0. unfold fbool. do 2 f_equal. ring.
          -- destruct Z2 as [Z2|Z2]; [apply is0_spec in Z2; congruence|]. rewrite Z2. reflexivity.
    - cbn [transform]. unfold wret. intros vals' H _. rewrite prun_nil in H. subst. split; [constructor|]. cbn [post h_sem rel_sem]. intros outs [v [-> Hv]]. exists v. auto.
    - discriminate.
    - cbn [transform]. assert (Hh : forall vals', post E (SUnOp x y op) (getv vals) vals' (TInsn (HHint (hint_id (op_hint op)) [x; y] 1))).
      { intros vals'. cbn [post h_sem rel_sem]. intros outs [Hl _]. destruct outs as [|v [|]]; try discriminate. eauto. }
      destruct (cv x) as [xv|]; [destruct (cv y) as [yv|]; [destruct (unop_eval op xv yv) as [v|]|]|]; unfold wret; intros vals' H _; (split; [constructor|]); auto.
      + cbn [post h_sem rel_sem]. intros outs [w [-> _]]. eauto.
      + exact I.
    - cbn [transform]. destruct (cv c) as [v|]; [destruct (is0 F v)|]; unfold wret; intros vals' H _; (split; [constructor|]).
      + cbn [post map rel_sem]. eauto. + cbn [post map rel_sem]. eauto.
      + cbn [post h_sem rel_sem]. intros outs [Hl _]. destruct outs as [|w [|]]; try discriminate. eauto.
    - assert (Hx : (1 <= x < n)%nat) by (inversion Hi; auto). rewrite transform_tobin. intros vals' H Hz. unfold tob_acts in H, Hz |- *.
      cbn [prun h_sem] in H. destruct H as [bits [[Lb _] [zv [[z0 [-> Hz0]] H]]]]. cbn [coef_sem] in Hz0. subst z0. apply prun_app in H. destruct H as [mid [H1 H2]].
      set (vb := (vals ++ bits) ++ [0]) in *. assert (Lv : length vb = (n + k + 1)%nat) by (unfold vb; rewrite !app_length; cbn [length]; fold n; lia).
      destruct (tb_run E (seq n k) (n + k)%nat 1 (n + k + 1)%nat vb) as [w [W1 [W2 [W3 [W4 W5]]]]]; [auto|apply Forall_forall; intros z Hs; apply in_seq in Hs; lia|lia|].
      apply W1 in H1. subst mid. unfold lin2 in H2. rewrite prun_lin, prun_assert, prun_nil, lin2_eval in H2. rewrite seq_length in W5.
      assert (Gx : getv (vb ++ w) x = getv vals x). { rewrite getv_app1 by lia. unfold vb. rewrite getv_snoc_lt by (rewrite app_length; fold n; lia). apply getv_app1. fold n. lia. }
      rewrite Gx, W2 in H2. assert (G0 : getv vb (n + k) = 0) by (unfold vb; apply getv_snoc_eq; rewrite app_length; fold n; lia). rewrite G0 in H2.
      assert (Gb : map (getv vb) (seq n k) = bits).
      { transitivity (map (getv (vals ++ bits)) (seq n k)).
        - apply map_ext_in. intros z Hs. apply in_seq in Hs. unfold vb. apply getv_snoc_lt. rewrite app_length. fold n. lia.
        - rewrite <- Lb. clear. unfold n. apply (nth_ext _ _ 0 0); [rewrite map_length, seq_length; auto|]. intros j Hj. rewrite map_length, seq_length in Hj.
          rewrite (nth_indep _ 0 (getv (vals ++ bits) 0)) by (rewrite map_length, seq_length; auto). rewrite map_nth, seq_nth by auto. rewrite getv_app2 by lia. unfold getv. f_equal. lia. }
      rewrite Gb in H2, W3. cbn [asserts flat_map app] in Hz. unfold zeros in Hz. fold (asserts (fst (tb_acts (seq n k) (n + k) 1 (n + k + 1)) ++ [APush (lin2 (- (1)) (snd (tb_acts (seq n k) (n + k) 1 (n + k + 1))) 1 x); AAssert (n + k + 1 + 5 * k)])) in Hz.
      rewrite asserts_app in Hz. apply Forall_app in Hz. destruct Hz as [Z1 Z2]. cbn [asserts flat_map app] in Z2. inversion Z2 as [|? ? Z3 _]; subst.
      apply W3 in Z1. split.
      + cbn [marks flat_map app]. fold (marks (fst (tb_acts (seq n (length bits)) (n + length bits) 1 (n + length bits + 1)) ++ [APush (lin2 (- (1)) (snd (tb_acts (seq n (length bits)) (n + length bits) 1 (n + length bits + 1))) 1 x); AAssert (n + length bits + 1 + 5 * length bits)])).
        rewrite marks_app, W4. constructor.
      + cbn [post rel_sem]. rewrite getv_snoc_eq in Z3 by (rewrite app_length; lia).
        assert (Em : map (getv ((vb ++ w) ++ [(0 + 1 * from_bits bits) * - (1) + getv vals x * 1])) (seq n (length bits)) = bits).
        { transitivity (map (getv vb) (seq n (length bits))); [|exact Gb]. apply map_ext_in. intros z Hs. apply in_seq in Hs. rewrite <- app_assoc, getv_app1 by lia. auto. }
        rewrite Em. split; auto. split; auto. apply fsub_0. symmetry. transitivity (- ((0 + 1 * from_bits bits) * - (1) + getv vals x * 1)); [rewrite Z3; ring|ring].
  Qed.

  Definition fpost (E : Env F) (outs vals' : list F) (r : @TRes F) : Prop :=
    match r with
    | TInsn o => h_sem F E o (getv vals') outs
    | TVars l => map (getv vals') l = outs
    | TErr => True
    end.
  Lemma honest_unop op (x y v : F) : unop_eval op x y = Some v -> impl_builtin_hint (op_hint op) 1 [x; y] = Some [v].
  Proof.
    assert (Hb : forall b : bool, ofZ (Z.b2z b) = fbool b :> F) by (intros []; cbn [Z.b2z fbool]; [apply ofZ_1|apply ofZ_0]).
    destruct op; cbn [unop_eval op_hint impl_builtin_hint binop_hint]; unfold on_u256; cbn [obind]; intros H; try (injection H as <-; rewrite ?Hb; reflexivity).
    - destruct (is0 F y); [discriminate|]. injection H as <-. reflexivity.
    - destruct (toZ y =? 0)%Z; [discriminate|]. injection H as <-. reflexivity.
    - destruct (toZ y =? 0)%Z; [discriminate|]. injection H as <-. reflexivity.
    - destruct (shift_l (toZ x) (toZ y)); [|discriminate]. injection H as <-. reflexivity.
    - destruct (shift_r (toZ x) (toZ y)); [|discriminate]. injection H as <-. reflexivity.
  Qed.
  Lemma honest_div E (x y : F) : honest E -> e_hint E (hint_id HDiv) 1%nat [x; y] [if is0 F y then 0 else x * Field.finv y].
  Proof. intros H. apply H. reflexivity. Qed.

  Lemma transform_fwd E cv i vals outs : honest E -> (forall x c, cv x = Some c -> getv vals x = c) -> Forall (fun x => (1 <= x < length vals)%nat) (s_inputs F i) -> s_call F i = None ->
    s_sem F E i (getv vals) outs ->
    let '(acts, _, r) := transform cv i (length vals) in
    exists vals', prun E acts vals vals' /\ zeros vals' (asserts acts) /\ zeros vals' (marks acts) /\ fpost E outs vals' r.
  Proof.
    intros Hh Hcv Hi Hc Hs.
    assert (Goal1 : let '(acts, _, r) := transform cv i (length vals) in exists vals', prun E acts vals vals' /\ zeros vals' (asserts acts) /\ fpost E outs vals' r).
    2: { pose proof (transform_bwd E cv i vals Hcv Hi Hc) as Hb. destruct (transform cv i (length vals)) as [[acts n'] r]. destruct Goal1 as [vals' [H1 [H2 H3]]]. exists vals'. destruct (Hb vals' H1 H2). auto. }
    set (n := length vals) in *.
    destruct i as [l|l|x y ck|x y op|x|l|h l k|c|id l k|x y op|c t e|gt l|x k].
    1,2,7,8,12: cbn [transform]; unfold wret; exists vals; (split; [reflexivity|split; [constructor|]]).
    1-5: cbn [fpost h_sem]; cbn [s_sem s_det] in Hs; try (injection Hs as <-); auto.
    - assert (Hx : (1 <= x < n)%nat) by (inversion Hi; auto). assert (Hy : (1 <= y < n)%nat) by (inversion Hi as [|? ? ? H]; inversion H; auto).
      cbn [transform]. cbn [s_sem s_det] in Hs. unfold div_eval in Hs. destruct (cv y) as [yv|] eqn:Ey; [destruct (is0 F yv) eqn:Ez|destruct ck].
      + wb. exists vals. split; [reflexivity|split; [constructor|exact I]].
      + wb. cbn [app]. rewrite (Hcv _ _ Ey), Ez in Hs. cbn [obind] in Hs. injection Hs as <-. eexists. split; [rewrite prun_const; reflexivity|]. split; [constructor|]. cbn [fpost h_sem]. rewrite mul2_eval. gv. auto.
      + wb. cbn [app]. rewrite ?lin2_nout. cbn [h_nout]. destruct (is0 F (getv vals y)) eqn:E0; [rewrite andb_false_r in Hs; discriminate|]. cbn [obind] in Hs. injection Hs as <-.
        assert (Hnz : getv vals y <> 0) by (intros H0; apply is0_spec in H0; congruence).
        eexists. split.
        { rewrite prun_const, prun_hint1. eexists. split; [cbn [map]; apply (honest_div E _ _ Hh)|]. gv. rewrite E0. unfold lin2. rewrite prun_mul, prun_lin, prun_assert, prun_nil, mul2_eval, lin2_eval. gv. reflexivity. }
        split.
        * cbn [asserts flat_map app]. constructor; [|constructor]. gv. field. auto.
        * cbn [fpost h_sem]. rewrite mul2_eval. gv. do 2 f_equal. ring.
      + wb. cbn [app]. rewrite ?lin2_nout. cbn [h_nout]. eexists. split.
        { rewrite prun_hint1. eexists. split; [cbn [map]; apply (honest_div E _ _ Hh)|]. unfold lin2. rewrite prun_mul, prun_lin, prun_assert, prun_nil, mul2_eval, lin2_eval. gv. reflexivity. }
        destruct (is0 F (getv vals y)) eqn:E0.
        * destruct (is0 F (getv vals x)) eqn:E1; [|discriminate]. cbn [andb negb obind] in Hs. injection Hs as <-. split.
          -- cbn [asserts flat_map app]. constructor; [|constructor]. gv. apply is0_spec in E1. rewrite E1. ring.
          -- cbn [fpost map]. gv. auto.
        * cbn [obind] in Hs. injection Hs as <-. assert (Hnz : getv vals y <> 0) by (intros H0; apply is0_spec in H0; congruence). split.
          -- cbn [asserts flat_map app]. constructor; [|constructor]. gv. field. auto.
          -- cbn [fpost map]. gv. auto.
    - assert (Hx : (1 <= x < n)%nat) by (inversion Hi; auto). assert (Hy : (1 <= y < n)%nat) by (inversion Hi as [|? ? ? H]; inversion H; auto).
      rewrite transform_bool.
      cbn [s_sem s_det] in Hs. unfold bool_eval in Hs. destruct (boolean F (getv vals x)) eqn:B1; [|discriminate]. destruct (boolean F (getv vals y)) eqn:B2; [|discriminate].
      apply boolean_spec in B1, B2.
      set (v1 := bool_vals vals x). set (v2 := bool_vals v1 y). assert (L1 : length v1 = (n + 3)%nat) by apply bool_vals_len. assert (L2 : length v2 = (n + 6)%nat) by (unfold v2; rewrite bool_vals_len; lia).
      assert (G2 : forall z, (z < n)%nat -> getv v2 z = getv vals z). { intros z Hzn. unfold v2. rewrite bool_vals_lt by lia. apply bool_vals_lt; auto. }
      set (v4 := (v2 ++ [getv vals x * 1 + getv vals y * 1]) ++ [getv vals x * getv vals y]). assert (L4 : length v4 = (n + 8)%nat) by (unfold v4; len).
      set (rv := snd (sb_res op n)).
      assert (H5 : exists v5, (forall vals', prun E (bool_acts rv (S rv) ++ [AMark (rv + 3)]) v5 vals' -> prun E (fst (sb_res op n) ++ bool_acts rv (S rv) ++ [AMark (rv + 3)]) v4 vals') /\ length v5 = S rv /\ forall z, (z < n + 8)%nat -> getv v5 z = getv v4 z).
      { destruct op; cbn [sb_res fst snd app rv].
        - eexists. split; [intros vals' H; unfold lin2; rewrite prun_lin; exact H|]. split; [unfold rv; cbn [sb_res snd]; len|intros; gv; auto].
        - eexists. split; [intros vals' H; unfold lin2; rewrite prun_lin; exact H|]. split; [unfold rv; cbn [sb_res snd]; len|intros; gv; auto].
        - exists v4. split; [auto|]. split; [unfold rv; cbn [sb_res snd]; lia|auto]. }
      destruct H5 as [v5 [H5 [L5 G5]]]. assert (Hrv : (n + 7 <= rv)%nat) by (unfold rv; destruct op; cbn; lia).
      set (v6 := bool_vals v5 rv).
      assert (Hrun : prun E (sb_acts x y op n) vals v6).
      { unfold sb_acts. rewrite prun_bool, prun_assert, prun_bool, prun_assert by (rewrite ?bool_vals_len; lia). fold v1. fold v2. unfold lin2 at 1.
        rewrite prun_lin, prun_mul, lin2_eval, mul2_eval. gv. rewrite !G2 by lia. fold v4. apply H5. rewrite prun_bool, prun_mark, prun_nil by lia. reflexivity. }
      assert (Hz : zeros v6 (asserts (sb_acts x y op n))).
      { replace (asserts (sb_acts x y op n)) with [(n + 2)%nat; (n + 5)%nat] by (destruct op; reflexivity).
        assert (Gv : forall z, (z < n + 8)%nat -> (z < length v5)%nat -> getv v6 z = getv v4 z). { intros z Hz8 Hz5. unfold v6. rewrite bool_vals_lt by auto. apply G5. auto. }
        constructor; [|constructor; [|constructor]]; rewrite Gv by lia; unfold v4; gv; unfold v2.
        - rewrite bool_vals_lt by lia. unfold v1. rewrite bool_vals_res by auto. apply bool01_poly. auto.
        - rewrite bool_vals_res by lia. unfold v1. rewrite bool_vals_lt by lia. apply bool01_poly. auto. }
      exists v6. split; auto. split; auto. pose proof (transform_bwd E cv (SBool x y op) vals Hcv Hi Hc) as Hb. fold n in Hb. rewrite transform_bool in Hb. destruct (Hb v6 Hrun Hz) as [_ Hp].
      cbn [post rel_sem s_sem s_det] in Hp. unfold bool_eval in Hp. apply boolean_spec in B1, B2. rewrite B1, B2 in Hp. cbn [fpost]. fold rv in Hp. cbn [andb obind] in Hs, Hp. congruence.
    - assert (Hx : (1 <= x < n)%nat) by (inversion Hi; auto). destruct (cv x) as [xv|] eqn:Ex.
      + cbn [transform]. rewrite Ex. unfold wret. exists vals. split; [reflexivity|split; [constructor|]]. cbn [fpost h_sem]. cbn [s_sem s_det] in Hs. rewrite (Hcv _ _ Ex) in Hs. injection Hs as <-. eexists. split; [reflexivity|]. reflexivity.
      + rewrite (transform_iszero _ _ _ Ex). set (v := if is0 F (getv vals x) then 0 else 1 * Field.finv (getv vals x)).
        set (v5 := ((((vals ++ [1]) ++ [v]) ++ [getv vals x * v]) ++ [1 * 1 + getv vals x * v * - (1)]) ++ [getv vals x * (1 * 1 + getv vals x * v * - (1))]).
        assert (L5 : length v5 = (n + 5)%nat) by (unfold v5; len).
        assert (Hrun : prun E (iz_acts x n) vals (bool_vals v5 (n + 3))).
        { unfold iz_acts. rewrite prun_const, prun_hint1. exists v. split; [cbn [map]; gv; apply (honest_div E _ _ Hh)|]. unfold lin2 at 1. rewrite prun_mul, prun_lin, prun_mul, prun_assert, lin2_eval, !mul2_eval. gv.
          rewrite prun_bool, prun_mark, prun_nil by len. reflexivity. }
        assert (Hz : zeros (bool_vals v5 (n + 3)) (asserts (iz_acts x n))).
        { cbn [iz_acts asserts flat_map app bool_acts]. constructor; [|constructor]. rewrite bool_vals_lt by lia. unfold v5. gv. unfold v. destruct (is0 F (getv vals x)) eqn:E0.
          - apply is0_spec in E0. rewrite E0. ring. - field. intros H0; apply is0_spec in H0; congruence. }
        eexists. split; [exact Hrun|]. split; [exact Hz|]. pose proof (transform_bwd E cv (SIsZero x) vals Hcv Hi Hc) as Hb. fold n in Hb. rewrite (transform_iszero _ _ _ Ex) in Hb. destruct (Hb _ Hrun Hz) as [_ Hp].
        cbn [post rel_sem s_sem s_det] in Hp. cbn [s_sem s_det] in Hs. cbn [fpost]. congruence.
    - cbn [s_sem s_det] in Hs. discriminate.
    - discriminate.
    - cbn [s_sem s_det] in Hs. destruct (unop_eval op (getv vals x) (getv vals y)) as [v|] eqn:Eu; [|discriminate]. cbn [obind] in Hs. injection Hs as <-.
      assert (Hg : fpost E [v] vals (TInsn (HHint (hint_id (op_hint op)) [x; y] 1))).
      { cbn [fpost h_sem map]. split; auto. apply Hh. apply honest_unop. auto. }
      cbn [transform]. destruct (cv x) as [xv|] eqn:Ex; [destruct (cv y) as [yv|] eqn:Ey|]; unfold wret.
      + rewrite (Hcv _ _ Ex), (Hcv _ _ Ey) in Eu. rewrite Eu. exists vals. split; [reflexivity|split; [constructor|]]. cbn [fpost h_sem]. eexists. split; reflexivity.
      + exists vals. split; [reflexivity|split; [constructor|]]. auto.
      + exists vals. split; [reflexivity|split; [constructor|]]. auto.
    - cbn [s_sem s_det] in Hs. injection Hs as <-. cbn [transform]. destruct (cv c) as [v|] eqn:Ec; [rewrite (Hcv _ _ Ec); destruct (is0 F v) eqn:E0|]; unfold wret; exists vals; (split; [reflexivity|split; [constructor|]]).
      + cbn [fpost map]. auto. + cbn [fpost map]. auto.
      + cbn [fpost h_sem map]. split; auto. apply Hh. cbn [impl_builtin_hint]. unfold nz. destruct (is0 F (getv vals c)); reflexivity.
    - assert (Hx : (1 <= x < n)%nat) by (inversion Hi; auto). cbn [s_sem s_det] in Hs. rewrite transform_tobin.
      assert (Hprops : length outs = k /\ Forall bool01 outs /\ from_bits outs = getv vals x).
      { pose proof Hs as Hs2. rewrite to_binary_spec in Hs2. destruct (Z.ltb_spec (toZ (getv vals x)) (2 ^ Z.of_nat k)%Z) as [H|H]; [|discriminate]. injection Hs2 as <-. split; [rewrite map_length; apply bits_of_length|]. split.
        - apply Forall_forall. intros b Hb. apply in_map_iff in Hb. destruct Hb as [z [<- Hz]]. pose proof (bits_of_01 (toZ (getv vals x)) k) as G. rewrite Forall_forall in G. destruct (G z Hz) as [-> | ->]; rewrite ?ofZ_0, ?ofZ_1; [left|right]; auto.
        - rewrite from_bits_ofZ, of_bits_bits by (destruct (toZ_range F (getv vals x)); lia). apply ofZ_toZ. }
      destruct Hprops as [Lb [Hb01 Hsum]].
      set (vb := (vals ++ outs) ++ [0]). assert (Lv : length vb = (n + k + 1)%nat) by (unfold vb; rewrite !app_length; cbn [length]; fold n; lia).
      destruct (tb_run E (seq n k) (n + k)%nat 1 (n + k + 1)%nat vb) as [w [W1 [W2 [W3 [W4 W5]]]]]; [auto|apply Forall_forall; intros z Hsq; apply in_seq in Hsq; lia|lia|].
      rewrite seq_length in W5.
      assert (Gx : getv (vb ++ w) x = getv vals x). { rewrite getv_app1 by lia. unfold vb. rewrite getv_snoc_lt by (rewrite app_length; fold n; lia). apply getv_app1. fold n. lia. }
      assert (G0 : getv vb (n + k) = 0) by (unfold vb; apply getv_snoc_eq; rewrite app_length; fold n; lia).
      assert (Gb : map (getv vb) (seq n k) = outs).
      { transitivity (map (getv (vals ++ outs)) (seq n k)).
        - apply map_ext_in. intros z Hz. apply in_seq in Hz. unfold vb. apply getv_snoc_lt. rewrite app_length. fold n. lia.
        - rewrite <- Lb. clear. unfold n. apply (nth_ext _ _ 0 0); [rewrite map_length, seq_length; auto|]. intros j Hj. rewrite map_length, seq_length in Hj.
          rewrite (nth_indep _ 0 (getv (vals ++ outs) 0)) by (rewrite map_length, seq_length; auto). rewrite map_nth, seq_nth by auto. rewrite getv_app2 by lia. unfold getv. f_equal. lia. }
      rewrite Gb in W2, W3. exists ((vb ++ w) ++ [0]). split; [|split].
      + unfold tob_acts. cbn [prun h_sem]. exists outs. split; [split; auto; apply Hh; cbn [map impl_builtin_hint]; auto|]. exists [0]. split; [exists 0; split; reflexivity|]. fold vb. apply prun_app.
        exists (vb ++ w). split; [apply W1; auto|]. unfold lin2. rewrite prun_lin, prun_assert, prun_nil, lin2_eval, W2, Gx, G0, Hsum. do 2 f_equal. ring.
      + unfold tob_acts. cbn [asserts flat_map app]. fold (asserts (fst (tb_acts (seq n k) (n + k) 1 (n + k + 1)) ++ [APush (lin2 (- (1)) (snd (tb_acts (seq n k) (n + k) 1 (n + k + 1))) 1 x); AAssert (n + k + 1 + 5 * k)])).
        rewrite asserts_app. apply Forall_app. split; [apply W3; auto|]. cbn [asserts flat_map app]. constructor; [|constructor]. apply getv_snoc_eq. rewrite app_length. lia.
      + cbn [fpost]. transitivity (map (getv vb) (seq n k)); [|exact Gb]. apply map_ext_in. intros z Hz. apply in_seq in Hz. rewrite <- app_assoc, getv_app1 by lia. auto.
  Qed.
End HnTrans.
