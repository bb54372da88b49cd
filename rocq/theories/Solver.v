(* Model of the witness solver: eval_safe and eval_safe_simd (circuit/ir/hint_normalized/mod.rs:206-240, 485-650) and
   WitnessSolver (witness_solver.rs:18-107).  A SIMD value is the list of its PACK_SIZE lanes: pack and unpack are the
   identity, the arithmetic of the arith crate is taken to act lane by lane. *)
From Verif Require Import Prelude Field Expr Topo Hints Ir IrFacts IrInst Sim.

Section Solver.
  Context {F : Fld}.
  Add Field Fso : (fth F).
  Open Scope fld_scope.
  Notation HC := (Circuit (HnI F)). Notation HR := (RootCircuit (HnI F)).
  (* what the solver consults: the public inputs and the hints (safe_impl); None = the hint reports an error *)
  Variable hint : N -> nat -> list F -> option (list F).
  Definition hint_n (h : N) (n : nat) (args : list F) : option (list F) :=
    match hint h n args with Some outs => if (length outs =? n)%nat then Some outs else None | None => None end.

  Definition rbind {A B} (r : Res A) (f : A -> Res B) : Res B :=
    match r with Ok a => f a | Err => Err | Panic => Panic | OutOfFuel => OutOfFuel end.
  Definition of_opt {A} (o : option A) (r : Res A) : Res A := match o with Some a => Ok a | None => r end.

  (* mod.rs:206-240 *)
  Definition es_insn (pub : list F) (sub : nat -> list F -> Res (list F)) (i : HInsn F) (vals : list F) : Res (list F) :=
    if forallb (inbb vals) (h_inputs F i) then
      match i with
      | HConst (CConst c) => Ok [c]
      | HConst (CPub j) => of_opt (option_map (fun v => [v]) (nth_error pub j)) Panic
      | HConst CRandom => Err
      | HHint h l n => of_opt (hint_n h n (map (getv vals) l)) Err
      | HGate _ _ => Err
      | HLin l => Ok [lc_eval (getv vals) l]
      | HMul l => match l with [] => Panic | _ => Ok [mul_eval (getv vals) l] end
      | HCall id l _ => sub id (map (getv vals) l)
      end
    else Panic.
  (* mod.rs:495-529; constraints are not looked at *)
  Fixpoint es_insns (pub : list F) (sub : nat -> list F -> Res (list F)) (is : list (HInsn F)) (vals : list F) : Res (list F) :=
    match is with
    | [] => Ok vals
    | i :: is => rbind (es_insn pub sub i vals) (fun outs => es_insns pub sub is (vals ++ outs))
    end.
  Fixpoint es_sub (fuel : nat) (pub : list F) (cs : list (nat * HC)) (id : nat) (ins : list F) : Res (list F) :=
    match fuel with
    | 0%nat => OutOfFuel
    | S fuel => match lookup id cs with
                | None => Panic
                | Some c => rbind (es_insns pub (es_sub fuel pub cs) (instructions c) (0 :: ins)) (fun vals =>
                    if forallb (inbb vals) (outputs c) then Ok (map (getv vals) (outputs c)) else Panic)
                end
    end.
  (* mod.rs:485-493 *)
  Definition eval_safe (rc : HR) (pub ins : list F) : Res (list F) :=
    match lookup 0 (circuits rc) with
    | None => Panic
    | Some c => if (length ins =? num_inputs c)%nat then es_sub (length (circuits rc)) pub (circuits rc) 0 ins else Panic
    end.

  (* ------------------------------------------------------------ the SIMD version *)
  Variable P : nat.                                   (* PACK_SIZE *)
  Notation Simd := (list F).
  Definition s_one : Simd := repeat 1 P.
  Definition s_zero : Simd := repeat 0 P.
  Definition map2 {A B C} (f : A -> B -> C) (a : list A) (b : list B) : list C := map (fun p => f (fst p) (snd p)) (combine a b).
  Definition s_add (a b : Simd) : Simd := map2 fadd a b.
  Definition s_mul (a b : Simd) : Simd := map2 fmul a b.
  Definition s_scale (a : Simd) (c : F) : Simd := map (fun x => x * c) a.
  Definition lane (j : nat) (a : Simd) : F := nth j a 0.
  Definition getS (vals : list Simd) (x : nat) : Simd := nth x vals s_zero.
  Definition inbS (vals : list Simd) (x : nat) : bool := (x <? length vals)%nat.
  (* expr.rs:442-448 *)
  Definition lc_eval_simd (g : nat -> Simd) (l : LinComb F) : Simd :=
    fold_left (fun res t => s_add res (s_scale (g (fst t)) (snd t))) (lc_terms l) (s_scale s_one (lc_const l)).
  (* mod.rs:568-595: per lane, in order, the first error wins *)
  Fixpoint lanes_hint (h : N) (n : nat) (args : list Simd) (j k : nat) : option (list (list F)) :=
    match k with
    | 0%nat => Some []
    | S k => let* o := hint_n h n (map (lane j) args) in let* r := lanes_hint h n args (S j) k in Some (o :: r)
    end.
  Definition hint_simd (h : N) (n : nat) (args : list Simd) : option (list Simd) :=
    let* outs := lanes_hint h n args 0 P in
    Some (map (fun i => map (fun o => nth i o 0) outs) (seq 0 n)).
  (* mod.rs:553-635 *)
  Definition ss_insn (pub : list Simd) (sub : nat -> list Simd -> Res (list Simd)) (i : HInsn F) (vals : list Simd) : Res (list Simd) :=
    if forallb (inbS vals) (h_inputs F i) then
      match i with
      | HLin l => Ok [lc_eval_simd (getS vals) l]
      | HMul [] => Panic
      | HMul (x :: l) => Ok [fold_left (fun res i => s_mul res (getS vals i)) l (getS vals x)]
      | HHint h l n => of_opt (hint_simd h n (map (getS vals) l)) Err
      | HConst (CConst c) => Ok [s_scale s_one c]
      | HConst (CPub j) => of_opt (option_map (fun v => [v]) (nth_error pub j)) Panic
      | HConst CRandom => Err
      | HCall id l _ => sub id (map (getS vals) l)
      | HGate _ _ => Panic
      end
    else Panic.
  Fixpoint ss_insns (pub : list Simd) (sub : nat -> list Simd -> Res (list Simd)) (is : list (HInsn F)) (vals : list Simd) : Res (list Simd) :=
    match is with
    | [] => Ok vals
    | i :: is => rbind (ss_insn pub sub i vals) (fun outs => ss_insns pub sub is (vals ++ outs))
    end.
  Fixpoint ss_sub (fuel : nat) (pub : list Simd) (cs : list (nat * HC)) (id : nat) (ins : list Simd) : Res (list Simd) :=
    match fuel with
    | 0%nat => OutOfFuel
    | S fuel => match lookup id cs with
                | None => Panic
                | Some c => rbind (ss_insns pub (ss_sub fuel pub cs) (instructions c) (s_zero :: ins)) (fun vals =>
                    if forallb (inbS vals) (outputs c) then Ok (map (getS vals) (outputs c)) else Panic)
                end
    end.
  (* mod.rs:531-545 *)
  Definition eval_safe_simd (rc : HR) (pub ins : list Simd) : Res (list Simd) :=
    match lookup 0 (circuits rc) with
    | None => Panic
    | Some c => if (length ins =? num_inputs c)%nat then ss_sub (length (circuits rc)) pub (circuits rc) 0 ins else Panic
    end.

  (* ------------------------------------------------------------ lanes *)
  Definition full (a : Simd) : Prop := length a = P.
  Lemma lane_map2 (f : F -> F -> F) a b j : full a -> full b -> (j < P)%nat -> lane j (map2 f a b) = f (lane j a) (lane j b).
  Proof.
    unfold full, lane, map2. intros Ha Hb Hj.
    rewrite (nth_indep _ 0 (f 0 0)) by (rewrite map_length, combine_length; lia).
    change (f 0 0) with ((fun p => f (fst p) (snd p)) (0, 0)). rewrite map_nth. rewrite combine_nth by lia. auto.
  Qed.
  Lemma full_map2 (f : F -> F -> F) a b : full a -> full b -> full (map2 f a b).
  Proof. unfold full, map2. intros Ha Hb. rewrite map_length, combine_length. lia. Qed.
  Lemma lane_scale a c j : full a -> (j < P)%nat -> lane j (s_scale a c) = lane j a * c.
  Proof. unfold full, lane, s_scale. intros Ha Hj. rewrite (nth_indep _ 0 (0 * c)) by (rewrite map_length; lia). apply (map_nth (fun x => x * c)). Qed.
  Lemma full_scale a c : full a -> full (s_scale a c). Proof. unfold full, s_scale. rewrite map_length. auto. Qed.
  Lemma lane_const x j : (j < P)%nat -> lane j (repeat x P) = x.
  Proof. intros Hj. unfold lane. rewrite (nth_indep _ 0 x) by (rewrite repeat_length; auto). apply nth_repeat. Qed.
  Lemma full_const x : full (repeat x P). Proof. apply repeat_length. Qed.
  Lemma getS_full vals x : Forall full vals -> full (getS vals x).
  Proof.
    intros H. unfold getS. destruct (Nat.lt_ge_cases x (length vals)) as [Hl|Hl].
    - rewrite Forall_forall in H. apply H. apply nth_In; auto.
    - rewrite nth_overflow by auto. apply full_const.
  Qed.
  Lemma getS_lane vals x j : (j < P)%nat -> lane j (getS vals x) = getv (map (lane j) vals) x.
  Proof.
    intros Hj. unfold getS, getv. destruct (Nat.lt_ge_cases x (length vals)) as [Hl|Hl].
    - rewrite (nth_indep (map (lane j) vals) 0 (lane j s_zero)) by (rewrite map_length; auto). rewrite map_nth. auto.
    - rewrite (nth_overflow vals) by auto. rewrite nth_overflow by (rewrite map_length; auto). apply lane_const; auto.
  Qed.
  Lemma lc_lane g l j : (forall x, full (g x)) -> (j < P)%nat -> full (lc_eval_simd g l) /\ lane j (lc_eval_simd g l) = lc_eval (fun x => lane j (g x)) l.
  Proof.
    intros Hg Hj. unfold lc_eval_simd, lc_eval.
    assert (H : forall a c, full a -> lane j a = c -> full (fold_left (fun res t => s_add res (s_scale (g (fst t)) (snd t))) (lc_terms l) a) /\
        lane j (fold_left (fun res t => s_add res (s_scale (g (fst t)) (snd t))) (lc_terms l) a) = fold_left (fun res t => res + lane j (g (fst t)) * snd t) (lc_terms l) c).
    { induction (lc_terms l) as [|t ts IH]; intros a c Ha Hc; cbn [fold_left]; [auto|]. apply IH.
      - apply full_map2; auto. apply full_scale; auto.
      - unfold s_add. rewrite lane_map2; auto; [|apply full_scale; auto]. rewrite lane_scale by auto. congruence. }
    apply H. apply full_scale, full_const. rewrite lane_scale; auto; [|apply full_const]. unfold s_one. rewrite lane_const by auto. ring.
  Qed.
  Lemma mul_lane g x l j : (forall x, full (g x)) -> (j < P)%nat ->
    full (fold_left (fun res i => s_mul res (g i)) l (g x)) /\ lane j (fold_left (fun res i => s_mul res (g i)) l (g x)) = mul_eval (fun x => lane j (g x)) (x :: l).
  Proof.
    intros Hg Hj. unfold mul_eval. cbn [fold_left].
    assert (H : forall a c, full a -> lane j a = c -> full (fold_left (fun res i => s_mul res (g i)) l a) /\
        lane j (fold_left (fun res i => s_mul res (g i)) l a) = fold_left (fun res i => res * lane j (g i)) l c).
    { induction l as [|t ts IH]; intros a c Ha Hc; cbn [fold_left]; [auto|]. apply IH.
      - apply full_map2; auto.
      - unfold s_mul. rewrite lane_map2; auto. congruence. }
    apply H; auto. ring.
  Qed.
  Lemma lanes_hint_spec h n args : forall k j, 
    match lanes_hint h n args j k with
    | Some r => length r = k /\ forall i, (i < k)%nat -> hint_n h n (map (lane (j + i)) args) = Some (nth i r [])
    | None => exists i, (i < k)%nat /\ hint_n h n (map (lane (j + i)) args) = None
    end.
  Proof.
    induction k as [|k IH]; intros j; cbn [lanes_hint].
    - split; auto. intros i Hi; lia.
    - destruct (hint_n h n (map (lane j) args)) as [o|] eqn:E; cbn [obind].
      + specialize (IH (S j)). destruct (lanes_hint h n args (S j) k) as [r|]; cbn [obind].
        * destruct IH as [H1 H2]. split; [cbn; lia|]. intros [|i] Hi; [rewrite Nat.add_0_r; auto|]. rewrite Nat.add_succ_r. apply (H2 i). lia.
        * destruct IH as [i [H1 H2]]. exists (S i). split; [lia|]. rewrite Nat.add_succ_r. auto.
      + exists 0%nat. split; [lia|]. rewrite Nat.add_0_r. auto.
  Qed.
  Lemma hint_n_len h n args o : hint_n h n args = Some o -> length o = n.
  Proof. unfold hint_n. destruct (hint h n args); [|discriminate]. destruct (Nat.eqb_spec (length l) n); [|discriminate]. intros H; injection H as <-; auto. Qed.
  Lemma hint_simd_ok h n args r : hint_simd h n args = Some r -> Forall full r /\ forall j, (j < P)%nat -> hint_n h n (map (lane j) args) = Some (map (lane j) r).
  Proof.
    unfold hint_simd. intros H. apply obind_some in H. destruct H as [outs [H1 H2]]. injection H2 as <-.
    pose proof (lanes_hint_spec h n args P 0) as Hs. rewrite H1 in Hs. destruct Hs as [L Hs]. split.
    - apply Forall_forall. intros v Hv. apply in_map_iff in Hv. destruct Hv as [i [<- _]]. unfold full. rewrite map_length. auto.
    - intros j Hj. specialize (Hs j Hj). cbn [Nat.add] in Hs. rewrite Hs. f_equal. pose proof (hint_n_len _ _ _ _ Hs) as Hl.
      apply (nth_ext _ _ 0 0); [rewrite !map_length, seq_length; auto|]. intros i Hi. rewrite map_map.
      assert (Hn : (i < n)%nat) by lia. symmetry.
      erewrite nth_error_nth; [|apply map_nth_error; apply nth_error_seq; exact Hn]. cbn [Nat.add]. unfold lane.
      rewrite (nth_indep (map (fun o => nth i o 0) outs) 0 (nth i [] 0)) by (rewrite map_length; lia). rewrite (map_nth (fun o => nth i o 0)). auto.
  Qed.
  Lemma hint_simd_none h n args : hint_simd h n args = None -> exists j, (j < P)%nat /\ hint_n h n (map (lane j) args) = None.
  Proof.
    unfold hint_simd. intros H. pose proof (lanes_hint_spec h n args P 0) as Hs. destruct (lanes_hint h n args 0 P); [discriminate|].
    destruct Hs as [i [A B]]. eauto.
  Qed.

  (* SIMD results are exactly the scalar results of the lanes *)
  Definition agree (s : Res (list Simd)) (r : nat -> Res (list F)) : Prop :=
    (forall v, s = Ok v -> Forall full v /\ forall j, (j < P)%nat -> r j = Ok (map (lane j) v)) /\
    ((forall j, (j < P)%nat -> exists v, r j = Ok v) -> exists v, s = Ok v).
  Lemma agree_ok v r : Forall full v -> (forall j, (j < P)%nat -> r j = Ok (map (lane j) v)) -> agree (Ok v) r.
  Proof. intros H1 H2. split; [intros w Hw; injection Hw as <-; auto|eauto]. Qed.
  Lemma agree_bad s r : (0 < P)%nat -> (forall v, s <> Ok v) -> (exists j, (j < P)%nat /\ forall v, r j <> Ok v) -> agree s r.
  Proof.
    intros HP H1 [j [Hj H2]]. split; [intros v ->; exfalso; eapply H1; eauto|]. intros H. destruct (H j Hj) as [v Hv]. exfalso; eapply H2; eauto.
  Qed.
  Lemma agree_bind s r f g : (0 < P)%nat -> agree s r -> (forall v, Forall full v -> agree (f v) (fun j => g j (map (lane j) v))) ->
    agree (rbind s f) (fun j => rbind (r j) (g j)).
  Proof.
    intros HP [H1 H2] Hf. split.
    - intros w Hw. destruct s as [v| | |]; try discriminate. destruct (H1 v eq_refl) as [A B]. cbn [rbind] in Hw.
      destruct (proj1 (Hf v A) w Hw) as [C D]. split; auto. intros j Hj. rewrite (B j Hj). cbn [rbind]. auto.
    - intros Hall. destruct H2 as [v Hv]. { intros j Hj. destruct (Hall j Hj) as [w Hw]. destruct (r j); try discriminate. eauto. }
      subst s. destruct (H1 v eq_refl) as [A B]. cbn [rbind]. apply (proj2 (Hf v A)). intros j Hj. destruct (Hall j Hj) as [w Hw]. rewrite (B j Hj) in Hw. eauto.
  Qed.
  Lemma inbS_lane vals l j : forallb (inbS vals) l = forallb (inbb (map (lane j) vals)) l.
  Proof. induction l as [|x l IH]; cbn [forallb]; auto. rewrite IH. unfold inbS, inbb. rewrite map_length. auto. Qed.
  Lemma es_insn_lane pub sub sub' i vals : (0 < P)%nat -> Forall full vals -> Forall full pub ->
    (forall id ins, Forall full ins -> agree (sub id ins) (fun j => sub' j id (map (lane j) ins))) ->
    agree (ss_insn pub sub i vals) (fun j => es_insn (map (lane j) pub) (sub' j) i (map (lane j) vals)).
  Proof.
    intros HP Hv Hp Hs. unfold ss_insn.
    destruct (forallb (inbS vals) (h_inputs F i)) eqn:Ein.
    2: { apply agree_bad; auto; [congruence|]. exists 0%nat. split; auto. unfold es_insn. rewrite <- (inbS_lane vals _ 0), Ein. congruence. }
    assert (He : forall j, es_insn (map (lane j) pub) (sub' j) i (map (lane j) vals) = match i with
      | HConst (CConst c) => Ok [c]
      | HConst (CPub k) => of_opt (option_map (fun v => [v]) (nth_error (map (lane j) pub) k)) Panic
      | HConst CRandom => Err
      | HHint h l n => of_opt (hint_n h n (map (getv (map (lane j) vals)) l)) Err
      | HGate _ _ => Err
      | HLin l => Ok [lc_eval (getv (map (lane j) vals)) l]
      | HMul l => match l with [] => Panic | _ => Ok [mul_eval (getv (map (lane j) vals)) l] end
      | HCall id l _ => sub' j id (map (getv (map (lane j) vals)) l)
      end).
    { intros j. unfold es_insn. rewrite <- (inbS_lane vals _ j), Ein. auto. }
    assert (Hm : forall j l, (j < P)%nat -> map (getv (map (lane j) vals)) l = map (lane j) (map (getS vals) l)).
    { intros j l Hj. rewrite map_map. apply map_ext. intros x. symmetry. apply getS_lane; auto. }
    assert (Hfl : forall l, Forall full (map (getS vals) l)).
    { intros l. apply Forall_forall. intros v Hin. apply in_map_iff in Hin. destruct Hin as [x [<- _]]. apply getS_full; auto. }
    destruct i as [l|l|h l n|c|id l n|gt l].
    - apply agree_ok.
      + constructor; [|constructor]. apply (lc_lane (getS vals) l 0); auto. intros; apply getS_full; auto.
      + intros j Hj. rewrite He. cbn [map]. do 2 f_equal. destruct (lc_lane (getS vals) l j) as [_ ->]; auto. { intros; apply getS_full; auto. }
        apply lc_eval_ext. intros x _. symmetry. apply getS_lane; auto.
    - destruct l as [|x l].
      + apply agree_bad; auto; [congruence|]. exists 0%nat. split; auto. rewrite He. congruence.
      + apply agree_ok.
        * constructor; [|constructor]. apply (mul_lane (getS vals) x l 0); auto. intros; apply getS_full; auto.
        * intros j Hj. rewrite He. cbn [map]. do 2 f_equal. destruct (mul_lane (getS vals) x l j) as [_ ->]; auto. { intros; apply getS_full; auto. }
          apply mul_eval_ext. intros y _. symmetry. apply getS_lane; auto.
    - destruct (hint_simd h n (map (getS vals) l)) as [r|] eqn:Eh; cbn [of_opt].
      + destruct (hint_simd_ok _ _ _ _ Eh) as [A B]. apply agree_ok; auto. intros j Hj. rewrite He, Hm, (B j Hj) by auto. auto.
      + apply agree_bad; auto; [congruence|]. destruct (hint_simd_none _ _ _ Eh) as [j [Hj Hn]]. exists j. split; auto. rewrite He, Hm, Hn by auto. cbn. congruence.
    - destruct c as [c| |k].
      + apply agree_ok; [constructor; [apply full_scale, full_const|constructor]|]. intros j Hj. rewrite He. cbn [map]. do 2 f_equal. rewrite lane_scale by (auto; apply full_const).
        unfold s_one. rewrite lane_const by auto. ring.
      + apply agree_bad; auto; [congruence|]. exists 0%nat. split; auto. rewrite He. congruence.
      + destruct (nth_error pub k) as [v|] eqn:Ek; cbn [option_map of_opt].
        * apply agree_ok; [constructor; [rewrite Forall_forall in Hp; apply Hp; eapply nth_error_In; eauto|constructor]|].
          intros j Hj. rewrite He, (map_nth_error (lane j) _ _ Ek). auto.
        * apply agree_bad; auto; [congruence|]. exists 0%nat. split; auto. rewrite He.
          assert (Hn : nth_error (map (lane 0) pub) k = None) by (apply nth_error_None; rewrite map_length; apply nth_error_None; auto). rewrite Hn. cbn. congruence.
    - destruct (Hs id (map (getS vals) l) (Hfl l)) as [A B]. split.
      + intros v Hv'. destruct (A v Hv') as [C D]. split; auto. intros j Hj. rewrite He, Hm by auto. auto.
      + intros Hall. apply B. intros j Hj. destruct (Hall j Hj) as [v Hv']. rewrite He, Hm in Hv' by auto. eauto.
    - apply agree_bad; auto; [congruence|]. exists 0%nat. split; auto. rewrite He. congruence.
  Qed.
  Lemma ss_insns_lane pub sub sub' is : (0 < P)%nat -> Forall full pub ->
    (forall id ins, Forall full ins -> agree (sub id ins) (fun j => sub' j id (map (lane j) ins))) ->
    forall vals, Forall full vals -> agree (ss_insns pub sub is vals) (fun j => es_insns (map (lane j) pub) (sub' j) is (map (lane j) vals)).
  Proof.
    intros HP Hp Hs. induction is as [|i is IH]; intros vals Hv; cbn [ss_insns es_insns].
    - apply agree_ok; auto.
    - apply agree_bind with (g := fun j outs => es_insns (map (lane j) pub) (sub' j) is (map (lane j) vals ++ outs)); auto.
      + apply es_insn_lane; auto.
      + intros v Hf. assert (Hfv : Forall full (vals ++ v)) by (apply Forall_app; auto). destruct (IH _ Hfv) as [A B].
        split; [intros w Hw; destruct (A w Hw) as [C D]; split; auto; intros j Hj; rewrite <- map_app; auto|].
        intros Hall. apply B. intros j Hj. rewrite map_app. auto.
  Qed.
  Lemma ss_sub_lane pub cs : (0 < P)%nat -> Forall full pub -> forall fuel id ins, Forall full ins ->
    agree (ss_sub fuel pub cs id ins) (fun j => es_sub fuel (map (lane j) pub) cs id (map (lane j) ins)).
  Proof.
    intros HP Hp. induction fuel as [|fuel IH]; intros id ins Hi; cbn [ss_sub es_sub].
    - apply agree_bad; auto; [congruence|]. exists 0%nat. split; auto. congruence.
    - destruct (lookup id cs) as [c|]; [|apply agree_bad; auto; [congruence|]; exists 0%nat; split; auto; congruence].
      apply agree_bind with (g := fun j vals => if forallb (inbb vals) (outputs c) then Ok (map (getv vals) (outputs c)) else Panic); auto.
      + assert (Hz : Forall full (s_zero :: ins)) by (constructor; auto; apply full_const).
        destruct (ss_insns_lane pub (ss_sub fuel pub cs) (fun j => es_sub fuel (map (lane j) pub) cs) (instructions c) HP Hp IH _ Hz) as [A B].
        assert (Hm : forall j, (j < P)%nat -> map (lane j) (s_zero :: ins) = 0 :: map (lane j) ins) by (intros j Hj; cbn [map]; f_equal; apply lane_const; auto).
        split; [intros v Hv; destruct (A v Hv) as [C D]; split; auto; intros j Hj; rewrite <- Hm; auto|].
        intros Hall. apply B. intros j Hj. rewrite Hm by auto. auto.
      + intros v Hf. destruct (forallb (inbS v) (outputs c)) eqn:Eo.
        * apply agree_ok; [apply Forall_forall; intros w Hw; apply in_map_iff in Hw; destruct Hw as [x [<- _]]; apply getS_full; auto|].
          intros j Hj. rewrite <- inbS_lane, Eo. f_equal. rewrite map_map. apply map_ext. intros x. symmetry. apply getS_lane; auto.
        * apply agree_bad; auto; [congruence|]. exists 0%nat. split; auto. rewrite <- inbS_lane, Eo. congruence.
  Qed.
  Lemma eval_safe_simd_lane rc pub ins : (0 < P)%nat -> Forall full pub -> Forall full ins ->
    agree (eval_safe_simd rc pub ins) (fun j => eval_safe rc (map (lane j) pub) (map (lane j) ins)).
  Proof.
    intros HP Hp Hi. unfold eval_safe_simd, eval_safe. destruct (lookup 0 (circuits rc)) as [c|].
    2: { apply agree_bad; auto; [congruence|]. exists 0%nat. split; auto. congruence. }
    pose proof (ss_sub_lane pub (circuits rc) HP Hp (length (circuits rc)) 0%nat ins Hi) as [A B].
    destruct (Nat.eqb_spec (length ins) (num_inputs c)) as [E|E].
    - split; [intros v Hv; destruct (A v Hv) as [C D]; split; auto; intros j Hj|intros Hall; apply B; intros j Hj].
      + rewrite map_length. rewrite (proj2 (Nat.eqb_eq _ _) E). auto.
      + specialize (Hall j Hj). rewrite map_length in Hall. rewrite (proj2 (Nat.eqb_eq _ _) E) in Hall. auto.
    - apply agree_bad; auto; [congruence|]. exists 0%nat. split; auto. rewrite map_length. destruct (Nat.eqb_spec (length ins) (num_inputs c)); congruence.
  Qed.

  (* ------------------------------------------------------------ the solver and the execution relation *)
  (* the honest environment: hints answer what the hint functions compute *)
  Definition solver_env (pub : list F) (gate : nat -> list F -> F) (rnd : F -> Prop) : Env F :=
    {| e_pub := fun j => nth j pub 0; e_gate := gate; e_hint := fun h n args outs => hint h n args = Some outs; e_rnd := rnd |}.
  (* instructions the solver can run *)
  Definition solvable (npub : nat) (i : HInsn F) : Prop :=
    match i with HConst CRandom => False | HConst (CPub j) => (j < npub)%nat | HGate _ _ => False | HMul [] => False | _ => True end.
  Lemma es_insn_step pub gate rnd cs (sub : nat -> list F -> Res (list F)) i vals outs :
    (forall id l n, h_call F i = Some (id, l, n) -> forall o, sub id (map (getv vals) l) = Ok o -> exists b, run (HnI F) (solver_env pub gate rnd) cs id (map (getv vals) l) o b) ->
    es_insn pub sub i vals = Ok outs -> exists b, step (HnI F) (solver_env pub gate rnd) cs i vals outs b.
  Proof.
    intros Hs. unfold es_insn. destruct (forallb (inbb vals) (h_inputs F i)) eqn:Ei; [|discriminate].
    assert (Hin : Forall (inb vals) (h_inputs F i)) by (apply (forallb_Forall _ _ _ (inbb_spec vals)); auto).
    unfold step. destruct i as [l|l|h l n|c|id l n|gt l]; cbn [i_call i_inputs i_sem HnI h_call h_inputs h_sem] in *; intros H.
    - injection H as <-. eauto.
    - destruct l; [discriminate|]. injection H as <-. eauto.
    - destruct (hint_n h n (map (getv vals) l)) as [o|] eqn:Eh; [|discriminate]. injection H as <-. exists true. split; auto. split; auto. split; [eapply hint_n_len; eauto|].
      cbn. unfold hint_n in Eh. destruct (hint h n (map (getv vals) l)); [|discriminate]. destruct (_ =? _)%nat; congruence.
    - exists true. split; auto. split; auto. destruct c as [c| |k]; [|discriminate|].
      + injection H as <-. exists c. split; auto. reflexivity.
      + destruct (nth_error pub k) eqn:Ek; [|discriminate]. injection H as <-. exists c. split; auto. cbn. symmetry. apply nth_error_nth; auto.
    - destruct (Hs _ _ _ eq_refl _ H) as [b Hb]. exists b. auto.
    - discriminate.
  Qed.
  Lemma es_sub_run pub gate rnd cs rank : wf_circuits (HnI F) cs -> ranked (HnI F) cs rank ->
    forall fuel id c ins outs, lookup id cs = Some c -> length ins = num_inputs c -> es_sub fuel pub cs id ins = Ok outs ->
      exists b, run (HnI F) (solver_env pub gate rnd) cs id ins outs b.
  Proof.
    intros W R. induction fuel as [|fuel IH]; intros id c ins outs Hc Hl H; cbn [es_sub] in H; [discriminate|]. rewrite Hc in H.
    destruct (es_insns pub (es_sub fuel pub cs) (instructions c) (0 :: ins)) as [vals| | |] eqn:Ex; try discriminate. cbn [rbind] in H.
    destruct (forallb (inbb vals) (outputs c)) eqn:Eo; [|discriminate]. injection H as <-.
    pose proof (wf_calls _ _ W _ _ Hc) as Wl.
    assert (Hx : forall is v vf, incl is (instructions c) -> es_insns pub (es_sub fuel pub cs) is v = Ok vf -> exists b, exec (HnI F) (solver_env pub gate rnd) cs is v vf b).
    { clear -IH Wl. induction is as [|i is IHi]; intros v vf Hin H; cbn [es_insns] in H.
      - injection H as <-. exists true. constructor.
      - destruct (es_insn pub (es_sub fuel pub cs) i v) as [o| | |] eqn:E1; try discriminate. cbn [rbind] in H.
        destruct (IHi _ _ (fun x Hx => Hin x (or_intror Hx)) H) as [b2 X2].
        destruct (es_insn_step pub gate rnd cs (es_sub fuel pub cs) i v o) as [b1 X1]; auto.
        + intros id l n Ec o' Ho. rewrite Forall_forall in Wl. destruct (Wl i (Hin _ (or_introl eq_refl)) _ _ _ Ec) as [c' [A [B _]]]. eapply IH; eauto. rewrite map_length; auto.
        + exists (b1 && b2). apply exec_cons. exists o, b1, b2. auto. }
    destruct (Hx _ _ _ (incl_refl _) Ex) as [b X]. pose proof (exec_len _ (HnL F) _ _ _ _ _ _ Wl X) as Hlen. cbn [length] in Hlen. pose proof (wf_each _ _ W _ _ Hc) as Wc.
    eexists. apply run_iff. exists c, vals, b. split; auto. split; auto. split; [|split; [|split; reflexivity]].
    - eapply Forall_impl; [|apply (wf_con _ _ Wc)]. unfold inb; cbn; intros; lia.
    - apply (forallb_Forall _ _ _ (inbb_spec vals)); auto.
  Qed.
  Lemma run_es_sub pub gate rnd cs rank : wf_circuits (HnI F) cs -> ranked (HnI F) cs rank ->
    (forall id c i, lookup id cs = Some c -> In i (instructions c) -> solvable (length pub) i) ->
    forall fuel id ins outs b, (rank id < fuel)%nat -> run (HnI F) (solver_env pub gate rnd) cs id ins outs b -> es_sub fuel pub cs id ins = Ok outs.
  Proof.
    intros W R Hsv. induction fuel as [|fuel IH]; intros id ins outs b Hf H; [lia|]. cbn [es_sub].
    apply run_iff in H. destruct H as [c [vals [b0 [H1 [H2 [H3 [H4 [-> ->]]]]]]]]. rewrite H1.
    assert (Hx : forall is v vf b, incl is (instructions c) -> exec (HnI F) (solver_env pub gate rnd) cs is v vf b -> es_insns pub (es_sub fuel pub cs) is v = Ok vf).
    { clear -IH Hsv H1 Hf R. induction is as [|i is IHi]; intros v vf b Hin H; cbn [es_insns].
      - apply exec_nil in H. destruct H as [-> _]. auto.
      - apply exec_cons in H. destruct H as [o [b1 [b2 [A [B ->]]]]].
        assert (E1 : es_insn pub (es_sub fuel pub cs) i v = Ok o).
        { assert (Hii : In i (instructions c)) by (apply Hin; left; auto). pose proof (Hsv id c i H1 Hii) as Hv.
          unfold step in A. unfold es_insn. assert (Hin2 : Forall (inb v) (h_inputs F i)) by (destruct i; apply A).
          rewrite (proj2 (forallb_Forall _ _ _ (inbb_spec v)) Hin2).
          destruct i as [l|l|h l n|k|sb l n|gt l]; cbn [i_call i_sem HnI h_call h_sem solvable] in *.
          - destruct A as [_ [-> _]]. auto.
          - destruct l; [contradiction|]. destruct A as [_ [-> _]]. auto.
          - destruct A as [_ [[A1 A2] _]]. cbn in A2. unfold hint_n. rewrite A2, A1, Nat.eqb_refl. auto.
          - destruct A as [_ [[w [-> A]] _]]. destruct k as [k| |k]; cbn in A; [subst; auto|contradiction|]. subst w. destruct (nth_error pub k) eqn:Ek.
            + cbn. do 2 f_equal. symmetry. apply nth_error_nth; auto.
            + apply nth_error_None in Ek. lia.
          - destruct A as [_ A]. eapply IH; [|exact A]. assert (rank sb < rank id)%nat; [|lia]. apply (R id c); auto. eapply in_calls; eauto. reflexivity.
          - contradiction. }
        rewrite E1. cbn [rbind]. eapply IHi; eauto. intros x Hx. apply Hin; right; auto. }
    rewrite (Hx _ _ _ _ (incl_refl _) H2). cbn [rbind]. rewrite (proj2 (forallb_Forall _ _ _ (inbb_spec vals)) H4). auto.
  Qed.
  (* the solver on a whole circuit whose expected zero count is 0 (every exported circuit) *)
  Lemma eval_safe_run (rc : HR) pub gate rnd ins outs : wf_root (HnI F) rc -> expected_num_output_zeroes rc = 0%nat ->
    eval_safe rc pub ins = Ok outs -> exists b, root_run (HnI F) (solver_env pub gate rnd) rc ins outs b.
  Proof.
    intros Hwf Hz H. unfold eval_safe in H. destruct (lookup 0 (circuits rc)) as [c|] eqn:Hc; [|discriminate]. destruct (Nat.eqb_spec (length ins) (num_inputs c)) as [e|]; [|discriminate].
    destruct Hwf as [W [rank R] _]. destruct (es_sub_run pub gate rnd _ rank W R _ _ _ _ _ Hc e H) as [b Hb].
    exists b. exists c, outs, b. rewrite Hz. cbn [skipn firstn forallb]. rewrite andb_true_r. repeat (split; auto). lia.
  Qed.
  Lemma run_eval_safe (rc : HR) pub gate rnd ins outs b : wf_root (HnI F) rc -> expected_num_output_zeroes rc = 0%nat ->
    (forall id c i, lookup id (circuits rc) = Some c -> In i (instructions c) -> solvable (length pub) i) ->
    root_run (HnI F) (solver_env pub gate rnd) rc ins outs b -> eval_safe rc pub ins = Ok outs.
  Proof.
    intros Hwf Hz Hs [c [all [b0 [H1 [H2 [H3 [_ [H5 _]]]]]]]]. rewrite Hz in H5. cbn [skipn] in H5. subst outs. unfold eval_safe. rewrite H1. rewrite (proj2 (Nat.eqb_eq _ _) H2).
    destruct (wf_bounded_rank _ rc Hwf) as [rank [R Hb]]. eapply (run_es_sub pub gate rnd _ rank (wr_cs _ _ Hwf) R Hs); [|exact H3]. apply Hb. apply lookup_keys; eauto.
  Qed.
End Solver.
