(* The four instruction sets: circuit/ir/{source,hint_normalized,hint_less,dest}/mod.rs *)
From Verif Require Import Prelude Field Expr Topo Hints Ir.
Local Open Scope fld_scope.

(* expr.rs:384-396; a term is (var, coef) *)
Record LinComb (F : Fld) := { lc_terms : list (nat * F); lc_const : F }.
Arguments lc_terms {F}. Arguments lc_const {F}.

Section LC.
  Context {F : Fld}.
  Add Field Flc : (fth F).
  (* expr.rs:407-409 *)
  Definition lc_vars (l : LinComb F) : list nat := map fst (lc_terms l).
  (* expr.rs:410-421 *)
  Definition lc_replace (f : nat -> nat) (l : LinComb F) : LinComb F :=
    {| lc_terms := map (fun t => (f (fst t), snd t)) (lc_terms l); lc_const := lc_const l |}.
  (* expr.rs:422-434 *)
  Definition lc_kxb (x : nat) (k b : F) : LinComb F :=
    if (Nat.eqb x 0) || is0 F k then {| lc_terms := []; lc_const := b |}
    else {| lc_terms := [(x, k)]; lc_const := b |}.
  (* expr.rs:435-441 *)
  Definition lc_eval (g : nat -> F) (l : LinComb F) : F :=
    fold_left (fun res t => res + g (fst t) * snd t) (lc_terms l) (lc_const l).
  (* hint_normalized/mod.rs:183-189 *)
  Definition mul_eval (g : nat -> F) (l : list nat) : F := fold_left (fun res i => res * g i) l 1.

  Lemma lc_eval_sum g l : lc_eval g l = lc_const l + fsum F (map (fun t => g (fst t) * snd t) (lc_terms l)).
  Proof.
    unfold lc_eval. generalize (lc_const l). induction (lc_terms l) as [|t ts IH]; intros c; cbn [fold_left map fsum fold_right].
    unfold fsum; cbn; ring. rewrite IH. unfold fsum; cbn [fold_right]. ring.
  Qed.
  Lemma mul_eval_prod g l : mul_eval g l = fold_right (fun i r => g i * r) 1 l.
  Proof.
    unfold mul_eval. assert (H : forall c, fold_left (fun res i => res * g i) l c = c * fold_right (fun i r => g i * r) 1 l).
    { induction l as [|i l IH]; intros c; cbn [fold_left fold_right]. ring. rewrite IH; ring. } rewrite H; ring.
  Qed.
  Lemma lc_eval_ext g g' l : (forall x, In x (lc_vars l) -> g x = g' x) -> lc_eval g l = lc_eval g' l.
  Proof. intros H. rewrite !lc_eval_sum. do 2 f_equal. apply map_ext_in. intros t Ht. rewrite H; auto. apply in_map; auto. Qed.
  Lemma lc_eval_replace f g l : lc_eval g (lc_replace f l) = lc_eval (fun x => g (f x)) l.
  Proof. rewrite !lc_eval_sum. cbn. rewrite map_map. auto. Qed.
  Lemma lc_replace_ext f f' l : (forall x, In x (lc_vars l) -> f x = f' x) -> lc_replace f l = lc_replace f' l.
  Proof. intros H. unfold lc_replace. f_equal. apply map_ext_in. intros t Ht. rewrite H; auto. apply in_map; auto. Qed.
  Lemma lc_replace_vars f l : lc_vars (lc_replace f l) = map f (lc_vars l).
  Proof. unfold lc_vars, lc_replace; cbn. rewrite !map_map. auto. Qed.
  Lemma lc_kxb_eval g x k b : x <> 0%nat -> lc_eval g (lc_kxb x k b) = g x * k + b.
  Proof.
    intros Hx. unfold lc_kxb. apply Nat.eqb_neq in Hx. rewrite Hx. cbn [orb]. rewrite lc_eval_sum.
    destruct (is0 F k) eqn:E; cbn. apply is0_spec in E. subst; unfold fsum; cbn; ring. unfold fsum; cbn. ring.
  Qed.
  Lemma lc_kxb_vars x (k b : F) : incl (lc_vars (lc_kxb x k b)) [x].
  Proof. unfold lc_kxb. destruct (_ || _); cbn. apply incl_nil_l. apply incl_refl. Qed.
  Lemma mul_eval_ext g g' l : (forall x, In x l -> g x = g' x) -> mul_eval g l = mul_eval g' l.
  Proof. intros H. rewrite !mul_eval_prod. induction l as [|i l IH]; cbn; auto. rewrite H by (left; auto). f_equal. apply IH. intros; apply H; right; auto. Qed.
  Lemma mul_eval_map f g l : mul_eval g (map f l) = mul_eval (fun x => g (f x)) l.
  Proof. rewrite !mul_eval_prod. induction l as [|i l IH]; cbn; auto. rewrite IH; auto. Qed.
End LC.

(* source/mod.rs:67-71 *)
Inductive BoolOp := BXor | BOr | BAnd.

(* source/mod.rs:22-65 *)
Inductive SInsn (F : Fld) :=
| SLin (l : LinComb F) | SMul (l : list nat) | SDiv (x y : nat) (checked : bool) | SBool (x y : nat) (op : BoolOp)
| SIsZero (x : nat) | SCommit (l : list nat) | SHint (h : N) (l : list nat) (n : nat) | SConst (c : Coef F)
| SCall (id : nat) (l : list nat) (n : nat) | SUnOp (x y : nat) (op : UnOp) | SSelect (c t e : nat)
| SGate (gt : nat) (l : list nat) | SToBin (x n : nat).
Arguments SLin {F}. Arguments SMul {F}. Arguments SDiv {F}. Arguments SBool {F}. Arguments SIsZero {F}. Arguments SCommit {F}.
Arguments SHint {F}. Arguments SConst {F}. Arguments SCall {F}. Arguments SUnOp {F}. Arguments SSelect {F}. Arguments SGate {F}. Arguments SToBin {F}.
(* source/mod.rs:95-107 *)
Inductive ConType := TZero | TNonZero | TBool.
(* hint_normalized/mod.rs:24-46 *)
Inductive HInsn (F : Fld) :=
| HLin (l : LinComb F) | HMul (l : list nat) | HHint (h : N) (l : list nat) (n : nat) | HConst (c : Coef F)
| HCall (id : nat) (l : list nat) (n : nat) | HGate (gt : nat) (l : list nat).
Arguments HLin {F}. Arguments HMul {F}. Arguments HHint {F}. Arguments HConst {F}. Arguments HCall {F}. Arguments HGate {F}.
(* hint_less/mod.rs:17-31 *)
Inductive LInsn (F : Fld) :=
| LLin (l : LinComb F) | LMul (l : list nat) | LConst (c : Coef F) | LCall (id : nat) (l : list nat) (n : nat)
| LGate (gt : nat) (l : list nat).
Arguments LLin {F}. Arguments LMul {F}. Arguments LConst {F}. Arguments LCall {F}. Arguments LGate {F}.
(* dest/mod.rs:22-35 *)
Inductive DInsn (F : Fld) :=
| DVar (e : Expression F) | DCall (id : nat) (l : list nat) (n : nat) | DConst (c : Coef F).
Arguments DVar {F}. Arguments DCall {F}. Arguments DConst {F}.

Section Inst.
  Context (F : Fld).
  Add Field Fin : (fth F).

  (* ------------------------------------------------------------ pieces shared by the instruction sets *)
  Definition const_sem (E : Env F) (c : Coef F) (outs : list F) : Prop := exists v, outs = [v] /\ coef_sem E c v.
  Definition const_eval (O : Oracle F) (k : nat) (c : Coef F) : option (list F) * nat :=
    let '(v, k) := coef_eval O k c in (Some [v], k).
  Lemma const_eval_sem O k c outs k' : const_eval O k c = (Some outs, k') -> const_sem (env_of O) c outs.
  Proof.
    unfold const_eval, const_sem. destruct c; cbn; intros H; inversion H; subst; eexists; split; auto; cbn; auto.
    exists k; auto.
  Qed.
  Lemma const_sem_eval O r k c outs : (forall j, o_rnd O j = r) -> const_sem (env_of O) c outs -> fst (const_eval O k c) = Some outs.
  Proof.
    intros Hr [v [-> H]]. destruct c; cbn in *; subst; auto. destruct H as [j ->]. rewrite !Hr; auto.
  Qed.
  (* a hint returning another number of values than asked for cannot occur: HintRegistry::call allocates the output slice
     (registry.rs:44-50) and the builtin hints are length-checked by validate *)
  Definition hint_sem (E : Env F) (h : N) (n : nat) (args outs : list F) : Prop := length outs = n /\ e_hint E h n args outs.
  Definition hint_eval (O : Oracle F) (h : N) (n : nat) (args : list F) : option (list F) :=
    match o_hint O h n args with Some outs => if Nat.eqb (length outs) n then Some outs else None | None => None end.
  Lemma hint_eval_sem O h n args outs : hint_eval O h n args = Some outs <-> hint_sem (env_of O) h n args outs.
  Proof.
    unfold hint_eval, hint_sem, env_of; cbn. destruct (o_hint O h n args) as [o|].
    - destruct (Nat.eqb_spec (length o) n); split; intros H; [inversion H; subst; auto | destruct H as [_ H]; congruence
        | discriminate | destruct H as [H1 H2]; congruence].
    - split; [discriminate|intros [_ H]; discriminate].
  Qed.

  (* ------------------------------------------------------------ source *)
  (* source/mod.rs:150-177 *)
  Definition s_inputs (i : SInsn F) : list nat :=
    match i with
    | SLin l => lc_vars l | SMul l => l | SDiv x y _ => [x; y] | SBool x y _ => [x; y] | SIsZero x => [x] | SCommit l => l
    | SHint _ l _ => l | SConst _ => [] | SCall _ l _ => l | SUnOp x y _ => [x; y] | SSelect c t e => [c; t; e]
    | SGate _ l => l | SToBin x _ => [x]
    end.
  (* source/mod.rs:178-195 *)
  Definition s_nout (i : SInsn F) : nat :=
    match i with SHint _ _ n => n | SCall _ _ n => n | SToBin _ n => n | _ => 1 end.
  (* source/mod.rs:196-205 *)
  Definition s_call (i : SInsn F) := match i with SCall id l n => Some (id, l, n) | _ => None end.
  (* source/mod.rs:213-273 *)
  Definition s_replace (f : nat -> nat) (i : SInsn F) : SInsn F :=
    match i with
    | SLin l => SLin (lc_replace f l) | SMul l => SMul (map f l) | SDiv x y c => SDiv (f x) (f y) c
    | SBool x y op => SBool (f x) (f y) op | SIsZero x => SIsZero (f x) | SCommit l => SCommit (map f l)
    | SHint h l n => SHint h (map f l) n | SConst c => SConst c | SCall id l n => SCall id (map f l) n
    | SUnOp x y op => SUnOp (f x) (f y) op | SSelect c t e => SSelect (f c) (f t) (f e)
    | SGate g l => SGate g (map f l) | SToBin x n => SToBin (f x) n
    end.
  (* source/mod.rs:277-322 *)
  Definition s_validate (npub : nat) (i : SInsn F) : bool :=
    match i with
    | SMul l => (2 <=? length l)%nat
    | SHint h l n => validate_hint h (length l) n && negb (Nat.eqb (length l) 0)
    | SConst c => coef_validate npub c
    | SGate _ l => negb (Nat.eqb (length l) 0)
    | SToBin _ n => (0 <? n)%nat
    | _ => true
    end.
  Definition boolean (x : F) : bool := is0 F x || (x =? 1).
  (* source/mod.rs:342-363 *)
  Definition bool_eval (op : BoolOp) (x y : F) : option F :=
    if boolean x && boolean y
    then Some (match op with
               | BXor => x + y - ofZ 2 * x * y | BOr => x + y - x * y | BAnd => x * y end)
    else None.
  (* source/mod.rs:331-341 *)
  Definition div_eval (checked : bool) (x y : F) : option F :=
    if is0 F y then if is0 F x && negb checked then Some 0 else None
    else Some (x * finv y).
  (* source/mod.rs:323-409; instructions whose result is a function of their operands *)
  Definition s_det (i : SInsn F) (gate : nat -> list F -> F) (g : nat -> F) : option (list F) :=
    match i with
    | SLin l => Some [lc_eval g l]
    | SMul l => Some [mul_eval g l]
    | SDiv x y c => let* v := div_eval c (g x) (g y) in Some [v]
    | SBool x y op => let* v := bool_eval op (g x) (g y) in Some [v]
    | SIsZero x => Some [fbool (is0 F (g x))]
    | SCommit _ => None                                   (* panics: "commit is not implemented" *)
    | SUnOp x y op => let* v := unop_eval op (g x) (g y) in Some [v]
    | SSelect c t e => Some [if is0 F (g c) then g e else g t]
    | SGate gt l => Some [gate gt (map g l)]
    | SToBin x n => to_binary (g x) n
    | _ => None
    end.
  Definition s_sem (E : Env F) (i : SInsn F) (g : nat -> F) (outs : list F) : Prop :=
    match i with
    | SHint h l n => hint_sem E h n (map g l) outs
    | SConst c => const_sem E c outs
    | SCall _ _ _ => False
    | _ => s_det i (e_gate E) g = Some outs
    end.
  Definition s_eval (O : Oracle F) (k : nat) (i : SInsn F) (g : nat -> F) : option (list F) * nat :=
    match i with
    | SHint h l n => (hint_eval O h n (map g l), k)
    | SConst c => const_eval O k c
    | _ => (s_det i (o_gate O) g, k)
    end.
  (* source/mod.rs:125-133 *)
  Definition con_verify (c : ConType * nat) (v : F) : bool :=
    match fst c with TZero => is0 F v | TNonZero => negb (is0 F v) | TBool => boolean v end.
  Definition SrcI : IRC F := {|
    Insn := SInsn F; Con := ConType * nat; i_inputs := s_inputs; i_nout := s_nout; i_call := s_call; i_mkcall := SCall;
    i_replace := s_replace; i_kxb := fun x k b => SLin (lc_kxb x k b); i_validate := s_validate; i_sem := s_sem; i_eval := s_eval;
    c_var := snd; c_replace := fun f c => (fst c, f (snd c)); c_verify := con_verify;
    dup_ins := true; dup_cons := true; dup_outs := true |}.

  Lemma s_det_len i gate g outs : s_det i gate g = Some outs -> length outs = s_nout i.
  Proof.
    destruct i; cbn; intros H; try (inversion H; subst; auto; fail).
    - destruct (div_eval _ _ _); inversion H; auto.
    - destruct (bool_eval _ _ _); inversion H; auto.
    - destruct (unop_eval _ _ _); inversion H; auto.
    - rewrite to_binary_spec in H. destruct (_ <? _)%Z; inversion H; subst. rewrite map_length, bits_of_length; auto.
  Qed.
  Lemma s_det_ext i gate g g' : (forall x, In x (s_inputs i) -> g x = g' x) -> s_det i gate g = s_det i gate g'.
  Proof.
    destruct i; cbn; intros H; auto; try (repeat rewrite H by tauto; auto; fail).
    - f_equal; f_equal. apply lc_eval_ext; auto.
    - f_equal; f_equal. apply mul_eval_ext; auto.
    - do 3 f_equal. apply map_ext_in; auto.
  Qed.
  Lemma s_det_repl f i gate g : s_det (s_replace f i) gate g = s_det i gate (fun x => g (f x)).
  Proof. destruct i; cbn [s_replace s_det]; auto. rewrite lc_eval_replace; auto. rewrite mul_eval_map; auto. rewrite map_map; auto. Qed.

  Lemma SrcL : IRC_laws SrcI.
  Proof.
    split; cbn [SrcI Insn Con i_inputs i_nout i_call i_mkcall i_replace i_kxb i_validate i_sem i_eval c_var c_replace c_verify].
    - intros i id l n H. destruct i; inversion H; subst; auto.
    - reflexivity.
    - intros f i. destruct i; cbn; auto. apply lc_replace_vars.
    - intros f i. destruct i; auto.
    - intros f i. destruct i; auto.
    - intros f f' i H. destruct i; cbn in *; f_equal; auto; try (apply map_ext_in; auto). apply lc_replace_ext; auto.
    - intros f n i. destruct i; cbn; auto; rewrite map_length; auto.
    - intros E i g outs H. destruct i; cbn [s_sem] in H; try (apply (s_det_len _ _ _ _ H)); try contradiction.
      + destruct H; auto. + destruct H as [v [-> _]]; auto.
    - intros E f i g outs. destruct i; try (cbn [s_replace s_sem]; rewrite <- (s_det_repl f); reflexivity); cbn [s_replace s_sem].
      + rewrite map_map. reflexivity. + reflexivity. + reflexivity.
    - intros E i g g' outs Hg H. destruct i; cbn [s_sem] in *; try (rewrite <- H; symmetry; apply s_det_ext; auto; fail); auto.
      cbn in Hg. rewrite <- (map_ext_in g g'); auto.
    - intros E x k b g outs Hx. cbn [s_sem s_det]. rewrite lc_kxb_eval by auto. split; intros H; [inversion H|subst]; auto.
    - intros x k b. cbn. repeat split. apply lc_kxb_vars.
    - reflexivity. - reflexivity. - reflexivity. - reflexivity.
    - intros O k i g outs k' Hc H. destruct i; cbn [s_eval s_sem s_call] in *; try discriminate;
        try (inversion H; reflexivity); [apply hint_eval_sem; inversion H; auto | eapply const_eval_sem; eauto].
    - intros O r k i g outs Hr Hc H. destruct i; cbn [s_eval s_sem s_call] in *; try contradiction; try exact H;
        [apply hint_eval_sem; auto | eapply const_sem_eval; eauto].
    - intros O k i g g' Hg. destruct i; cbn [s_eval]; auto; try (f_equal; apply s_det_ext; auto; fail).
      cbn in Hg. rewrite (map_ext_in g g'); auto.
  Qed.

  (* ------------------------------------------------------------ hint_normalized *)
  (* hint_normalized/mod.rs:61-80 *)
  Definition h_inputs (i : HInsn F) : list nat :=
    match i with HLin l => lc_vars l | HMul l => l | HHint _ l _ => l | HConst _ => [] | HCall _ l _ => l | HGate _ l => l end.
  Definition h_nout (i : HInsn F) : nat := match i with HHint _ _ n => n | HCall _ _ n => n | _ => 1 end.
  Definition h_call (i : HInsn F) := match i with HCall id l n => Some (id, l, n) | _ => None end.
  (* hint_normalized/mod.rs:98-127 *)
  Definition h_replace (f : nat -> nat) (i : HInsn F) : HInsn F :=
    match i with
    | HLin l => HLin (lc_replace f l) | HMul l => HMul (map f l) | HHint h l n => HHint h (map f l) n | HConst c => HConst c
    | HCall id l n => HCall id (map f l) n | HGate g l => HGate g (map f l)
    end.
  (* hint_normalized/mod.rs:131-167 *)
  Definition h_validate (npub : nat) (i : HInsn F) : bool :=
    match i with
    | HMul l => (2 <=? length l)%nat
    | HHint h l n => validate_hint h (length l) n && negb (Nat.eqb (length l) 0)
    | HConst c => coef_validate npub c
    | HGate _ l => negb (Nat.eqb (length l) 0)
    | _ => true
    end.
  (* hint_normalized/mod.rs:168-207 *)
  Definition h_sem (E : Env F) (i : HInsn F) (g : nat -> F) (outs : list F) : Prop :=
    match i with
    | HLin l => outs = [lc_eval g l]
    | HMul l => outs = [mul_eval g l]
    | HHint h l n => hint_sem E h n (map g l) outs
    | HConst c => const_sem E c outs
    | HCall _ _ _ => False
    | HGate gt l => outs = [e_gate E gt (map g l)]
    end.
  Definition h_eval (O : Oracle F) (k : nat) (i : HInsn F) (g : nat -> F) : option (list F) * nat :=
    match i with
    | HLin l => (Some [lc_eval g l], k)
    | HMul l => (Some [mul_eval g l], k)
    | HHint h l n => (hint_eval O h n (map g l), k)
    | HConst c => const_eval O k c
    | HCall _ _ _ => (None, k)
    | HGate gt l => (Some [o_gate O gt (map g l)], k)
    end.
  (* common/mod.rs:63-89: RawConstraint *)
  Definition HnI : IRC F := {|
    Insn := HInsn F; Con := nat; i_inputs := h_inputs; i_nout := h_nout; i_call := h_call; i_mkcall := HCall;
    i_replace := h_replace; i_kxb := fun x k b => HLin (lc_kxb x k b); i_validate := h_validate; i_sem := h_sem; i_eval := h_eval;
    c_var := fun x => x; c_replace := fun f c => f c; c_verify := fun _ v => is0 F v;
    dup_ins := true; dup_cons := true; dup_outs := true |}.
  Lemma HnL : IRC_laws HnI.
  Proof.
    split; cbn [HnI Insn Con i_inputs i_nout i_call i_mkcall i_replace i_kxb i_validate i_sem i_eval c_var c_replace c_verify].
    - intros i id l n H. destruct i; inversion H; subst; auto.
    - reflexivity.
    - intros f i. destruct i; cbn; auto. apply lc_replace_vars.
    - intros f i. destruct i; auto.
    - intros f i. destruct i; auto.
    - intros f f' i H. destruct i; cbn in *; f_equal; auto; try (apply map_ext_in; auto). apply lc_replace_ext; auto.
    - intros f n i. destruct i; cbn; auto; rewrite map_length; auto.
    - intros E i g outs H. destruct i; cbn in *; subst; auto; try contradiction. destruct H; auto. destruct H as [v [-> _]]; auto.
    - intros E f i g outs. destruct i; cbn [h_replace h_sem]; try reflexivity.
      rewrite lc_eval_replace; reflexivity. rewrite mul_eval_map; reflexivity. rewrite map_map; reflexivity. rewrite map_map; reflexivity.
    - intros E i g g' outs Hg H. destruct i; cbn in *; subst; auto.
      rewrite (lc_eval_ext g g'); auto. rewrite (mul_eval_ext g g'); auto. rewrite <- (map_ext_in g g'); auto. rewrite (map_ext_in g g'); auto.
    - intros E x k b g outs Hx. cbn [h_sem]. rewrite lc_kxb_eval by auto. reflexivity.
    - intros x k b. cbn. repeat split. apply lc_kxb_vars.
    - reflexivity. - reflexivity. - reflexivity. - reflexivity.
    - intros O k i g outs k' Hc H. destruct i; cbn in *; try discriminate; try (inversion H; reflexivity).
      apply hint_eval_sem; inversion H; auto. eapply const_eval_sem; eauto.
    - intros O r k i g outs Hr Hc H. destruct i; cbn in *; subst; try contradiction; auto.
      apply hint_eval_sem; auto. eapply const_sem_eval; eauto.
    - intros O k i g g' Hg. destruct i; cbn in *; auto.
      rewrite (lc_eval_ext g g'); auto. rewrite (mul_eval_ext g g'); auto. rewrite (map_ext_in g g'); auto. rewrite (map_ext_in g g'); auto.
  Qed.

  (* ------------------------------------------------------------ hint_less *)
  (* hint_less/mod.rs:53-71 *)
  Definition l_inputs (i : LInsn F) : list nat :=
    match i with LLin l => lc_vars l | LMul l => l | LConst _ => [] | LCall _ l _ => l | LGate _ l => l end.
  Definition l_nout (i : LInsn F) : nat := match i with LCall _ _ n => n | _ => 1 end.
  Definition l_callf (i : LInsn F) := match i with LCall id l n => Some (id, l, n) | _ => None end.
  (* hint_less/mod.rs:89-109 *)
  Definition l_replace (f : nat -> nat) (i : LInsn F) : LInsn F :=
    match i with
    | LLin l => LLin (lc_replace f l) | LMul l => LMul (map f l) | LConst c => LConst c
    | LCall id l n => LCall id (map f l) n | LGate g l => LGate g (map f l)
    end.
  (* hint_less/mod.rs:113-127 *)
  Definition l_validate (npub : nat) (i : LInsn F) : bool :=
    match i with LMul l => (2 <=? length l)%nat | LConst c => coef_validate npub c | _ => true end.
  (* hint_less/mod.rs:128-152 *)
  Definition l_sem (E : Env F) (i : LInsn F) (g : nat -> F) (outs : list F) : Prop :=
    match i with
    | LLin l => outs = [lc_eval g l]
    | LMul l => outs = [mul_eval g l]
    | LConst c => const_sem E c outs
    | LCall _ _ _ => False
    | LGate gt l => outs = [e_gate E gt (map g l)]
    end.
  Definition l_eval (O : Oracle F) (k : nat) (i : LInsn F) (g : nat -> F) : option (list F) * nat :=
    match i with
    | LLin l => (Some [lc_eval g l], k)
    | LMul l => (Some [mul_eval g l], k)
    | LConst c => const_eval O k c
    | LCall _ _ _ => (None, k)
    | LGate gt l => (Some [o_gate O gt (map g l)], k)
    end.
  Definition HlI : IRC F := {|
    Insn := LInsn F; Con := nat; i_inputs := l_inputs; i_nout := l_nout; i_call := l_callf; i_mkcall := LCall;
    i_replace := l_replace; i_kxb := fun x k b => LLin (lc_kxb x k b); i_validate := l_validate; i_sem := l_sem; i_eval := l_eval;
    c_var := fun x => x; c_replace := fun f c => f c; c_verify := fun _ v => is0 F v;
    dup_ins := true; dup_cons := true; dup_outs := true |}.
  Lemma HlL : IRC_laws HlI.
  Proof.
    split; cbn [HlI Insn Con i_inputs i_nout i_call i_mkcall i_replace i_kxb i_validate i_sem i_eval c_var c_replace c_verify].
    - intros i id l n H. destruct i; inversion H; subst; auto.
    - reflexivity.
    - intros f i. destruct i; cbn; auto. apply lc_replace_vars.
    - intros f i. destruct i; auto.
    - intros f i. destruct i; auto.
    - intros f f' i H. destruct i; cbn in *; f_equal; auto; try (apply map_ext_in; auto). apply lc_replace_ext; auto.
    - intros f n i. destruct i; cbn; auto; rewrite map_length; auto.
    - intros E i g outs H. destruct i; cbn in *; subst; auto; try contradiction. destruct H as [v [-> _]]; auto.
    - intros E f i g outs. destruct i; cbn [l_replace l_sem]; try reflexivity.
      rewrite lc_eval_replace; reflexivity. rewrite mul_eval_map; reflexivity. rewrite map_map; reflexivity.
    - intros E i g g' outs Hg H. destruct i; cbn in *; subst; auto.
      rewrite (lc_eval_ext g g'); auto. rewrite (mul_eval_ext g g'); auto. rewrite (map_ext_in g g'); auto.
    - intros E x k b g outs Hx. cbn [l_sem]. rewrite lc_kxb_eval by auto. reflexivity.
    - intros x k b. cbn. repeat split. apply lc_kxb_vars.
    - reflexivity. - reflexivity. - reflexivity. - reflexivity.
    - intros O k i g outs k' Hc H. destruct i; cbn in *; try discriminate; try (inversion H; reflexivity).
      eapply const_eval_sem; eauto.
    - intros O r k i g outs Hr Hc H. destruct i; cbn in *; subst; try contradiction; auto.
      eapply const_sem_eval; eauto.
    - intros O k i g g' Hg. destruct i; cbn in *; auto.
      rewrite (lc_eval_ext g g'); auto. rewrite (mul_eval_ext g g'); auto. rewrite (map_ext_in g g'); auto.
  Qed.

  (* ------------------------------------------------------------ dest *)
  (* dest/mod.rs:64-77 *)
  Definition d_inputs (i : DInsn F) : list nat :=
    match i with DVar e => e_vars F e | DCall _ l _ => l | DConst _ => [] end.
  Definition d_nout (i : DInsn F) : nat := match i with DCall _ _ n => n | _ => 1 end.
  Definition d_call (i : DInsn F) := match i with DCall id l n => Some (id, l, n) | _ => None end.
  (* dest/mod.rs:95-110 *)
  Definition d_replace (f : nat -> nat) (i : DInsn F) : DInsn F :=
    match i with DVar e => DVar (e_replace F f e) | DCall id l n => DCall id (map f l) n | DConst c => DConst c end.
  (* dest/mod.rs:111-115 *)
  Definition d_kxb (x : nat) (k b : F) : DInsn F := DVar (from_terms F [t_linear F k x; t_const F b]).
  (* dest/mod.rs:116-121 *)
  Definition d_validate (npub : nat) (i : DInsn F) : bool := match i with DConst c => coef_validate npub c | _ => true end.
  (* dest/mod.rs:122-161 *)
  Definition d_sem (E : Env F) (i : DInsn F) (g : nat -> F) (outs : list F) : Prop :=
    match i with
    | DVar e => exists v, outs = [v] /\ expr_sem F E g e v
    | DConst c => const_sem E c outs
    | DCall _ _ _ => False
    end.
  Fixpoint e_eval (O : Oracle F) (k : nat) (g : nat -> F) (e : Expression F) (sum : F) : F * nat :=
    match e with
    | [] => (sum, k)
    | t :: e => match vars t with
                | VRandom x => e_eval O (S k) g e (sum + g x * o_rnd O k)
                | v => e_eval O k g e (sum + vs_val F (env_of O) g v * coef t)
                end
    end.
  Definition d_eval (O : Oracle F) (k : nat) (i : DInsn F) (g : nat -> F) : option (list F) * nat :=
    match i with
    | DVar e => let '(v, k) := e_eval O k g e 0 in (Some [v], k)
    | DConst c => const_eval O k c
    | DCall _ _ _ => (None, k)
    end.
  (* dest/mod.rs:37-61: IrcRelaxed (strict = false) and Irc (strict = true) *)
  Definition DestI (strict : bool) : IRC F := {|
    Insn := DInsn F; Con := nat; i_inputs := d_inputs; i_nout := d_nout; i_call := d_call; i_mkcall := DCall;
    i_replace := d_replace; i_kxb := d_kxb; i_validate := d_validate; i_sem := d_sem; i_eval := d_eval;
    c_var := fun x => x; c_replace := fun f c => f c; c_verify := fun _ v => is0 F v;
    dup_ins := negb strict; dup_cons := true; dup_outs := negb strict |}.

  Lemma e_eval_sem O g e : forall k s v k', e_eval O k g e s = (v, k') -> exists w, v = s + w /\ expr_sem F (env_of O) g e w.
  Proof.
    induction e as [|t e IH]; intros k s v k' H; cbn [e_eval] in H.
    - inversion H; subst. exists 0. split; [ring|]. exists []. split; [constructor|reflexivity].
    - assert (Hc : forall w, e_eval O k g e (s + w) = (v, k') \/ e_eval O (S k) g e (s + w) = (v, k') -> term_sem F (env_of O) g t w ->
        exists w', v = s + w' /\ expr_sem F (env_of O) g (t :: e) w').
      { intros w Hw Ht. assert (Hex : exists w2, v = s + w + w2 /\ expr_sem F (env_of O) g e w2) by (destruct Hw as [Hw|Hw]; eapply IH; eauto).
        destruct Hex as [w2 [-> [vs [H1 ->]]]]. exists (w + fsum F vs). split; [ring|]. exists (w :: vs). split; [constructor; auto|reflexivity]. }
      destruct (vars t) eqn:Ev; try (apply (Hc (vs_val F (env_of O) g (vars t) * coef t)); [rewrite Ev; auto|unfold term_sem; rewrite Ev; auto]; fail).
      apply (Hc (g x * o_rnd O k)); auto. unfold term_sem; rewrite Ev. exists (o_rnd O k). split; auto. exists k; auto.
  Qed.
  Lemma e_sem_eval O r g e : (forall j, o_rnd O j = r) -> forall k s w, expr_sem F (env_of O) g e w -> fst (e_eval O k g e s) = s + w.
  Proof.
    intros Hr. induction e as [|t e IH]; intros k s w [vs [H ->]]; cbn [e_eval].
    - inversion H; subst. unfold fsum; cbn. ring.
    - inversion H as [|? u ? us Ht Hus]; subst. assert (He : expr_sem F (env_of O) g e (fsum F us)) by (exists us; auto).
      assert (Hs : fsum F (u :: us) = u + fsum F us) by reflexivity. rewrite Hs.
      unfold term_sem in Ht. destruct (vars t) eqn:Ev; rewrite (IH _ _ _ He); subst; try ring.
      destruct Ht as [r' [[j ->] ->]]. rewrite !Hr. ring.
  Qed.
  Lemma e_eval_ext O g g' e : (forall x, In x (e_vars F e) -> g x = g' x) -> forall k s, e_eval O k g e s = e_eval O k g' e s.
  Proof.
    induction e as [|t e IH]; intros Hg k s; cbn [e_eval]; auto.
    assert (Hg1 : forall x, In x (vs_vars (vars t)) -> g x = g' x) by (intros; apply Hg; unfold e_vars; cbn; apply in_or_app; auto).
    assert (Hg2 : forall x, In x (e_vars F e) -> g x = g' x) by (intros; apply Hg; unfold e_vars; cbn; apply in_or_app; auto).
    destruct (vars t) eqn:Ev; try (rewrite IH by auto; do 2 f_equal; f_equal; apply vs_val_ext; auto; fail).
    rewrite IH by auto. rewrite (Hg1 x); cbn; auto.
  Qed.

  Lemma DestL strict : IRC_laws (DestI strict).
  Proof.
    split; cbn [DestI Insn Con i_inputs i_nout i_call i_mkcall i_replace i_kxb i_validate i_sem i_eval c_var c_replace c_verify].
    - intros i id l n H. destruct i; inversion H; subst; auto.
    - reflexivity.
    - intros f i. destruct i; cbn; auto. apply e_replace_vars.
    - intros f i. destruct i; auto.
    - intros f i. destruct i; auto.
    - intros f f' i H. destruct i; cbn [d_replace d_inputs] in *; f_equal; [|apply map_ext_in; auto].
      unfold e_replace. apply map_ext_in. intros t Ht. f_equal.
      assert (Hv : forall x, In x (vs_vars (vars t)) -> f x = f' x) by (intros; apply H; unfold e_vars; apply in_flat_map; eauto).
      destruct (vars t); cbn in *; auto; repeat rewrite Hv by auto; auto. f_equal. apply map_ext_in; auto.
    - intros f n i. destruct i; auto.
    - intros E i g outs H. destruct i; cbn in *; try contradiction; destruct H as [v [-> _]]; auto.
    - intros E f i g outs. destruct i; cbn; try reflexivity.
      split; intros [v [-> H]]; exists v; split; auto; apply expr_sem_replace; auto.
    - intros E i g g' outs Hg H. destruct i; cbn in *; auto. destruct H as [v [-> H]]. exists v; split; auto. eapply expr_sem_ext; eauto.
    - intros E x k b g outs Hx. cbn. assert (Hn : no_random F [t_linear F k x; t_const F b]) by (repeat constructor; auto).
      pose proof (no_random_from_terms F _ Hn) as Hn2.
      assert (Hv : expr_val F E g (from_terms F [t_linear F k x; t_const F b]) = g x * k + b).
      { destruct (from_terms_spec F E [t_linear F k x; t_const F b]) as [_ [Hval _]]. rewrite Hval by auto.
        rewrite !expr_val_cons, expr_val_nil. unfold term_val; cbn. ring. }
      split.
      + intros [v [-> H]]. apply expr_sem_val in H; auto. congruence.
      + intros ->. eexists; split; auto. apply expr_sem_val; auto.
    - intros x k b. cbn. repeat split. intros y Hy. apply from_terms_vars in Hy. exact Hy.
    - reflexivity. - reflexivity. - reflexivity. - reflexivity.
    - intros O k i g outs k' Hc H. destruct i; cbn in *; try discriminate.
      + destruct (e_eval O k g e 0) as [v k1] eqn:Ee. inversion H; subst. apply e_eval_sem in Ee. destruct Ee as [w [-> Hw]].
        exists w. split; auto. f_equal; ring.
      + eapply const_eval_sem; eauto.
    - intros O r k i g outs Hr Hc H. destruct i; cbn in *; try contradiction.
      + destruct H as [v [-> H]]. pose proof (e_sem_eval O r g e Hr k 0 v H) as He. destruct (e_eval O k g e 0). cbn in *. subst.
        do 2 f_equal. ring.
      + eapply const_sem_eval; eauto.
    - intros O k i g g' Hg. destruct i; cbn in *; auto. rewrite (e_eval_ext O g g'); auto.
  Qed.
End Inst.
