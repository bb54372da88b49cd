(* Library circuits (circuit-std-rs): functions that take an API object and variables and make API calls.
   A gadget is modelled as what it does to the sequence of calls: given the number of handles that exist, the calls it makes and its
   result; None is a panic.  It cannot look at the value of a variable, only at constants and lengths, as in Rust.
   The meaning of the calls is ApiSpec.v. *)
From Verif Require Import Prelude Field Expr Hints Ir IrInst ApiSpec.
Open Scope nat_scope.

Section Gadget.
  Context {F : Fld}.
  (* number of variables a call returns *)
  Definition op_outs {A} (o : Op A) : nat :=
    match o with
    | OAssert _ _ | OAssertEq _ _ | OAssertDiff _ _ => 0
    | OToBin _ n | OHint _ _ n => n
    | _ => 1
    end.
  Definition ops_outs {A} (l : list (Op A)) : nat := fold_right (fun o n => op_outs o + n) 0 l.
  Definition G (A : Type) := nat -> option (list (Op (Arg F)) * A).
  Definition gret {A} (a : A) : G A := fun _ => Some ([], a).
  Definition gpanic {A} : G A := fun _ => None.
  Definition gbind {A B} (m : G A) (f : A -> G B) : G B := fun H =>
    match m H with
    | None => None
    | Some (o1, a) => match f a (H + ops_outs o1) with None => None | Some (o2, b) => Some (o1 ++ o2, b) end
    end.
  (* one API call with one, no, or many results *)
  Definition call1 (o : Op (Arg F)) : G nat := fun H => Some ([o], H).
  Definition call0 (o : Op (Arg F)) : G unit := fun _ => Some ([o], tt).
  Definition calln (o : Op (Arg F)) : G (list nat) := fun H => Some ([o], seq H (op_outs o)).
  (* the calls of frontend/api.rs, on variables and constants *)
  Definition a_const (c : Z) : G nat := call1 (OConst (AK (ofZ c))).
  Definition a_bin (b : BinOp) (x y : Arg F) : G nat := call1 (OBin b x y).
  Definition a_add (x y : nat) := a_bin BAdd (AV x) (AV y).
  Definition a_sub (x y : nat) := a_bin BSub (AV x) (AV y).
  Definition a_mul (x y : nat) := a_bin BMul (AV x) (AV y).
  Definition k (z : Z) : Arg F := AK (ofZ z).
  Definition a_tobin (x n : nat) : G (list nat) := calln (OToBin (AV x) n).
  Definition a_iszero (x : nat) : G nat := call1 (OIsZero (AV x)).
  (* loops: over a list collecting results, and with a state *)
  Fixpoint gmap {A B} (f : A -> G B) (l : list A) : G (list B) :=
    match l with
    | [] => gret []
    | a :: l => gbind (f a) (fun b => gbind (gmap f l) (fun bs => gret (b :: bs)))
    end.
  Fixpoint gfold {A S} (f : S -> A -> G S) (l : list A) (s : S) : G S :=
    match l with [] => gret s | a :: l => gbind (f s a) (fun s => gfold f l s) end.
  Definition gsome {A} (o : option A) : G A := match o with Some a => gret a | None => gpanic end.

  (* ------------------------------------------------------------ running the calls on values *)
  Definition exec1 (hv : list F) (o : Op (Arg F)) : option (list F) :=
    let* o' := op_map (arg_val hv) o in
    match api_fun o' with Some (outs, true) => Some (hv ++ outs) | _ => None end.
  Fixpoint exec (hv : list F) (l : list (Op (Arg F))) : option (list F) :=
    match l with [] => Some hv | o :: l => let* hv := exec1 hv o in exec hv l end.
  Definition grun {A} (m : G A) (hv : list F) : option (list F * A) :=
    let* p := m (length hv) in let* hv' := exec hv (fst p) in Some (hv', snd p).

  (* the program that makes the calls of a gadget whose result is a list of variables *)
  Definition gprog (n : nat) (m : G (list nat)) : option (Prog F) :=
    let* p := m n in Some {| p_body := map SOp (fst p); p_outs := snd p |}.

  (* ------------------------------------------------------------ facts *)
  Lemma api_fun_len (o : Op F) outs b : api_fun o = Some (outs, b) -> length outs = op_outs o.
  Proof.
    destruct o; cbn; intros H; try discriminate; try (injection H as <- <-; reflexivity).
    - destruct (bin_fun b0 x y) as [w|]; cbn in H; [|discriminate]. injection H as <- <-. reflexivity.
    - destruct (_ <? _)%Z; [|discriminate]. injection H as <- <-. rewrite map_length, seq_length. reflexivity.
    - destruct (is0 F x); [discriminate|]. injection H as <- <-. reflexivity.
  Qed.
  Lemma op_map_outs {A B} (f : A -> option B) o o' : op_map f o = Some o' -> op_outs o' = op_outs o.
  Proof.
    destruct o; cbn; intros H;
      repeat match type of H with obind ?m _ = Some _ => let E := fresh in destruct m eqn:E; cbn in H; [|discriminate] end;
      injection H as <-; reflexivity.
  Qed.
  Lemma exec1_len hv o hv' : exec1 hv o = Some hv' -> length hv' = length hv + op_outs o /\ exists l, hv' = hv ++ l.
  Proof.
    unfold exec1. destruct (op_map (arg_val hv) o) as [o'|] eqn:E; cbn [obind]; [|discriminate].
    destruct (api_fun o') as [[outs b]|] eqn:E2; [|discriminate]. destruct b; [|discriminate]. intros H. injection H as <-.
    rewrite app_length, (api_fun_len _ _ _ E2), (op_map_outs _ _ _ E). eauto.
  Qed.
  Lemma exec_len l : forall hv hv', exec hv l = Some hv' -> length hv' = length hv + ops_outs l /\ exists e, hv' = hv ++ e.
  Proof.
    induction l as [|o l IH]; intros hv hv' H; cbn in H.
    - injection H as <-. cbn. split; [lia|]. exists []. rewrite app_nil_r; auto.
    - destruct (exec1 hv o) as [h1|] eqn:E; cbn [obind] in H; [|discriminate].
      destruct (exec1_len _ _ _ E) as [L1 [e1 ->]]. destruct (IH _ _ H) as [L2 [e2 ->]]. change (ops_outs (o :: l)) with (op_outs o + ops_outs l). split; [lia|]. exists (e1 ++ e2). rewrite app_assoc; auto.
  Qed.
  Lemma exec_app l1 l2 : forall hv, exec hv (l1 ++ l2) = obind (exec hv l1) (fun hv => exec hv l2).
  Proof. induction l1 as [|o l1 IH]; intros hv; cbn; auto. destruct (exec1 hv o); cbn; auto. Qed.
  Lemma grun_ret {A} (a : A) hv : grun (gret a) hv = Some (hv, a). Proof. reflexivity. Qed.
  Lemma grun_bind {A B} (m : G A) (f : A -> G B) hv : grun (gbind m f) hv = obind (grun m hv) (fun p => grun (f (snd p)) (fst p)).
  Proof.
    unfold grun, gbind. destruct (m (length hv)) as [[o1 a]|]; cbn [obind fst snd]; auto.
    destruct (exec hv o1) as [h1|] eqn:E; cbn [obind fst snd].
    - destruct (exec_len _ _ _ E) as [L _]. rewrite L. destruct (f a _) as [[o2 b]|]; cbn [obind fst snd]; auto. rewrite exec_app, E. reflexivity.
    - destruct (f a _) as [[o2 b]|]; cbn [obind fst snd]; auto. rewrite exec_app, E. reflexivity.
  Qed.

  (* ------------------------------------------------------------ reasoning: a gadget runs, without error or failed assertion, and Q holds after *)
  Definition ext (hv hv' : list F) : Prop := exists l, hv' = hv ++ l.
  Lemma ext_refl hv : ext hv hv. Proof. exists []. rewrite app_nil_r; auto. Qed.
  Lemma ext_trans a b c : ext a b -> ext b c -> ext a c. Proof. intros [x ->] [y ->]. exists (x ++ y). rewrite app_assoc; auto. Qed.
  Definition ok {A} (hv : list F) (m : G A) (Q : list F -> A -> Prop) : Prop := exists hv' a, grun m hv = Some (hv', a) /\ ext hv hv' /\ Q hv' a.
  Lemma ok_ret {A} hv (a : A) (Q : list F -> A -> Prop) : Q hv a -> ok hv (gret a) Q.
  Proof. intros H. exists hv, a. rewrite grun_ret. auto using ext_refl. Qed.
  Lemma ok_bind {A B} hv (m : G A) (f : A -> G B) (P : list F -> A -> Prop) (Q : list F -> B -> Prop) :
    ok hv m P -> (forall hv' a, ext hv hv' -> P hv' a -> ok hv' (f a) Q) -> ok hv (gbind m f) Q.
  Proof.
    intros (h1 & a & E1 & X1 & H1) H. destruct (H _ _ X1 H1) as (h2 & b & E2 & X2 & H2). exists h2, b.
    rewrite grun_bind, E1. cbn [obind fst snd]. eauto using ext_trans.
  Qed.
  Lemma ok_imp {A} hv (m : G A) (P Q : list F -> A -> Prop) : ok hv m P -> (forall hv' a, ext hv hv' -> P hv' a -> Q hv' a) -> ok hv m Q.
  Proof. intros (h & a & E & X & H) I. exists h, a. auto. Qed.
  (* variable x has value v *)
  Definition is (hv : list F) (x : nat) (v : F) : Prop := nth_error hv x = Some v.
  Definition iss (hv : list F) (xs : list nat) (vs : list F) : Prop := Forall2 (is hv) xs vs.
  Lemma is_ext hv hv' x v : ext hv hv' -> is hv x v -> is hv' x v.
  Proof. intros [l ->] H. unfold is in *. rewrite nth_error_app1; auto. apply nth_error_Some. congruence. Qed.
  Lemma iss_ext hv hv' xs vs : ext hv hv' -> iss hv xs vs -> iss hv' xs vs.
  Proof. intros X H. induction H; constructor; eauto using is_ext. Qed.
  Lemma is_new hv v : is (hv ++ [v]) (length hv) v.
  Proof. unfold is. rewrite nth_error_app2, Nat.sub_diag by lia. reflexivity. Qed.
  Lemma iss_new hv vs : iss (hv ++ vs) (seq (length hv) (length vs)) vs.
  Proof.
    revert hv. induction vs as [|v vs IH]; intros hv; cbn; constructor.
    - unfold is. rewrite nth_error_app2, Nat.sub_diag by lia. reflexivity.
    - specialize (IH (hv ++ [v])). rewrite app_length in IH. cbn in IH. rewrite <- app_assoc in IH. replace (S (length hv)) with (length hv + 1) by lia. exact IH.
  Qed.
  Lemma ok_call1 hv (o : Op (Arg F)) o' v : op_map (arg_val hv) o = Some o' -> api_fun o' = Some ([v], true) -> ok hv (call1 o) (fun hv' x => is hv' x v).
  Proof.
    intros H1 H2. exists (hv ++ [v]), (length hv). split; [|split]; [|exists [v]; auto|apply is_new].
    unfold grun, call1. cbn [obind fst snd exec]. unfold exec1. rewrite H1. cbn [obind]. rewrite H2. reflexivity.
  Qed.
  Lemma ok_calln hv (o : Op (Arg F)) o' vs : op_map (arg_val hv) o = Some o' -> api_fun o' = Some (vs, true) -> ok hv (calln o) (fun hv' xs => iss hv' xs vs).
  Proof.
    intros H1 H2. exists (hv ++ vs), (seq (length hv) (op_outs o)). split; [|split]; [|exists vs; auto|].
    - unfold grun, calln. cbn [obind fst snd exec]. unfold exec1. rewrite H1. cbn [obind]. rewrite H2. reflexivity.
    - rewrite <- (op_map_outs _ _ _ H1), <- (api_fun_len _ _ _ H2). apply iss_new.
  Qed.
  Lemma ok_call0 hv (o : Op (Arg F)) o' : op_map (arg_val hv) o = Some o' -> api_fun o' = Some ([], true) -> ok hv (call0 o) (fun _ _ => True).
  Proof.
    intros H1 H2. exists (hv ++ []), tt. split; [|split]; [|exists []; auto|auto].
    unfold grun, call0. cbn [obind fst snd exec]. unfold exec1. rewrite H1. cbn [obind]. rewrite H2. reflexivity.
  Qed.
  Lemma ok_bin hv b (x y : Arg F) u v w : arg_val hv x = Some u -> arg_val hv y = Some v -> bin_fun b u v = Some w -> ok hv (a_bin b x y) (fun hv' z => is hv' z w).
  Proof. intros H1 H2 H3. eapply ok_call1; cbn. rewrite H1, H2. cbn. reflexivity. cbn. rewrite H3. reflexivity. Qed.
  Lemma ok_const hv c : ok hv (a_const c) (fun hv' z => is hv' z (ofZ c)).
  Proof. eapply ok_call1; cbn; reflexivity. Qed.
  Lemma ok_add hv x y u v : is hv x u -> is hv y v -> ok hv (a_add x y) (fun hv' z => is hv' z (fadd u v)).
  Proof. intros H1 H2. eapply ok_bin; cbn; eauto. Qed.
  Lemma ok_sub hv x y u v : is hv x u -> is hv y v -> ok hv (a_sub x y) (fun hv' z => is hv' z (fsub u v)).
  Proof. intros H1 H2. eapply ok_bin; cbn; eauto. Qed.
  Lemma ok_mul hv x y u v : is hv x u -> is hv y v -> ok hv (a_mul x y) (fun hv' z => is hv' z (fmul u v)).
  Proof. intros H1 H2. eapply ok_bin; cbn; eauto. Qed.
  Lemma ok_iszero hv x u : is hv x u -> ok hv (a_iszero x) (fun hv' z => is hv' z (fbool (is0 F u))).
  Proof. intros H. eapply ok_call1; cbn. rewrite H. cbn. reflexivity. reflexivity. Qed.
  Lemma ok_tobin hv x u n : is hv x u -> (toZ u < 2 ^ Z.of_nat n)%Z ->
    ok hv (a_tobin x n) (fun hv' zs => iss hv' zs (map (fun i => fbool (Z.testbit (toZ u) (Z.of_nat i))) (seq 0 n))).
  Proof.
    intros H L. eapply ok_calln; cbn. rewrite H. cbn. reflexivity. cbn. apply Z.ltb_lt in L. rewrite L. reflexivity.
  Qed.
  (* the run is the only one, and it is the run of the program *)
  Lemma exec_stmts fns E l : forall hv hv1, exec hv l = Some hv1 -> forall hv' b, stmts fns E (map SOp l) hv hv' b <-> hv' = hv1 /\ b = true.
  Proof.
    induction l as [|o l IH]; intros hv hv1 H hv' b; cbn in H.
    - injection H as <-. split. intros S. inversion S; auto. intros [-> ->]. constructor.
    - destruct (exec1 hv o) as [h1|] eqn:E1; cbn [obind] in H; [|discriminate]. unfold exec1 in E1.
      destruct (op_map (arg_val hv) o) as [o'|] eqn:E2; cbn [obind] in E1; [|discriminate].
      destruct (api_fun o') as [[outs b0]|] eqn:E3; [|discriminate]. destruct b0; [|discriminate]. injection E1 as <-.
      assert (Hs : forall outs' b', api_sem E o' outs' b' <-> outs' = outs /\ b' = true).
      { intros outs' b'. unfold api_sem. destruct o'; try discriminate; rewrite E3; split; intros X; try (injection X as <- <-; auto); destruct X as [-> ->]; auto. }
      split.
      + intros S. inversion S as [|o0 o1 ss hv0 outs0 b0 hv1' b1 Ho Ha Hr|]; subst. rewrite Ho in E2. injection E2 as ->. apply Hs in Ha. destruct Ha as [-> ->].
        eapply IH in Hr; [|exact H]. destruct Hr as [-> ->]. auto.
      + intros [-> ->]. change true with (true && true). eapply StOp; [exact E2| |]. apply Hs; auto. eapply IH; eauto.
  Qed.
  (* a run with all assertions satisfied is what exec computes, when no call is a hint or a random value *)
  Definition detop {A} (o : Op A) : bool := match o with ORandom | OHint _ _ _ => false | _ => true end.
  Lemma stmts_exec fns E l : forall hv hv', forallb detop l = true -> stmts fns E (map SOp l) hv hv' true -> exec hv l = Some hv'.
  Proof.
    induction l as [|o l IH]; intros hv hv' D S; cbn in D |- *.
    - inversion S; auto.
    - apply andb_true_iff in D as [D1 D2]. inversion S as [|o0 o' ss hv0 outs b hv1' b1 H1 H3 Hr|]; subst. match goal with X : b && b1 = true |- _ => apply andb_true_iff in X as [-> ->] end.
      assert (E3 : exec1 hv o = Some (hv ++ outs)).
      { unfold exec1. rewrite H1. cbn [obind]. assert (X : api_fun o' = Some (outs, true)) by (destruct o; cbn in D1; try discriminate; cbn in H1; repeat match type of H1 with obind ?m _ = Some _ => destruct m; cbn in H1; [|discriminate] end; injection H1 as <-; exact H3). rewrite X; auto. }
      rewrite E3. cbn [obind]. auto.
  Qed.
  Lemma omap_nth_iss hv xs : forall vs, omap (nth_error hv) xs = Some vs <-> iss hv xs vs.
  Proof.
    induction xs as [|x xs IH]; intros vs; cbn; split; intros H.
    - injection H as <-. constructor.
    - inversion H; auto.
    - destruct (nth_error hv x) as [v|] eqn:E; cbn in H; [|discriminate]. destruct (omap (nth_error hv) xs) as [ws|] eqn:E2; cbn in H; [|discriminate]. injection H as <-. constructor; [exact E|]. apply IH; auto.
    - inversion H as [|x0 w xs0 ws Hx Hr]; subst. unfold is in *. rewrite Hx. cbn. apply IH in Hr. rewrite Hr. reflexivity.
  Qed.
  Lemma ok_main fns (E : Env F) npub n (m : G (list nat)) p ins vs : gprog (n + npub) m = Some p -> length ins = n ->
    ok (ins ++ map (e_pub E) (seq 0 npub)) m (fun hv xs => iss hv xs vs) -> forall outs b, main fns E npub p ins outs b <-> outs = vs /\ b = true.
  Proof.
    intros Hp L (hv' & xs & R & _ & Q) outs b. unfold main, gprog, grun in *. rewrite app_length, map_length, seq_length, L in R.
    destruct (m (n + npub)) as [[ops a]|]; cbn [obind fst snd] in *; [|discriminate]. injection Hp as <-.
    destruct (exec _ ops) as [h|] eqn:Ex; cbn [obind] in R; [|discriminate]. injection R as -> ->. apply omap_nth_iss in Q.
    split.
    - intros H. inversion H as [p0 ins0 h0 b0 outs0 Hs Ho]; subst. cbn in *. eapply exec_stmts in Hs; [|exact Ex]. destruct Hs as [-> ->]. rewrite Q in Ho. injection Ho as <-. auto.
    - intros [-> ->]. econstructor; cbn. eapply exec_stmts; eauto. exact Q.
  Qed.
End Gadget.
Arguments G : clear implicits.
Notation "x <-- m ;; f" := (gbind m (fun x => f)) (at level 61, m at next level, right associativity).
Notation "' p <-- m ;; f" := (gbind m (fun q => let p := q in f)) (at level 61, p pattern, m at next level, right associativity).
