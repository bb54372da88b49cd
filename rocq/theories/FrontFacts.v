(* The recorded circuit does what the API promises: simulation between Frontend.v and ApiSpec.v. *)
From Verif Require Import Prelude Field Expr Hints Ir IrInst IrFacts Sim ApiSpec Frontend ApiFacts.
From Coq Require Import Lia.
Open Scope nat_scope.

Section Trans.
  Context {F : Fld}.
  Add Field Fff : (fth F).
  Notation SI := (SrcI F).
  Notation SL := (SrcL F).
  Variable E : Env F.
  Variable CS : list (nat * Circuit SI).
  Local Notation Bd := (@Bd F).

  (* the builtin identity hint returns its argument *)
  Definition Eok : Prop := forall x outs, hint_sem F E (builtin_id HIdentity) 1 [x] outs <-> outs = [x].

  Definition bexec (b : Bd) (ins vals : list F) (w : bool) : Prop :=
    length ins = bd_n b /\ exists b1, exec SI E CS (bd_insns b : list (Insn SI)) (f0 :: ins) vals b1 /\
      w = b1 && forallb (fun k => con_verify F k (getv vals (snd k))) (bd_cons b).
  Definition rng (b : Bd) (x : nat) : Prop := 0 < x < next b.
  Record Str (b : Bd) : Prop := {
    s_wf : wf_insns SI (bd_insns b : list (Insn SI)) (bd_n b);
    s_next : next b = S (bd_n b + nouts SI (bd_insns b : list (Insn SI)));
    s_con : Forall (fun k => rng b (snd k)) (bd_cons b);
    s_calls : Forall (call_wf SI CS) (bd_insns b : list (Insn SI)) }.
  Definition GV (b : Bd) (vals : list F) : Prop := length vals = next b /\ forall x c, nth x (bd_const b) None = Some c -> getv vals x = c.
  Definition Cst (b : Bd) : Prop := forall ins vals w, bexec b ins vals w -> GV b vals.
  Definition Inv (b : Bd) : Prop := Str b /\ Cst b.
  Record trans (b b' : Bd) (rs : list nat) (T : list F -> list F -> bool -> Prop) : Prop := {
    t_inv : Inv b'; t_n : bd_n b' = bd_n b; t_le : next b <= next b'; t_rs : Forall (rng b') rs;
    t_fwd : forall ins vals' w', bexec b' ins vals' w' -> exists vals new w w2, bexec b ins vals w /\ vals' = vals ++ new /\ T vals (map (getv vals') rs) w2 /\ w' = w && w2;
    t_bwd : forall ins vals w outs w2, bexec b ins vals w -> T vals outs w2 -> exists new, bexec b' ins (vals ++ new) (w && w2) /\ map (getv (vals ++ new)) rs = outs }.

  Definition grow (b : Bd) (i : SInsn F) (ks : list (option F)) : Bd :=
    {| bd_insns := bd_insns b ++ [i]; bd_cons := bd_cons b; bd_const := bd_const b ++ ks; bd_n := bd_n b |}.
  Lemma grow_next b i ks : next (grow b i ks) = next b + length ks. Proof. unfold next, grow. cbn. apply app_length. Qed.
  Lemma cons_app b (vals new : list F) : Str b -> length vals = next b ->
    forallb (fun k => con_verify F k (getv (vals ++ new) (snd k))) (bd_cons b) = forallb (fun k => con_verify F k (getv vals (snd k))) (bd_cons b).
  Proof.
    intros S0 Hl. pose proof (s_con b S0) as H. induction H as [|k l Hk H IH]; cbn [forallb]; auto. rewrite IH. unfold rng in Hk. rewrite getv_app_l by lia. auto.
  Qed.
  Lemma map_getv_app (vals new : list F) l : Forall (fun x => x < length vals) l -> map (getv (vals ++ new)) l = map (getv vals) l.
  Proof. induction 1 as [|x l Hx H IH]; cbn [map]; auto. rewrite IH, getv_app_l by auto. auto. Qed.
  Lemma map_getv_seq (vals outs : list F) : map (getv (vals ++ outs)) (seq (length vals) (length outs)) = outs.
  Proof.
    apply list_eq_nth_error. intros i. destruct (Nat.lt_ge_cases i (length outs)) as [Hi|Hi].
    - erewrite map_nth_error by (apply nth_error_seq; auto). rewrite getv_app_r by lia. unfold getv. replace (length vals + i - length vals) with i by lia.
      destruct (nth_error outs i) as [x|] eqn:Ex; [|apply nth_error_None in Ex; lia]. erewrite nth_error_nth; eauto.
    - rewrite (proj2 (nth_error_None outs i)) by auto. apply nth_error_None. rewrite map_length, seq_length. auto.
  Qed.

  Lemma and_swap a b c : (a && b) && c = (a && c) && b. Proof. destruct a, b, c; auto. Qed.

  Lemma t_grow b i ks : Inv b -> Forall (rng b) (s_inputs F i) -> call_wf SI CS (i : Insn SI) -> length ks = s_nout F i ->
    (forall vals outs w, step SI E CS (i : Insn SI) vals outs w -> forall j c, nth j ks None = Some c -> nth j outs f0 = c) ->
    trans b (grow b i ks) (seq (next b) (length ks)) (step SI E CS (i : Insn SI)).
  Proof.
    intros [S0 C0] Hin Hc Hk Hcs.
    assert (S1 : Str (grow b i ks)).
    { destruct S0 as [S1 S2 S3 S4]. split.
      - cbn [grow bd_insns bd_n]. apply wf_insns_app. split; auto. split; [|exact I]. eapply Forall_impl; [|exact Hin]. unfold rng. intros x Hx. rewrite S2 in Hx. lia.
      - rewrite grow_next. cbn [grow bd_insns bd_n]. rewrite nouts_app, S2. cbn [nouts]. change (i_nout (i : Insn SI)) with (s_nout F i). lia.
      - cbn [grow bd_cons]. eapply Forall_impl; [|exact S3]. unfold rng. intros k Hx. rewrite grow_next. lia.
      - cbn [grow bd_insns]. apply Forall_app. split; auto. }
    assert (HF : forall ins vals' w', bexec (grow b i ks) ins vals' w' -> exists vals outs w w2, bexec b ins vals w /\ vals' = vals ++ outs /\ step SI E CS (i : Insn SI) vals outs w2 /\ length outs = length ks /\ w' = w && w2).
    { intros ins vals' w' [Hl (b1 & Hx & ->)]. cbn [grow bd_insns] in Hx. apply exec_snoc in Hx. destruct Hx as (mid & outs & w1 & w2 & H1 & H2 & -> & ->).
      assert (Hm : length mid = next b). { rewrite (exec_len SI SL _ _ _ _ _ _ (s_calls b S0) H1). cbn [length]. rewrite (s_next b S0), Hl. cbn [grow bd_n]. lia. }
      pose proof (step_len SI SL E CS (i : Insn SI) mid outs w2 Hc H2) as Hlo. change (length outs = s_nout F i) in Hlo.
      cbn [grow bd_cons]. rewrite cons_app by auto. eexists mid, outs, _, w2. split; [split; [exact Hl|eexists; split; [exact H1|reflexivity]]|].
      split; auto. split; auto. split; [lia|]. apply and_swap. }
    split.
    - split; auto. intros ins vals' w' Hb. destruct (HF _ _ _ Hb) as (vals & outs & w & w2 & H1 & -> & H2 & H3 & ->).
      destruct (C0 _ _ _ H1) as [Hl Hcv]. split. { rewrite app_length, grow_next. lia. }
      cbn [grow bd_const]. intros x c Hx. destruct (Nat.lt_ge_cases x (length (bd_const b))) as [Hlt|Hge].
      + rewrite app_nth1 in Hx by auto. rewrite getv_app_l by (unfold next in Hl; lia). auto.
      + rewrite app_nth2 in Hx by auto. rewrite getv_app_r by (unfold next in Hl; lia). unfold getv. unfold next in Hl. rewrite Hl. eapply Hcs; eauto.
    - reflexivity.
    - rewrite grow_next. lia.
    - apply Forall_forall. intros x Hx. apply in_seq in Hx. unfold rng. rewrite grow_next. pose proof (s_next b S0). lia.
    - intros ins vals' w' Hb. destruct (HF _ _ _ Hb) as (vals & outs & w & w2 & H1 & -> & H2 & H3 & ->).
      exists vals, outs, w, w2. split; auto. split; auto. destruct (C0 _ _ _ H1) as [Hl _]. rewrite <- Hl, <- H3, map_getv_seq. auto.
    - intros ins vals w outs w2 Hb Hs. destruct (C0 _ _ _ Hb) as [Hl _]. pose proof (step_len SI SL E CS (i : Insn SI) vals outs w2 Hc Hs) as Hlo. change (length outs = s_nout F i) in Hlo.
      exists outs. rewrite <- Hk in Hlo. split; [|rewrite <- Hl, <- Hlo; apply map_getv_seq].
      destruct Hb as [Hln (b1 & Hx & ->)]. split; [exact Hln|]. exists (b1 && w2). split. { cbn [grow bd_insns]. apply exec_snoc. exists vals, outs, b1, w2. auto. }
      cbn [grow bd_cons]. rewrite cons_app by auto. apply and_swap.
  Qed.
  Definition isem (i : SInsn F) (vals outs : list F) (w : bool) : Prop := s_sem F E i (getv vals) outs /\ w = true.
  Lemma t_ext b b' rs (T T' : list F -> list F -> bool -> Prop) : Inv b -> (forall vals outs w, GV b vals -> (T vals outs w <-> T' vals outs w)) -> trans b b' rs T -> trans b b' rs T'.
  Proof.
    intros [S0 C0] HT [t1 t2 t3 t4 t5 t6]. split; auto.
    - intros ins vals' w' Hb. destruct (t5 _ _ _ Hb) as (vals & new & w & w2 & H1 & H2 & H3 & H4). exists vals, new, w, w2. split; auto. split; auto. split; auto. apply HT; eauto.
    - intros ins vals w outs w2 Hb Ht. eapply t6; eauto. apply HT; eauto.
  Qed.
  Lemma t_ext_eq b b' rs rs' T : rs = rs' -> trans b b' rs T -> trans b b' rs' T. Proof. intros ->; auto. Qed.
  Lemma t_push b i n b' rs : Inv b -> s_call F i = None -> Forall (rng b) (s_inputs F i) -> s_nout F i = n -> push b i n = (b', rs) -> trans b b' rs (isem i).
  Proof.
    intros HI Hc Hi Hn Hp. injection Hp as <- <-. eapply t_ext; [exact HI| |].
    2:{ eapply t_ext_eq; [|apply (t_grow b i (repeat None n) HI Hi)].
        - rewrite repeat_length; auto.
        - intros id l m H. change (s_call F i = Some (id, l, m)) in H. congruence.
        - rewrite repeat_length; auto.
        - intros vals outs w _ j c Hj. exfalso. revert Hj. clear. revert j. induction n as [|n IH]; intros [|j]; cbn; try discriminate. apply IH. }
    intros vals outs w [Hl _]. unfold step, isem. change (i_call (i : Insn SI)) with (s_call F i). rewrite Hc. split; [intros [_ H]; auto|]. intros H. split; auto.
    eapply Forall_impl; [|exact Hi]. unfold rng, inb. intros; lia.
  Qed.
  Lemma t_const b c b' x : Inv b -> convert b (AK c) = (b', x) -> trans b b' [x] (fun _ outs w => outs = [c] /\ w = true).
  Proof.
    intros HI Hp. injection Hp as <- <-. eapply t_ext; [exact HI| |].
    2:{ eapply t_ext_eq; [|apply (t_grow b (SConst (CConst c)) [Some c] HI)].
        - reflexivity.
        - constructor.
        - intros id l m H. discriminate.
        - reflexivity.
        - intros vals outs w Hs j d Hj. destruct Hs as (_ & (v0 & -> & Hv) & _). destruct j as [|[|j]]; cbn in Hj; try discriminate. injection Hj as <-. cbn in Hv. auto. }
    intros vals outs w [Hl _]. unfold step. cbn. split.
    - intros (_ & (v0 & -> & ->) & ->). auto.
    - intros [-> ->]. split; [constructor|]. split; auto. exists c. split; reflexivity.
  Qed.
  Lemma t_con b t x : Inv b -> rng b x -> trans b {| bd_insns := bd_insns b; bd_cons := bd_cons b ++ [(t, x)]; bd_const := bd_const b; bd_n := bd_n b |} []
      (fun vals outs w => outs = [] /\ w = con_fun t (getv vals x)).
  Proof.
    intros [S0 C0] Hx. set (b' := {| bd_insns := _ |}).
    assert (HB : forall ins vals w', bexec b' ins vals w' <-> exists w, bexec b ins vals w /\ w' = w && con_fun t (getv vals x)).
    { intros ins vals w'. unfold bexec. cbn [b' bd_insns bd_cons bd_n]. split.
      - intros [Hl (b1 & H1 & ->)]. eexists. split; [split; [exact Hl|exists b1; split; [exact H1|reflexivity]]|]. rewrite forallb_app. cbn [forallb]. rewrite andb_true_r, andb_assoc. reflexivity.
      - intros (w & [Hl (b1 & H1 & ->)] & ->). split; auto. exists b1. split; auto. rewrite forallb_app. cbn [forallb]. rewrite andb_true_r, andb_assoc. reflexivity. }
    split.
    - split.
      + destruct S0 as [S1 S2 S3 S4]. split; auto. cbn [b' bd_cons]. apply Forall_app. split; auto.
      + intros ins vals w' Hb. apply HB in Hb. destruct Hb as (w & Hb & _). destruct (C0 _ _ _ Hb). split; auto.
    - reflexivity. - apply Nat.le_refl. - constructor.
    - intros ins vals' w' Hb. apply HB in Hb. destruct Hb as (w & Hb & ->). exists vals', [], w, (con_fun t (getv vals' x)). rewrite app_nil_r. auto.
    - intros ins vals w outs w2 Hb [-> ->]. exists []. rewrite app_nil_r. split; auto. apply HB. eauto.
  Qed.
  Lemma t_id b x : Inv b -> rng b x -> trans b b [x] (fun vals outs w => outs = [getv vals x] /\ w = true).
  Proof.
    intros HI Hx. split; auto.
    - intros ins vals' w' Hb. exists vals', [], w', true. rewrite app_nil_r, andb_true_r. auto.
    - intros ins vals w outs w2 Hb [-> ->]. exists []. rewrite app_nil_r, andb_true_r. auto.
  Qed.
  Definition sel {A} (k : bool) (l : list A) : list A := if k then l else [].
  Lemma sel_map {A B} (f : A -> B) k l : map f (sel k l) = sel k (map f l). Proof. destruct k; auto. Qed.
  (* one transition after another; k: keep the results of the first *)
  Lemma t_comp (k : bool) b b1 b2 rs1 rs2 (T1 T2 T : list F -> list F -> bool -> Prop) : Inv b -> trans b b1 rs1 T1 -> trans b1 b2 rs2 T2 ->
    (forall vals new o1 w1 o2 w2, GV b vals -> T1 vals o1 w1 -> map (getv (vals ++ new)) rs1 = o1 -> T2 (vals ++ new) o2 w2 -> T vals (sel k o1 ++ o2) (w1 && w2)) ->
    (forall vals outs w, GV b vals -> T vals outs w -> exists o1 w1, T1 vals o1 w1 /\ forall new, map (getv (vals ++ new)) rs1 = o1 -> exists o2 w2, T2 (vals ++ new) o2 w2 /\ outs = sel k o1 ++ o2 /\ w = w1 && w2) ->
    trans b b2 (sel k rs1 ++ rs2) T.
  Proof.
    intros [S0 C0] [a1 a2 a3 a4 a5 a6] [c1 c2 c3 c4 c5 c6] Hf Hb. split; auto; try congruence; try lia.
    - apply Forall_app. split; auto. destruct k; [|constructor]. eapply Forall_impl; [|exact a4]. unfold rng. cbn. intros; lia.
    - intros ins vals' w' H. destruct (c5 _ _ _ H) as (v1 & n2 & w & w2 & H1 & -> & H2 & ->). destruct (a5 _ _ _ H1) as (v0 & n1 & w0 & w1 & H3 & -> & H4 & ->).
      destruct (C0 _ _ _ H3) as [Hl Hc]. exists v0, (n1 ++ n2), w0, (w1 && w2). rewrite app_assoc. split; auto. split; auto. rewrite andb_assoc. split; auto.
      rewrite map_app, sel_map. rewrite (map_getv_app (v0 ++ n1) n2 rs1). { eapply Hf; eauto. }
      eapply Forall_impl; [|exact a4]. unfold rng. intros x Hx. destruct a1 as [_ a1]. destruct (a1 _ _ _ H1) as [Hl1 _]. lia.
    - intros ins vals w outs w2 H1 H2. destruct (C0 _ _ _ H1) as [Hl Hc]. destruct (Hb vals outs w2) as (o1 & w1 & H3 & H4); auto. { split; auto. }
      destruct (a6 _ _ _ _ _ H1 H3) as (n1 & H5 & H6). destruct (H4 n1 H6) as (o2 & w3 & H7 & -> & ->). destruct (c6 _ _ _ _ _ H5 H7) as (n2 & H8 & H9).
      exists (n1 ++ n2). rewrite app_assoc. rewrite andb_assoc. split; auto. rewrite map_app, sel_map, H9. rewrite (map_getv_app (vals ++ n1) n2 rs1), H6; auto.
      eapply Forall_impl; [|exact a4]. unfold rng. intros x Hx. destruct a1 as [_ a1]. destruct (a1 _ _ _ H5) as [Hl1 _]. lia.
  Qed.

  (* ------------------------------------------------------------ primitive operations *)
  Definition ival (vals : list F) (a : Arg F) : F := match a with AV x => getv vals x | AK c => c end.
  Definition arg_ok (b : Bd) (a : Arg F) : Prop := match a with AV x => rng b x | AK _ => True end.
  Lemma ival_app b vals new a : GV b vals -> arg_ok b a -> ival (vals ++ new) a = ival vals a.
  Proof. intros [Hl _] Ha. destruct a; auto. cbn in *. unfold rng in Ha. apply getv_app_l. lia. Qed.
  Lemma t_conv b a b' x : Inv b -> arg_ok b a -> convert b a = (b', x) -> trans b b' [x] (fun vals outs w => outs = [ival vals a] /\ w = true).
  Proof. intros HI Ha Hc. destruct a as [y|c]. injection Hc as <- <-. apply t_id; auto. exact (t_const b c b' x HI Hc). Qed.
  Lemma const_of_ok b vals a c : GV b vals -> const_of b a = Some c -> ival vals a = c.
  Proof. intros [_ H] Hc. destruct a; cbn in *; [auto|congruence]. Qed.
  Lemma rng_1 b x : Forall (rng b) [x] -> rng b x. Proof. intros H; inversion H; auto. Qed.
  Lemma arg_ok_le b b' a : next b <= next b' -> arg_ok b a -> arg_ok b' a.
  Proof. destruct a; cbn; auto. unfold rng. lia. Qed.
  Lemma t_bin mk (R : F -> F -> list F -> Prop) n b x y b1 xi b2 yi b3 rs : Inv b -> arg_ok b x -> arg_ok b y ->
    (forall p q, s_call F (mk p q) = None /\ s_inputs F (mk p q) = [p; q] /\ s_nout F (mk p q) = n) ->
    (forall p q g outs, s_sem F E (mk p q) g outs <-> R (g p) (g q) outs) ->
    convert b x = (b1, xi) -> convert b1 y = (b2, yi) -> push b2 (mk xi yi) n = (b3, rs) ->
    trans b b3 rs (fun vals outs w => R (ival vals x) (ival vals y) outs /\ w = true).
  Proof.
    intros HI Hx Hy Hm HR E1 E2 E3. pose proof (t_conv b x b1 xi HI Hx E1) as A1. pose proof (arg_ok_le _ _ _ (t_le _ _ _ _ A1) Hy) as Hy1.
    pose proof (t_conv b1 y b2 yi (t_inv _ _ _ _ A1) Hy1 E2) as A2. pose proof (rng_1 _ _ (t_rs _ _ _ _ A1)) as R1. pose proof (rng_1 _ _ (t_rs _ _ _ _ A2)) as R2.
    destruct (Hm xi yi) as (M1 & M2 & M3).
    assert (R1' : rng b2 xi) by (pose proof (t_le _ _ _ _ A2); unfold rng in *; lia).
    assert (A3 : trans b2 b3 rs (isem (mk xi yi))). { apply (t_push b2 _ n); auto. apply (t_inv _ _ _ _ A2). rewrite M2. constructor; auto. }
    assert (A4 : trans b1 b3 rs (fun vals outs w => R (getv vals xi) (ival vals y) outs /\ w = true)).
    { apply (t_comp false _ _ _ _ _ _ _ _ (t_inv _ _ _ _ A1) A2 A3).
      - intros vals new o1 w1 o2 w2 G [-> ->] Hn [H1 ->]. cbn [sel app andb]. split; auto. apply HR in H1. cbn [map] in Hn. injection Hn as Hn.
        rewrite Hn in H1. rewrite getv_app_l in H1; auto. destruct G. unfold rng in R1. lia.
      - intros vals outs w G [H1 ->]. eexists _, true. split; [split; reflexivity|]. intros new Hn. cbn [map] in Hn. injection Hn as Hn.
        exists outs, true. cbn [sel app andb]. split; auto. split; auto. apply HR. rewrite Hn. rewrite getv_app_l; auto. destruct G. unfold rng in R1. lia. }
    apply (t_comp false _ _ _ _ _ _ _ _ HI A1 A4).
    - intros vals new o1 w1 o2 w2 G [-> ->] Hn [H1 ->]. cbn [sel app andb]. split; auto. cbn [map] in Hn. injection Hn as Hn. rewrite Hn in H1. rewrite (ival_app b) in H1; auto.
    - intros vals outs w G [H1 ->]. eexists _, true. split; [split; reflexivity|]. intros new Hn. cbn [map] in Hn. injection Hn as Hn.
      exists outs, true. cbn [sel app andb]. split; auto. split; auto. rewrite Hn. rewrite (ival_app b); auto.
  Qed.
  Lemma t_un mk (R : F -> list F -> Prop) n b x b1 xi b2 rs : Inv b -> arg_ok b x ->
    (forall p, s_call F (mk p) = None /\ s_inputs F (mk p) = [p] /\ s_nout F (mk p) = n) ->
    (forall p g outs, s_sem F E (mk p) g outs <-> R (g p) outs) ->
    convert b x = (b1, xi) -> push b1 (mk xi) n = (b2, rs) ->
    trans b b2 rs (fun vals outs w => R (ival vals x) outs /\ w = true).
  Proof.
    intros HI Hx Hm HR E1 E2. pose proof (t_conv b x b1 xi HI Hx E1) as A1. pose proof (rng_1 _ _ (t_rs _ _ _ _ A1)) as R1. destruct (Hm xi) as (M1 & M2 & M3).
    assert (A2 : trans b1 b2 rs (isem (mk xi))). { apply (t_push b1 _ n); auto. apply (t_inv _ _ _ _ A1). rewrite M2. constructor; auto. }
    apply (t_comp false _ _ _ _ _ _ _ _ HI A1 A2).
    - intros vals new o1 w1 o2 w2 G [-> ->] Hn [H1 ->]. cbn [sel app andb]. split; auto. cbn [map] in Hn. injection Hn as Hn. apply HR in H1. rewrite Hn in H1. auto.
    - intros vals outs w G [H1 ->]. eexists _, true. split; [split; reflexivity|]. intros new Hn. cbn [map] in Hn. injection Hn as Hn.
      exists outs, true. cbn [sel app andb]. split; auto. split; auto. apply HR. rewrite Hn. auto.
  Qed.
  Lemma t_consts l : forall b acc, Inv b -> let r := fold_left (fun st c => let (b, x) := convert (fst st) (AK c) in (b, snd st ++ [x])) l (b, acc) in
    exists rs, snd r = acc ++ rs /\ trans b (fst r) rs (fun _ outs w => outs = l /\ w = true).
  Proof.
    induction l as [|c l IH]; intros b acc HI; cbn [fold_left].
    - exists []. cbn [fst snd]. split; [rewrite app_nil_r; auto|]. split; auto.
      + intros ins vals' w' Hb. exists vals', [], w', true. rewrite app_nil_r, andb_true_r. auto.
      + intros ins vals w outs w2 Hb [-> ->]. exists []. rewrite app_nil_r, andb_true_r. auto.
    - cbn [fst snd]. destruct (convert b (AK c)) as [b1 x] eqn:Ec. pose proof (t_const b c b1 x HI Ec) as A1.
      destruct (IH b1 (acc ++ [x]) (t_inv _ _ _ _ A1)) as (rs & H1 & A2). cbn zeta in *. exists (x :: rs). split; [rewrite H1, <- app_assoc; auto|].
      apply (t_comp true _ _ _ [x] rs _ _ _ HI A1 A2).
      + intros vals new o1 w1 o2 w2 G [-> ->] Hn [-> ->]. auto.
      + intros vals outs w G [-> ->]. exists [c], true. split; auto. intros new _. exists l, true. auto.
  Qed.
  Lemma t_assert b t a b' : Inv b -> arg_ok b a -> assert_is b t a = Some b' -> trans b b' [] (fun vals outs w => outs = [] /\ w = con_fun t (ival vals a)).
  Proof.
    intros HI Ha H. unfold assert_is in H. match type of H with (if ?x then _ else _) = _ => destruct x end; [|discriminate]. destruct (convert b a) as [b1 x] eqn:Ec. injection H as <-.
    pose proof (t_conv b a b1 x HI Ha Ec) as A1. pose proof (t_con b1 t x (t_inv _ _ _ _ A1) (rng_1 _ _ (t_rs _ _ _ _ A1))) as A2.
    apply (t_comp false _ _ _ _ [] _ _ _ HI A1 A2).
    - intros vals new o1 w1 o2 w2 G [-> ->] Hn [-> ->]. cbn [map] in Hn. injection Hn as Hn. rewrite Hn. auto.
    - intros vals outs w G [-> ->]. eexists _, true. split; [split; reflexivity|]. intros new Hn. cbn [map] in Hn. injection Hn as Hn. eexists _, _. split; [split; reflexivity|]. rewrite Hn. auto.
  Qed.
  Lemma assert_true (b : Bd) t (c : F) b' : assert_is b t (AK c) = Some b' -> con_fun t c = true.
  Proof.
    unfold assert_is. cbn [const_of]. match goal with |- (if ?x then _ else _) = _ -> _ => destruct x eqn:Hm end; [|discriminate]. intros _. destruct t; cbn; auto.
    unfold boolean. destruct (is0 F c); cbn in *; auto. rewrite negb_involutive in Hm. auto.
  Qed.

  Definition op_args {A} (o : Op A) : list A :=
    match o with
    | OBin _ x y | OGt x y | OGeq x y | OAssertEq x y | OAssertDiff x y | OUAdd x y | OUMul x y => [x; y]
    | ONeg x | OIsZero x | OToBin x _ | OAssert _ x | OConst x | OIdent x | OInverse x => [x]
    | ORandom => [] | OHint _ l _ | OFromBin l => l
    end.
  Definition idv (vals : list F) (a : Arg F) : option F := Some (ival vals a).
  Definition opsem (o : Op (Arg F)) (vals outs : list F) (w : bool) : Prop := exists o', op_map (idv vals) o = Some o' /\ api_sem E o' outs w.
  Definition binR (o : BinOp) (x y : F) (outs : list F) : Prop := exists v, bin_fun o x y = Some v /\ outs = [v].
  Lemma opsem_bin o x y vals outs w : opsem (OBin o x y) vals outs w <-> binR o (ival vals x) (ival vals y) outs /\ w = true.
  Proof.
    unfold opsem, binR. cbn [op_map idv obind]. split.
    - intros (o' & H & Ho). injection H as <-. cbn [api_sem api_fun] in Ho. destruct (bin_fun o (ival vals x) (ival vals y)) as [v0|]; cbn [obind] in Ho; [|discriminate]. injection Ho as <- <-. eauto.
    - intros [(v0 & H & ->) ->]. eexists. split; [reflexivity|]. cbn [api_sem api_fun]. rewrite H. reflexivity.
  Qed.
  Lemma det_R (e : option F) outs : (let* v := e in Some [v]) = Some outs <-> exists v, e = Some v /\ outs = [v].
  Proof. destruct e as [v0|]; cbn [obind]; split. intros H; injection H as <-; eauto. intros (v1 & H & ->). congruence. discriminate. intros (v1 & H & _). discriminate. Qed.
  Lemma bin_insn_sem o p q g outs : s_sem F E (bin_insn o p q) g outs <-> binR o (g p) (g q) outs.
  Proof.
    unfold binR. destruct o; unfold bin_insn, lin2.
    - cbn [s_sem s_det]. rewrite lc_eval_sum. cbn [lc_const lc_terms map fst snd fsum fold_right bin_fun]. split.
      + intros H. injection H as <-. eexists. split; [reflexivity|]. f_equal. ring.
      + intros (v0 & H & ->). injection H as <-. do 2 f_equal. ring.
    - cbn [s_sem s_det]. rewrite lc_eval_sum. cbn [lc_const lc_terms map fst snd fsum fold_right bin_fun]. split.
      + intros H. injection H as <-. eexists. split; [reflexivity|]. f_equal. ring.
      + intros (v0 & H & ->). injection H as <-. do 2 f_equal. ring.
    - cbn [s_sem s_det]. rewrite mul_eval_prod. cbn [fold_right bin_fun]. split.
      + intros H. injection H as <-. eexists. split; [reflexivity|]. f_equal. ring.
      + intros (v0 & H & ->). injection H as <-. do 2 f_equal. ring.
    - cbn [s_sem s_det]. rewrite div_eval_fun. apply det_R.
    - cbn [s_sem s_det]. rewrite bool_eval_fun. apply det_R.
    - cbn [s_sem s_det bin_fun]. apply det_R.
  Qed.
  Lemma t_const1 b c b' rs : Inv b -> const1 b c = Some (b', rs) -> trans b b' rs (fun _ outs w => outs = [c] /\ w = true).
  Proof. intros HI H. unfold const1 in H. destruct (convert b (AK c)) as [b1 x] eqn:Ec. injection H as <- <-. apply t_const; auto. Qed.
  Lemma t_bin_const b o x y b' rs : Inv b -> bin_const b o x y = Some (b', rs) -> trans b b' rs (fun _ outs w => binR o x y outs /\ w = true).
  Proof.
    intros HI H.
    assert (HC : forall b1 v b' rs, Inv b1 -> bin_fun o x y = Some v -> const1 b1 v = Some (b', rs) -> trans b1 b' rs (fun _ outs w => binR o x y outs /\ w = true)).
    { intros b1 v0 b2 rs2 HI1 Hv Hc. eapply t_ext; [exact HI1| |apply t_const1; eauto]. intros vals outs w _. unfold binR. rewrite Hv. split; [intros [-> ->]; eauto|]. intros [(v1 & H1 & ->) ->]. injection H1 as <-. auto. }
    destruct o; cbn [bin_const] in H.
    - eapply HC; eauto. reflexivity.
    - eapply HC; eauto. reflexivity.
    - eapply HC; eauto. reflexivity.
    - destruct (is0 F y) eqn:Ey.
      + destruct (checked || negb (is0 F x)) eqn:Ec; [discriminate|]. apply orb_false_iff in Ec. destruct Ec as [-> Ex]. apply negb_false_iff in Ex. eapply HC; eauto. cbn [bin_fun]. rewrite Ey, Ex. reflexivity.
      + eapply HC; eauto. cbn [bin_fun]. rewrite Ey. reflexivity.
    - destruct (assert_is b TBool (AK x)) as [b1|] eqn:E1; cbn [obind] in H; [|discriminate]. destruct (assert_is b1 TBool (AK y)) as [b2|] eqn:E2; cbn [obind] in H; [|discriminate].
      pose proof (t_assert b TBool (AK x) b1 HI I E1) as A1. pose proof (t_assert b1 TBool (AK y) b2 (t_inv _ _ _ _ A1) I E2) as A2.
      pose proof (assert_true _ _ _ _ E1) as T1. pose proof (assert_true _ _ _ _ E2) as T2. cbn [con_fun] in T1, T2.
      assert (Hv : bin_fun (BBool op) x y = Some (fbool (match op with BXor => negb (feqb x y) | BOr => negb (is0 F x) || negb (is0 F y) | BAnd => negb (is0 F x) && negb (is0 F y) end))).
      { cbn [bin_fun]. rewrite T1, T2. cbn [andb]. f_equal. f_equal. destruct op; cbn [bool_fun]; auto. destruct (boolean_ex _ T1) as [u ->], (boolean_ex _ T2) as [u' ->]. rewrite !is0_bf, !negb_involutive.
        destruct u, u'; cbn [xorb bf fbool]; rewrite ?feqb_refl; auto. symmetry. apply negb_true_iff, feqb_false, f1_neq_f0. symmetry. apply negb_true_iff, feqb_false. intros HH. symmetry in HH. revert HH. apply f1_neq_f0. }
      pose proof (HC b2 _ b' rs (t_inv _ _ _ _ A2) Hv H) as A3.
      assert (A4 : trans b1 b' rs (fun _ outs w => binR (BBool op) x y outs /\ w = true)).
      { apply (t_comp false _ _ _ [] rs _ _ _ (t_inv _ _ _ _ A1) A2 A3).
        - intros vals new o1 w1 o2 w2 G [-> ->] _ [Hr ->]. cbn [sel app ival con_fun]. rewrite T2. auto.
        - intros vals outs w G [Hr ->]. eexists _, _. split; [split; reflexivity|]. intros new _. exists outs, true. cbn [sel app ival con_fun]. rewrite T2. auto. }
      apply (t_comp false _ _ _ [] rs _ _ _ HI A1 A4).
      + intros vals new o1 w1 o2 w2 G [-> ->] _ [Hr ->]. cbn [sel app ival con_fun]. rewrite T1. auto.
      + intros vals outs w G [Hr ->]. eexists _, _. split; [split; reflexivity|]. intros new _. exists outs, true. cbn [sel app ival con_fun]. rewrite T1. auto.
    - discriminate.
  Qed.

  Lemma t_nonfold b o x y b' rs : Inv b -> arg_ok b x -> arg_ok b y ->
    (let (b, x) := convert b x in let (b, y) := convert b y in Some (push b (bin_insn o x y) 1)) = Some (b', rs) -> trans b b' rs (opsem (OBin o x y)).
  Proof.
    intros HI Hx Hy H. destruct (convert b x) as [b1 xi] eqn:E1. destruct (convert b1 y) as [b2 yi] eqn:E2. destruct (push b2 (bin_insn o xi yi) 1) as [b3 rs3] eqn:E3.
    injection H as -> ->. eapply t_ext; [exact HI| |eapply (t_bin (bin_insn o) (binR o) 1 b x y b1 xi b2 yi); eauto].
    - intros vals outs w _. rewrite opsem_bin. reflexivity.
    - intros p q. destruct o; cbn; auto.
    - intros p q g outs. apply bin_insn_sem.
  Qed.
  Lemma opsem_un (f : F -> option (list F * bool)) (o : Arg F -> Op (Arg F)) (o1 : F -> Op F) :
    (forall (x : Arg F) (g : Arg F -> option F), op_map g (o x) = let* y := g x in Some (o1 y)) -> (forall x outs b, api_sem E (o1 x) outs b <-> f x = Some (outs, b)) ->
    forall x vals outs w, opsem (o x) vals outs w <-> f (ival vals x) = Some (outs, w).
  Proof.
    intros H1 H2 x vals outs w. unfold opsem. rewrite H1. cbn [idv obind]. split.
    - intros (o' & H & Ho). injection H as <-. apply H2; auto.
    - intros H. eexists. split; [reflexivity|]. apply H2; auto.
  Qed.
  Lemma omap_idv vals l : omap (idv vals) l = Some (map (ival vals) l).
  Proof. induction l as [|a l IH]; cbn [omap map]; auto. rewrite IH. reflexivity. Qed.

  Lemma bd_prim_ok b o b' rs : Eok -> Inv b -> Forall (arg_ok b) (op_args o) -> bd_prim b o = Some (b', rs) -> trans b b' rs (opsem o).
  Proof.
    intros HE HI Ha H. destruct o as [o x y|x|x|x n|t x| |h l n|x|x|x y|x y|x|x y|x y|l|x y|x y]; cbn [bd_prim op_args] in *; try discriminate.
    - inversion Ha as [|? ? Hx Ha']; subst. inversion Ha' as [|? ? Hy _]; subst.
      destruct (const_of b x) as [cx|] eqn:Ex; [|apply t_nonfold; auto]. destruct (const_of b y) as [cy|] eqn:Ey; [|apply t_nonfold; auto].
      destruct (folds o); [|apply t_nonfold; auto]. eapply t_ext; [exact HI| |apply (t_bin_const b o cx cy); auto].
      intros vals outs w G. rewrite opsem_bin, (const_of_ok b vals x cx), (const_of_ok b vals y cy); auto. reflexivity.
    - inversion Ha as [|? ? Hx _]; subst.
      pose proof (opsem_un (fun x => Some ([fopp x], true)) ONeg ONeg (fun _ _ => eq_refl) (fun x outs b => iff_refl _)) as HS.
      destruct (const_of b x) as [cx|] eqn:Ex.
      + eapply t_ext; [exact HI| |apply t_const1; eauto]. intros vals outs w G. rewrite HS, (const_of_ok b vals x cx); auto. split; [intros [-> ->]; auto|intros He; injection He as <- <-; auto].
      + destruct (convert b x) as [b1 xi] eqn:E1. destruct (push b1 _ 1) as [b2 rs2] eqn:E2. injection H as -> ->.
        eapply t_ext; [exact HI| |eapply (t_un (fun p => SLin {| lc_terms := [(p, fopp f1)]; lc_const := f0 |}) (fun x outs => outs = [fopp x])); eauto].
        * intros vals outs w G. rewrite HS. split; [intros [-> ->]; auto|intros He; injection He as <- <-; auto].
        * intros p. cbn. auto.
        * intros p g outs. cbn [s_sem s_det]. rewrite lc_eval_sum. cbn [lc_const lc_terms map fst snd fsum fold_right].
          replace (f0 + (g p * - (1) + 0))%F with (fopp (g p)) by ring. split; [intros He; injection He as <-; auto|intros ->; auto].
    - inversion Ha as [|? ? Hx _]; subst.
      pose proof (opsem_un (fun x => Some ([fbool (is0 F x)], true)) OIsZero OIsZero (fun _ _ => eq_refl) (fun x outs b => iff_refl _)) as HS.
      destruct (const_of b x) as [cx|] eqn:Ex.
      + eapply t_ext; [exact HI| |apply t_const1; eauto]. intros vals outs w G. rewrite HS, (const_of_ok b vals x cx); auto. split; [intros [-> ->]; auto|intros He; injection He as <- <-; auto].
      + destruct (convert b x) as [b1 xi] eqn:E1. destruct (push b1 _ 1) as [b2 rs2] eqn:E2. injection H as -> ->.
        eapply t_ext; [exact HI| |eapply (t_un (fun p => SIsZero p) (fun x outs => outs = [fbool (is0 F x)])); eauto].
        * intros vals outs w G. rewrite HS. split; [intros [-> ->]; auto|intros He; injection He as <- <-; auto].
        * intros p. cbn. auto.
        * intros p g outs. cbn [s_sem s_det]. split; [intros He; injection He as <-; auto|intros ->; auto].
    - inversion Ha as [|? ? Hx _]; subst.
      pose proof (opsem_un (fun x => let* l := to_binary x n in Some (l, true)) (fun x => OToBin x n) (fun x => OToBin x n) (fun _ _ => eq_refl)) as HS.
      specialize (HS ltac:(intros x0 outs w; cbn [api_sem api_fun]; rewrite to_binary_fun; unfold bf; destruct (_ <? _)%Z; reflexivity)).
      destruct (const_of b x) as [cx|] eqn:Ex.
      + destruct (to_binary cx n) as [l|] eqn:El; cbn [obind] in H; [|discriminate]. injection H as H. destruct (t_consts l b [] HI) as (rs' & R1 & R2). cbn zeta in R1, R2.
        match type of R1 with context [fold_left ?f l (b, [])] => set (r := fold_left f l (b, [])) in R1, R2; assert (Hr : r = (b', rs)) by exact H; rewrite Hr in R1, R2 end.
        cbn [fst snd app] in *. subst rs'.
        eapply t_ext; [exact HI| |exact R2]. intros vals outs w G. rewrite HS, (const_of_ok b vals x cx), El; auto. cbn [obind]. split; [intros [-> ->]; auto|intros He; injection He as <- <-; auto].
      + destruct (convert b x) as [b1 xi] eqn:E1. destruct (push b1 _ n) as [b2 rs2] eqn:E2. injection H as -> ->.
        eapply t_ext; [exact HI| |eapply (t_un (fun p => SToBin p n) (fun x outs => to_binary x n = Some outs)); eauto].
        * intros vals outs w G. rewrite HS. destruct (to_binary (ival vals x) n); cbn [obind]; split; try (intros [? ?]; discriminate); try discriminate; [intros [He ->]; congruence|intros He; injection He as <- <-; auto].
        * intros p. cbn. auto.
        * intros p g outs. reflexivity.
    - inversion Ha as [|? ? Hx _]; subst. destruct (assert_is b t x) as [b1|] eqn:E1; cbn [obind] in H; [|discriminate]. injection H as <- <-.
      eapply t_ext; [exact HI| |apply t_assert; eauto].
      pose proof (opsem_un (fun x => Some ([], con_fun t x)) (OAssert t) (OAssert t) (fun _ _ => eq_refl) (fun x outs b => iff_refl _)) as HS.
      intros vals outs w G. rewrite HS. split; [intros [-> ->]; auto|intros He; injection He as <- <-; auto].
    - assert (Hp : push b (SConst CRandom) 1 = (b', rs)) by (injection H as <- <-; reflexivity). eapply t_ext; [exact HI| |apply (t_push b (SConst CRandom) 1 b' rs HI eq_refl (Forall_nil _) eq_refl Hp)].
      intros vals outs w G. unfold isem, opsem. cbn [s_sem op_map]. unfold const_sem. cbn [coef_sem]. split.
      + intros [(r & -> & Hr) ->]. exists ORandom. split; auto. exists r. auto.
      + intros (o' & He & Ho). injection He as <-. destruct Ho as (r & Hr & -> & ->). eauto.
    - destruct (omap _ l) as [l'|] eqn:El; cbn [obind] in H; [|discriminate]. assert (Hp : push b (SHint h l' n) n = (b', rs)) by (injection H as <- <-; reflexivity). assert (Hl : l = map AV l').
      { apply omap_some in El. clear -El. induction El as [|a x l l' Hax _ IH]; cbn [map]; auto. destruct a; [injection Hax as ->|discriminate]. congruence. }
      subst l. eapply t_ext; [exact HI| |apply (t_push b (SHint h l' n) n b' rs HI eq_refl); auto].
      + intros vals outs w G. unfold isem, opsem. cbn [s_sem op_map]. rewrite omap_idv. cbn [obind]. rewrite map_map. cbn [ival]. split.
        * intros [Hh ->]. eexists. split; [reflexivity|]. split; auto.
        * intros (o' & He & Ho). injection He as <-. exact Ho.
      + cbn [s_inputs]. rewrite Forall_map in Ha. exact Ha.
    - inversion Ha as [|? ? Hx _]; subst. destruct (convert b x) as [b1 xi] eqn:E1. injection H as <- <-. eapply t_ext; [exact HI| |apply t_conv; eauto].
      pose proof (opsem_un (fun x => Some ([x], true)) OConst OConst (fun _ _ => eq_refl) (fun x outs b => iff_refl _)) as HS.
      intros vals outs w G. rewrite HS. split; [intros [-> ->]; auto|intros He; injection He as <- <-; auto].
    - inversion Ha as [|? ? Hx _]; subst. destruct (convert b x) as [b1 xi] eqn:E1. destruct (push b1 _ 1) as [b2 rs2] eqn:E2. injection H as -> ->.
      pose proof (opsem_un (fun x => Some ([x], true)) OIdent OIdent (fun _ _ => eq_refl) (fun x outs b => iff_refl _)) as HS.
      eapply t_ext; [exact HI| |eapply (t_un (fun p => SHint (builtin_id HIdentity) [p] 1) (fun x outs => outs = [x])); eauto].
      + intros vals outs w G. rewrite HS. split; [intros [-> ->]; auto|intros He; injection He as <- <-; auto].
      + intros p. cbn [s_call s_inputs s_nout]. auto.
  Qed.
End Trans.
