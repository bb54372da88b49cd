(* Handles, statements, functions: the recorded circuit against ApiSpec.v *)
From Verif Require Import Prelude Field Expr Hints Ir IrInst IrFacts Sim ApiSpec Frontend ApiFacts FrontFacts.
From Coq Require Import Lia.
Open Scope nat_scope.

Section OpMap.
  Lemma op_map_comp {A B C} (f : A -> option B) (g : B -> option C) o o1 : op_map f o = Some o1 -> op_map g o1 = op_map (fun a => let* b := f a in g b) o.
  Proof.
    intros H. destruct o; cbn [op_map] in *;
    try (repeat match type of H with context [obind (f ?x) _] => destruct (f x); cbn [obind] in H; try discriminate end; injection H as <-; reflexivity).
    - destruct (omap f l) as [l'|] eqn:El; cbn [obind] in H; [|discriminate]. injection H as <-. cbn [op_map]. f_equal.
      + revert l' El. induction l as [|a l IH]; cbn [omap]; intros l' El. injection El as <-; auto.
        destruct (f a) as [b|]; cbn [obind] in *; [|discriminate]. destruct (omap f l) as [l1|]; cbn [obind] in *; [|discriminate]. injection El as <-. cbn [omap]. destruct (g b); cbn [obind]; auto. rewrite (IH l1); auto.
    - destruct (omap f l) as [l'|] eqn:El; cbn [obind] in H; [|discriminate]. injection H as <-. cbn [op_map]. f_equal.
      + revert l' El. induction l as [|a l IH]; cbn [omap]; intros l' El. injection El as <-; auto.
        destruct (f a) as [b|]; cbn [obind] in *; [|discriminate]. destruct (omap f l) as [l1|]; cbn [obind] in *; [|discriminate]. injection El as <-. cbn [omap]. destruct (g b); cbn [obind]; auto. rewrite (IH l1); auto.
  Qed.
  Lemma op_map_ext {A B} (f g : A -> option B) o : (forall a, In a (op_args o) -> f a = g a) -> op_map f o = op_map g o.
  Proof.
    intros H. destruct o; cbn [op_map op_args] in *; auto; try (rewrite !H by (cbn; tauto); reflexivity); try (rewrite (omap_ext f g) by auto; reflexivity);
    repeat match goal with |- context [f ?x] => rewrite (H x) by (cbn; tauto) end; auto.
  Qed.
  Lemma op_map_args {A B} (f : A -> option B) o o1 : op_map f o = Some o1 -> Forall2 (fun a b => f a = Some b) (op_args o) (op_args o1).
  Proof.
    intros H. destruct o; cbn [op_map op_args] in *;
    try (repeat match type of H with context [obind (f ?x) _] => let E := fresh in destruct (f x) eqn:E; cbn [obind] in H; try discriminate end; injection H as <-; cbn [op_args]; auto; fail).
    - destruct (omap f l) as [l'|] eqn:El; cbn [obind] in H; [|discriminate]. injection H as <-. cbn [op_args]. apply omap_some; auto.
    - destruct (omap f l) as [l'|] eqn:El; cbn [obind] in H; [|discriminate]. injection H as <-. cbn [op_args]. apply omap_some; auto.
  Qed.
End OpMap.

Section Handles.
  Context {F : Fld}.
  Notation SI := (SrcI F).
  Variable fsize : nat.
  Variable E : Env F.
  Variable CS : list (nat * Circuit SI).
  Hypothesis HE : Eok E.
  Hypothesis Hsize : size_ok (F := F) fsize.
  Local Notation Bd := (@Bd F).
  Local Notation Inv := (Inv E CS).
  Local Notation bexec := (bexec E CS).
  Local Notation trans := (trans E CS).

  Definition hs_ok (b : Bd) (hs : list nat) : Prop := Forall (rng b) hs.
  Definition Hrun (b : Bd) (hs : list nat) (ins hv : list F) (w : bool) : Prop := exists vals, bexec b ins vals w /\ hv = map (getv vals) hs.
  Record hseq (b : Bd) (hs : list nat) (b' : Bd) (hs' : list nat) (R : list F -> list F -> bool -> Prop) : Prop := {
    h_inv : Inv b'; h_ok : hs_ok b' hs'; h_n : bd_n b' = bd_n b; h_le : next b <= next b';
    h_iff : forall ins hv' w', Hrun b' hs' ins hv' w' <-> exists hv w w2, Hrun b hs ins hv w /\ R hv hv' w2 /\ w' = w && w2 }.
  Lemma Hrun_len b hs ins hv w : Hrun b hs ins hv w -> length hv = length hs.
  Proof. intros (vals & _ & ->). apply map_length. Qed.
  Lemma h_comp b hs b1 hs1 b2 hs2 (R1 R2 R : list F -> list F -> bool -> Prop) : hseq b hs b1 hs1 R1 -> hseq b1 hs1 b2 hs2 R2 ->
    (forall ins hv w, Hrun b hs ins hv w -> forall hv2 w2, R hv hv2 w2 <-> exists hv1 wa wb, R1 hv hv1 wa /\ R2 hv1 hv2 wb /\ w2 = wa && wb) -> hseq b hs b2 hs2 R.
  Proof.
    intros [a1 a2 a3 a4 a5] [c1 c2 c3 c4 c5] HR. split; auto; try congruence; try lia. intros ins hv' w'. rewrite c5. split.
    - intros (hv1 & w1 & w2 & H1 & H2 & ->). apply a5 in H1. destruct H1 as (hv & w & w3 & H3 & H4 & ->). exists hv, w, (w3 && w2). split; auto. rewrite andb_assoc. split; auto. apply (HR _ _ _ H3). eauto 6.
    - intros (hv & w & w2 & H1 & H2 & ->). apply (HR _ _ _ H1) in H2. destruct H2 as (hv1 & wa & wb & H2 & H3 & ->). exists hv1, (w && wa), wb. rewrite andb_assoc. split; auto. apply a5. eauto 6.
  Qed.
  Lemma h_ext b hs b' hs' (R R' : list F -> list F -> bool -> Prop) : (forall hv hv' w, length hv = length hs -> (R hv hv' w <-> R' hv hv' w)) -> hseq b hs b' hs' R -> hseq b hs b' hs' R'.
  Proof.
    intros HR [a1 a2 a3 a4 a5]. split; auto. intros ins hv' w'. rewrite a5. split; intros (hv & w & w2 & H1 & H2 & ->); exists hv, w, w2; (split; [auto|split; [apply HR; auto; eapply Hrun_len; eauto|auto]]).
  Qed.
  Lemma h_nil b hs : Inv b -> hs_ok b hs -> hseq b hs b hs (fun hv hv' w => hv' = hv /\ w = true).
  Proof.
    intros HI Hh. split; auto. intros ins hv' w'. split. intros H. exists hv', w', true. rewrite andb_true_r. auto.
    intros (hv & w & w2 & H & [-> ->] & ->). rewrite andb_true_r. auto.
  Qed.
  Lemma h_trans b hs b' rs T (T' : list F -> list F -> bool -> Prop) : Inv b -> hs_ok b hs -> trans b b' rs T ->
    (forall vals outs w, GV b vals -> (T vals outs w <-> T' (map (getv vals) hs) outs w)) ->
    hseq b hs b' (hs ++ rs) (fun hv hv' w => exists outs, T' hv outs w /\ hv' = hv ++ outs).
  Proof.
    intros HI Hh [a1 a2 a3 a4 a5 a6] HT. assert (C0 := proj2 HI).
    assert (Hm : forall vals new, GV b vals -> map (getv (vals ++ new)) hs = map (getv vals) hs).
    { intros vals new [Hl _]. apply map_getv_app. eapply Forall_impl; [|exact Hh]. unfold rng. intros; lia. }
    split; auto.
    - apply Forall_app. split; auto. eapply Forall_impl; [|exact Hh]. unfold rng. intros; lia.
    - intros ins hv' w'. split.
      + intros (vals' & Hb & ->). destruct (a5 _ _ _ Hb) as (vals & new & w & w2 & H1 & -> & H2 & ->). pose proof (C0 _ _ _ H1) as G.
        exists (map (getv vals) hs), w, w2. split; [exists vals; auto|]. split; auto. eexists. split; [apply HT; eauto|]. rewrite map_app, Hm; auto.
      + intros (hv & w & w2 & (vals & H1 & ->) & (outs & H2 & ->) & ->). pose proof (C0 _ _ _ H1) as G. apply HT in H2; auto. destruct (a6 _ _ _ _ _ H1 H2) as (new & H3 & H4).
        exists (vals ++ new). split; auto. rewrite map_app, Hm, H4; auto.
  Qed.
  Lemma arg_id_val vals hs a : arg_val (map (getv vals) hs) a = let* a1 := arg_id hs a in idv (F := F) vals a1.
  Proof. destruct a as [h|c]; cbn [arg_val arg_id obind]; [|reflexivity]. rewrite nth_error_map. destruct (nth_error hs h); reflexivity. Qed.
  Lemma ids_ok b hs o o1 : hs_ok b hs -> op_map (arg_id hs) o = Some o1 -> Forall (arg_ok b) (op_args o1).
  Proof.
    intros Hh Ho. apply op_map_args in Ho. induction Ho as [|a a1 l l1 Ha _ IH]; constructor; auto. destruct a as [h|c]; cbn in Ha.
    - destruct (nth_error hs h) as [x|] eqn:Hx; [|discriminate]. injection Ha as <-. cbn. unfold hs_ok in Hh. rewrite Forall_forall in Hh. apply Hh. eapply nth_error_In; eauto.
    - injection Ha as <-. exact I.
  Qed.
  Definition stepR (o : Op (Arg F)) (hv hv' : list F) (w : bool) : Prop := exists outs, (exists o', op_map (arg_val hv) o = Some o' /\ api_sem E o' outs w) /\ hv' = hv ++ outs.
  Lemma prim_ok b hs o o1 b' rs : Inv b -> hs_ok b hs -> op_map (arg_id hs) o = Some o1 -> bd_prim b o1 = Some (b', rs) -> hseq b hs b' (hs ++ rs) (stepR o).
  Proof.
    intros HI Hh Ho Hp. eapply (h_trans b hs b' rs (opsem E o1) (fun hv outs w => exists o', op_map (arg_val hv) o = Some o' /\ api_sem E o' outs w)); auto.
    - apply bd_prim_ok; auto. eapply ids_ok; eauto.
    - intros vals outs w _. unfold opsem. rewrite (op_map_comp _ _ _ _ Ho). rewrite (op_map_ext (fun b0 => let* b1 := arg_id hs b0 in idv vals b1) (arg_val (map (getv vals) hs))). reflexivity.
      intros a _. symmetry. apply arg_id_val.
  Qed.
  Lemma prims_ok os : forall b hs b' hs', Inv b -> hs_ok b hs -> bd_prims b hs os = Some (b', hs') -> hseq b hs b' hs' (prims E os) /\ exists t, hs' = hs ++ t.
  Proof.
    induction os as [|o os IH]; intros b hs b' hs' HI Hh H; cbn [bd_prims] in H.
    - injection H as <- <-. split; [apply h_nil; auto|exists []; rewrite app_nil_r; auto].
    - destruct (op_map (arg_id hs) o) as [o1|] eqn:Ho; cbn [obind] in H; [|discriminate]. destruct (bd_prim b o1) as [[b1 rs]|] eqn:Hp; cbn [obind fst snd] in H; [|discriminate].
      pose proof (prim_ok b hs o o1 b1 rs HI Hh Ho Hp) as A1. destruct (IH b1 (hs ++ rs) b' hs' (h_inv _ _ _ _ _ A1) (h_ok _ _ _ _ _ A1) H) as [A2 [t Ht]].
      split; [|exists (rs ++ t); rewrite app_assoc; auto]. apply (h_comp _ _ _ _ _ _ _ _ _ A1 A2). intros ins hv w _ hv2 w2. cbn [prims]. unfold stepR. split.
      + intros (o' & outs & b2 & b3 & H1 & H2 & H3 & ->). exists (hv ++ outs), b2, b3. split; eauto 8.
      + intros (hv1 & wa & wb & (outs & (o' & H1 & H2) & ->) & H3 & ->). exists o', outs, wa, wb. auto.
  Qed.
  Lemma pf_prefix os : forall (hv hv' : list F) b, pf os hv = Some (hv', b) -> exists t, hv' = hv ++ t.
  Proof.
    induction os as [|o os IH]; cbn [pf]; intros hv hv' b H. injection H as <- <-. exists []. rewrite app_nil_r; auto.
    destruct (step1 hv o) as [[outs b1]|]; cbn [obind fst snd] in H; [|discriminate]. destruct (pf os (hv ++ outs)) as [[h2 b2]|] eqn:Ep; cbn [obind fst snd] in H; [|discriminate].
    injection H as <- <-. destruct (IH _ _ _ Ep) as [t ->]. exists (outs ++ t). rewrite app_assoc; auto.
  Qed.
  Lemma app_inj_len {A} (a b c d : list A) : a ++ b = c ++ d -> length a = length c -> a = c /\ b = d.
  Proof. revert c. induction a as [|x a IH]; intros [|y c]; cbn; intros H Hl; try discriminate; auto. injection H as -> H. destruct (IH c H); [lia|]. subst. auto. Qed.
  Lemma op_total {A} (hs : list A) (hv : list F) (f : Arg F -> option (Arg F)) o o1 : length hv = length hs -> (forall h, f (AV h) <> None -> h < length hs) -> op_map f o = Some o1 -> exists o', op_map (arg_val hv) o = Some o'.
  Proof.
    intros Hl Hf Ho. pose proof (op_map_args _ _ _ Ho) as Ha. clear Ho.
    assert (HA : forall a, In a (op_args o) -> exists x, arg_val hv a = Some x).
    { intros a Hin. assert (f a <> None). { clear -Ha Hin. induction Ha as [|a0 b l l' H0 _ IH]; [destruct Hin|]. destruct Hin as [<-|Hin]; [congruence|auto]. }
      destruct a as [h|c]; cbn; eauto. apply nth_error_Some_ex. rewrite Hl. auto. }
    destruct o; cbn [op_map op_args] in *;
    repeat match goal with |- context [arg_val hv ?x] => let z := fresh in let Hz := fresh in destruct (HA x ltac:(cbn; tauto)) as [z Hz]; rewrite Hz; cbn [obind] end; eauto.
    - assert (exists r, omap (arg_val hv) l = Some r) as [r ->]; [|cbn [obind]; eauto]. clear -HA. induction l as [|a l IH]; cbn [omap]; eauto. destruct (HA a (or_introl eq_refl)) as [z ->]. cbn [obind]. destruct IH as [r ->]. intros; apply HA; right; auto. cbn [obind]; eauto.
    - assert (exists r, omap (arg_val hv) l = Some r) as [r ->]; [|cbn [obind]; eauto]. clear -HA. induction l as [|a l IH]; cbn [omap]; eauto. destruct (HA a (or_introl eq_refl)) as [z ->]. cbn [obind]. destruct IH as [r ->]. intros; apply HA; right; auto. cbn [obind]; eauto.
  Qed.
  Lemma pick vals hs' js rs outs : omap (nth_error hs') js = Some rs -> (omap (nth_error (map (getv (F := F) vals) hs')) js = Some outs <-> outs = map (getv vals) rs).
  Proof.
    intros H. assert (G : omap (nth_error (map (getv (F := F) vals) hs')) js = Some (map (getv vals) rs)).
    { apply omap_some in H. apply omap_some. induction H as [|j x js rs Hj _ IH]; cbn [map]; constructor; auto. apply map_nth_error; auto. }
    rewrite G. split; [intros He; injection He as <-; auto|intros ->; auto].
  Qed.
  Lemma op_ok b hs o b' rs : Inv b -> hs_ok b hs -> bd_op fsize b hs o = Some (b', rs) -> hseq b hs b' (hs ++ rs) (stepR o).
  Proof.
    intros HI Hh H. unfold bd_op in H. destruct (derived fsize false (length hs) o) as [d|] eqn:Hd.
    2:{ destruct (op_map (arg_id hs) o) as [o1|] eqn:Ho; cbn [obind] in H; [|discriminate]. eapply prim_ok; eauto. }
    destruct (op_map (arg_id hs) o) as [o1|] eqn:Ho; cbn [obind] in H; [|discriminate]. destruct d as [[os js]|]; cbn [obind fst snd] in H; [|discriminate].
    destruct (bd_prims b hs os) as [[b1 hs1]|] eqn:Hp; cbn [obind fst snd] in H; [|discriminate]. destruct (omap (nth_error hs1) js) as [rs1|] eqn:Hr; cbn [obind] in H; [|discriminate]. injection H as <- <-.
    destruct (derived_det _ _ _ _ _ _ Hd) as [D1 D2]. destruct (prims_ok os b hs b1 hs1 HI Hh Hp) as [[a1 a2 a3 a4 a5] [t Ht]].
    assert (HO : forall hv : list F, length hv = length hs -> exists o', op_map (arg_val hv) o = Some o').
    { intros hv Hl. eapply (op_total hs); eauto. intros h Hn. cbn [arg_id] in Hn. apply nth_error_Some. destruct (nth_error hs h); [discriminate|auto]. }
    assert (Hrs : Forall (rng b1) rs1). { apply omap_some in Hr. clear -Hr a2. induction Hr as [|j x js rs Hj _ IH]; constructor; auto. unfold hs_ok in a2. rewrite Forall_forall in a2. apply a2. eapply nth_error_In; eauto. }
    assert (Hok1 : hs_ok b1 hs). { eapply Forall_impl; [|exact Hh]. unfold rng. intros; lia. }
    split; auto. { apply Forall_app; auto. }
    intros ins hv' w'. split.
    - intros (vals & Hb & ->). destruct (proj1 (a5 ins (map (getv vals) hs1) w')) as (hv & w & w2 & H1 & H2 & ->). { exists vals; auto. }
      pose proof (Hrun_len _ _ _ _ _ H1) as Hl. destruct (HO hv Hl) as [o' Ho']. apply (prims_pf E os D1) in H2.
      pose proof (derived_pf fsize false hv o os js o' Hsize ltac:(rewrite Hl; exact Hd) Ho') as P. unfold pf_is in P. destruct (api_fun o') as [[outs bb]|] eqn:Ea; [|congruence].
      destruct P as (hv2 & P1 & P2). rewrite P1 in H2. injection H2 as -> ->. apply (pick vals hs1 js rs1 outs Hr) in P2.
      exists hv, w, w2. split; auto. split; auto. exists outs. split. { exists o'. split; auto. apply (det_sem E o o' hv); auto. }
      destruct (pf_prefix _ _ _ _ P1) as [t' Ht']. rewrite Ht, map_app in Ht'. apply app_inj_len in Ht'; [|rewrite map_length; auto]. destruct Ht' as [Ht1 _]. rewrite map_app, Ht1, P2. auto.
    - intros (hv & w & w2 & H1 & (outs & (o' & Ho' & Ha) & ->) & ->). apply (det_sem E o o' hv) in Ha; auto. pose proof (Hrun_len _ _ _ _ _ H1) as Hl.
      pose proof (derived_pf fsize false hv o os js o' Hsize ltac:(rewrite Hl; exact Hd) Ho') as P. rewrite Ha in P. destruct P as (hv2 & P1 & P2).
      destruct (proj2 (a5 ins hv2 (w && w2))) as (vals & Hb & ->). { exists hv, w, w2. split; auto. split; auto. apply prims_pf; auto. }
      exists vals. split; auto. destruct (pf_prefix _ _ _ _ P1) as [t' Ht']. rewrite Ht, map_app in Ht'. apply app_inj_len in Ht'; [|rewrite map_length; auto]. destruct Ht' as [Ht1 _].
      apply (pick vals hs1 js rs1 outs Hr) in P2. rewrite map_app, Ht1, P2. auto.
  Qed.
End Handles.

Section Record_.
  Context {F : Fld}.
  Notation SI := (SrcI F).
  Variable fsize : nat.
  Variable fns : nat -> nat -> nat -> Prog F.
  Variable hash : nat -> nat -> N.
  Variable low : N -> nat.
  Hypothesis Hsize : size_ok (F := F) fsize.
  Hypothesis hash_inj : forall ty n ty' n', hash ty n = hash ty' n' -> ty = ty' /\ n = n'.
  Hypothesis no_capture : forall ty cap n, fns ty cap n = fns ty 0 n.
  Local Notation Bd := (@Bd F).
  Local Notation St := (@St F).

  Lemma rep_none {A} n x (c : A) : nth x (repeat None n) None = Some c -> False.
  Proof. revert x. induction n as [|n IH]; intros [|x]; cbn; try discriminate. apply IH. Qed.
  (* a run of one circuit, however it is named *)
  Definition crun (E : Env F) (CS : list (nat * Circuit SI)) (c : Circuit SI) (ins outs : list F) (b : bool) : Prop :=
    exists vals b0, exec SI E CS (instructions c) (f0 :: ins) vals b0 /\ Forall (fun k => inb vals (c_var k)) (constraints c) /\ Forall (inb vals) (outputs c) /\
      outs = map (getv vals) (outputs c) /\ b = b0 && forallb (fun k => c_verify k (getv vals (c_var k))) (constraints c).
  Lemma run_crun E CS id c ins outs b : lookup id CS = Some c -> (run SI E CS id ins outs b <-> crun E CS c ins outs b).
  Proof.
    intros Hc. rewrite run_iff. unfold crun. split.
    - intros (c' & vals & b0 & H1 & H2). assert (c' = c) by congruence. subst. eauto.
    - intros (vals & b0 & H). exists c, vals, b0. auto.
  Qed.
  Definition sub_of (st : St) (CS : list (nat * Circuit SI)) : Prop := forall id c, lookup id (st_subs st) = Some c -> lookup id CS = Some c.
  Record csound (st : St) (c : Circuit SI) (p : Prog F) (n : nat) : Prop := {
    cs_n : num_inputs c = n;
    cs_wf : wf_circuit SI c;
    cs_calls : Forall (call_wf SI (st_subs st)) (instructions c);
    cs_run : forall E CS, Eok E -> sub_of st CS -> forall ins outs b, length ins = n -> (crun E CS c ins outs b <-> prog fns E p ins outs b) }.
  Definition grows (st st' : St) : Prop := (exists t, st_subs st' = st_subs st ++ t) /\ forall k h, lookup k (st_ids st) = Some h -> lookup k (st_ids st') = Some h.
  Record StOk (st : St) : Prop := {
    so_keys : NoDup (keys (st_subs st));
    so_each : forall id c, lookup id (st_subs st) = Some c -> exists ty n, id = low (hash ty n) /\ lookup id (st_ids st) = Some (hash ty n) /\ csound st c (fns ty 0 n) n;
    so_order : forall pre id c post, st_subs st = pre ++ (id, c) :: post -> forall o, In o (calls c) -> In o (keys pre) }.
  Lemma lookup_app {A} k (a b : list (nat * A)) : lookup k (a ++ b) = match lookup k a with Some x => Some x | None => lookup k b end.
  Proof. induction a as [|[k' x] a IH]; cbn [app lookup]; auto. destruct (Nat.eqb k' k); auto. Qed.
  Lemma grows_refl st : grows st st. Proof. split; auto. exists []. rewrite app_nil_r; auto. Qed.
  Lemma grows_trans a b c : grows a b -> grows b c -> grows a c.
  Proof. intros [[t1 H1] H2] [[t2 H3] H4]. split; auto. exists (t1 ++ t2). rewrite H3, H1, app_assoc; auto. Qed.
  Lemma grows_lookup st st' id c : grows st st' -> lookup id (st_subs st) = Some c -> lookup id (st_subs st') = Some c.
  Proof. intros [[t ->] _] H. rewrite lookup_app, H. auto. Qed.
  Lemma sub_of_mono st st' CS : grows st st' -> sub_of st' CS -> sub_of st CS.
  Proof. intros G H id c Hc. apply H. eapply grows_lookup; eauto. Qed.
  Lemma call_wf_mono st st' i : grows st st' -> call_wf SI (st_subs st) i -> call_wf SI (st_subs st') i.
  Proof. intros G H id l n Hi. destruct (H id l n Hi) as (c & Hc & H1). exists c. split; auto. eapply grows_lookup; eauto. Qed.
  Lemma csound_mono st st' c p n : grows st st' -> csound st c p n -> csound st' c p n.
  Proof.
    intros G [h1 h2 h3 h4]. split; auto. eapply Forall_impl; [|exact h3]. intros i Hi. eapply call_wf_mono; eauto. intros E CS HE Hs. apply h4; auto. eapply sub_of_mono; eauto.
  Qed.
  Lemma sub_id_ok st h st' id : StOk st -> sub_id low st h = Some (st', id) -> StOk st' /\ grows st st' /\ id = low h /\ lookup id (st_ids st') = Some h /\ st_subs st' = st_subs st.
  Proof.
    intros HS H. unfold sub_id in H. destruct (lookup (low h) (st_ids st)) as [h'|] eqn:El.
    - destruct (N.eqb_spec h' h) as [->|]; [|discriminate]. injection H as <- <-. split; auto. split; [apply grows_refl|]. auto.
    - injection H as <- <-. set (st' := {| st_subs := _ |}).
      assert (G : grows st st'). { split. exists []. rewrite app_nil_r; auto. intros k h' Hk. cbn [st' st_ids lookup]. destruct (Nat.eqb_spec (low h) k) as [<-|]; auto. congruence. }
      split; [|split; [auto|split; [auto|split; [cbn [st' st_ids lookup]; rewrite Nat.eqb_refl; auto|auto]]]].
      destruct HS as [s1 s2 s3]. split; auto. intros id c Hc. destruct (s2 id c Hc) as (ty & n & H1 & H2 & H3). exists ty, n. split; auto. split. apply G; auto. eapply csound_mono; eauto.
  Qed.

  (* what the construction of a function body guarantees *)
  Definition rec_ok (rec : St -> Prog F -> nat -> option (St * Circuit SI)) : Prop :=
    forall st p n st' c, StOk st -> rec st p n = Some (st', c) -> StOk st' /\ grows st st' /\ csound st' c p n.
  Definition E0 : Env F := {| e_pub := fun _ => f0; e_gate := fun _ _ => f0; e_hint := fun _ _ args outs => outs = args; e_rnd := fun _ => True |}.
  Lemma E0_ok : Eok E0. Proof. intros x outs. unfold hint_sem. cbn. split; [intros [_ H]; auto|intros ->; auto]. Qed.
  Lemma call_fn_ok rec st b ty cap ids st' b' rs : rec_ok rec -> StOk st -> call_fn fns hash low rec st b ty cap ids = Some (st', b', rs) ->
    StOk st' /\ grows st st' /\ forall E CS, Eok E -> sub_of st' CS -> forall hs l, Inv E CS b -> hs_ok b hs -> omap (nth_error hs) l = Some ids ->
      hseq E CS b hs b' (hs ++ rs) (fun hv hv' w => exists outs, (exists ins, omap (nth_error hv) l = Some ins /\ prog fns E (fns ty cap (length l)) ins outs w) /\ hv' = hv ++ outs).
  Proof.
    intros HR HS H. unfold call_fn in H. destruct (sub_id low st (hash ty (length ids))) as [[st1 id]|] eqn:Es; cbn [obind] in H; [|discriminate].
    destruct (sub_id_ok _ _ _ _ HS Es) as (S1 & G1 & Hid & Hl & Hsub).
    match type of H with (let* s := ?e in _) = _ => destruct e as [st2|] eqn:E2; cbn [obind] in H; [|discriminate] end.
    assert (A : StOk st2 /\ grows st1 st2 /\ exists c, lookup id (st_subs st2) = Some c /\ csound st2 c (fns ty 0 (length ids)) (length ids)).
    { destruct (lookup id (st_subs st1)) as [c|] eqn:Ec.
      - injection E2 as <-. split; auto. split; [apply grows_refl|]. exists c. split; auto. destruct (so_each _ S1 id c Ec) as (ty' & n' & H1 & H2 & H3).
        rewrite Hl in H2. injection H2 as H2. apply hash_inj in H2. destruct H2 as [-> ->]. auto.
      - destruct (rec st1 (fns ty cap (length ids)) (length ids)) as [[st3 c]|] eqn:Er; cbn [obind fst snd] in E2; [|discriminate].
        destruct (lookup id (st_subs st3)) eqn:Ec3; [discriminate|]. injection E2 as <-. rewrite no_capture in Er. destruct (HR _ _ _ _ _ S1 Er) as (S3 & G3 & C3).
        set (st4 := {| st_subs := _ |}). assert (G4 : grows st3 st4). { split; auto. exists [(id, c)]. reflexivity. }
        assert (Hk : ~ In id (keys (st_subs st3))). { rewrite lookup_keys. intros [v Hv]. congruence. }
        split.
        + split.
          * cbn [st4 st_subs]. unfold keys. rewrite map_app. apply NoDup_app_iff. split; [apply S3|]. split; [constructor; auto; constructor|]. intros x Hx [<-|[]]. apply Hk; auto.
          * intros id0 c0 Hc0. cbn [st4 st_subs] in Hc0. rewrite lookup_app in Hc0. destruct (lookup id0 (st_subs st3)) as [c1|] eqn:E1.
            -- injection Hc0 as <-. destruct (so_each _ S3 id0 c1 E1) as (ty' & n' & H1 & H2 & H3). exists ty', n'. split; auto. split; auto. eapply csound_mono; eauto.
            -- cbn [lookup] in Hc0. destruct (Nat.eqb_spec id id0) as [<-|]; [|discriminate]. injection Hc0 as <-. exists ty, (length ids). split; auto. split. { cbn [st4 st_ids]. apply G3; auto. } eapply csound_mono; eauto.
          * intros pre id0 c0 post Hp o Ho. cbn [st4 st_subs] in Hp. destruct (exists_last (l := (id0, c0) :: post) ltac:(discriminate)) as (q & z & Hq).
            rewrite Hq in Hp. rewrite app_assoc in Hp. apply app_inj_tail in Hp. destruct Hp as [Hp <-].
            destruct post as [|z post].
            -- destruct q as [|? q]; [|destruct q; discriminate]. cbn in Hq. injection Hq as <- <-. rewrite app_nil_r in Hp. rewrite <- Hp.
               destruct (calls_in SI c0 o Ho) as (i & l & n & Hi & Ei). pose proof (cs_calls _ _ _ _ C3) as Hcw. rewrite Forall_forall in Hcw. destruct (Hcw i Hi o l n Ei) as (c' & Hc' & _). apply lookup_keys; eauto.
            -- destruct q as [|y q]; [discriminate|]. injection Hq as <- Hq. eapply (so_order _ S3 pre id0 c0 q); eauto.
        + split; [eapply grows_trans; eauto|]. exists c. split. { cbn [st4 st_subs]. rewrite lookup_app, Ec3. cbn [lookup]. rewrite Nat.eqb_refl; auto. } eapply csound_mono; eauto. }
    destruct A as (S2 & G2 & c & Hc & C). rewrite Hc in H. cbn [obind] in H. injection H as <- <- <-.
    split; auto. split; [eapply grows_trans; eauto|]. intros E CS HE Hs hs l HI Hh Hids.
    assert (Hrng : Forall (rng b) ids). { apply omap_some in Hids. clear -Hids Hh. induction Hids as [|j x js xs Hj _ IH]; constructor; auto. unfold hs_ok in Hh. rewrite Forall_forall in Hh. apply Hh. eapply nth_error_In; eauto. }
    assert (Hll : length l = length ids) by (symmetry; eapply omap_length; eauto).
    pose proof (t_grow E CS b (SCall id ids (length (outputs c))) (repeat None (length (outputs c))) HI Hrng) as T.
    rewrite repeat_length in T. specialize (T ltac:(intros id' l' n' Hi; injection Hi as <- <- <-; exists c; split; [apply Hs; auto|split; [symmetry; apply (cs_n _ _ _ _ C)|auto]]) eq_refl).
    specialize (T ltac:(intros vals outs w _ j d Hj; apply rep_none in Hj; destruct Hj)).
    eapply (h_trans E CS b hs _ _ _ (fun hv outs w => exists ins, omap (nth_error hv) l = Some ins /\ prog fns E (fns ty cap (length l)) ins outs w)); eauto.
    intros vals outs w [Hlv _]. unfold step. cbn [i_call SrcI s_call]. rewrite (run_crun E CS id c) by (apply Hs; auto).
    assert (Hp : omap (nth_error (map (getv vals) hs)) l = Some (map (getv vals) ids)) by (apply (pick vals hs l ids); auto).
    rewrite (cs_run _ _ _ _ C E CS HE Hs) by apply map_length. rewrite (no_capture ty cap), Hll. split.
    - intros [_ Hp2]. eauto.
    - intros (ins & Hins & Hp2). rewrite Hp in Hins. injection Hins as <-. split; auto. eapply Forall_impl; [|exact Hrng]. unfold rng, inb. intros; lia.
  Qed.
  Lemma stmts_cons_op E o ss hv hv' w : stmts fns E (SOp o :: ss) hv hv' w <-> exists hv1 wa wb, stepR E o hv hv1 wa /\ stmts fns E ss hv1 hv' wb /\ w = wa && wb.
  Proof.
    split.
    - intros H. inversion H; subst. eexists _, _, _. split; [eexists; split; [eexists; split; eauto|reflexivity]|]. eauto.
    - intros (hv1 & wa & wb & (outs & (o' & H1 & H2) & ->) & H3 & ->). eapply StOp; eauto.
  Qed.
  Lemma stmts_cons_fn E ty cap l ss hv hv' w : stmts fns E (SFn ty cap l :: ss) hv hv' w <-> exists hv1 wa wb,
    (exists outs, (exists ins, omap (nth_error hv) l = Some ins /\ prog fns E (fns ty cap (length l)) ins outs wa) /\ hv1 = hv ++ outs) /\ stmts fns E ss hv1 hv' wb /\ w = wa && wb.
  Proof.
    split.
    - intros H. inversion H; subst. eexists _, _, _. split; [eexists; split; [eexists; split; eauto|reflexivity]|]. eauto.
    - intros (hv1 & wa & wb & (outs & (ins & H1 & H2) & ->) & H3 & ->). eapply StFn; eauto.
  Qed.
  Lemma stmts_nil E hv hv' w : stmts fns E [] hv hv' w <-> hv' = hv /\ w = true.
  Proof. split; [intros H; inversion H; auto|intros [-> ->]; constructor]. Qed.
  Lemma prog_iff E p ins outs b : prog fns E p ins outs b <-> exists hv, stmts fns E (p_body p) ins hv b /\ omap (nth_error hv) (p_outs p) = Some outs.
  Proof. split; [intros H; inversion H; eauto|intros (hv & H1 & H2); econstructor; eauto]. Qed.
  Lemma rb_stmts_ok rec ss : rec_ok rec -> forall st b hs st' b' hs', StOk st -> rb_stmts fsize fns hash low rec st b hs ss = Some (st', b', hs') ->
    StOk st' /\ grows st st' /\ forall E CS, Eok E -> sub_of st' CS -> Inv E CS b -> hs_ok b hs -> hseq E CS b hs b' hs' (stmts fns E ss).
  Proof.
    intros HR. induction ss as [|[o|ty cap l] ss IH]; intros st b hs st' b' hs' HS H; cbn [rb_stmts] in H.
    - injection H as <- <- <-. split; auto. split; [apply grows_refl|]. intros E CS HE Hs HI Hh. eapply h_ext; [|apply h_nil; auto]. intros hv hv' w _. rewrite stmts_nil. reflexivity.
    - destruct (bd_op fsize b hs o) as [[b1 rs]|] eqn:Eo; cbn [obind fst snd] in H; [|discriminate]. destruct (IH _ _ _ _ _ _ HS H) as (S1 & G1 & H1). split; auto. split; auto.
      intros E CS HE Hs HI Hh. pose proof (op_ok fsize E CS HE Hsize b hs o b1 rs HI Hh Eo) as A1. pose proof (H1 E CS HE Hs (h_inv _ _ _ _ _ _ _ A1) (h_ok _ _ _ _ _ _ _ A1)) as A2.
      apply (h_comp _ _ _ _ _ _ _ _ _ _ _ A1 A2). intros ins hv w _ hv2 w2. apply stmts_cons_op.
    - destruct (omap (nth_error hs) l) as [ids|] eqn:El; cbn [obind] in H; [|discriminate]. destruct (call_fn fns hash low rec st b ty cap ids) as [[[st1 b1] rs]|] eqn:Ec; cbn [obind] in H; [|discriminate].
      destruct (call_fn_ok _ _ _ _ _ _ _ _ _ HR HS Ec) as (S1 & G1 & H1). destruct (IH _ _ _ _ _ _ S1 H) as (S2 & G2 & H2). split; auto. split; [eapply grows_trans; eauto|].
      intros E CS HE Hs HI Hh. pose proof (H1 E CS HE (sub_of_mono _ _ _ G2 Hs) hs l HI Hh El) as A1. pose proof (H2 E CS HE Hs (h_inv _ _ _ _ _ _ _ A1) (h_ok _ _ _ _ _ _ _ A1)) as A2.
      apply (h_comp _ _ _ _ _ _ _ _ _ _ _ A1 A2). intros ins hv w _ hv2 w2. apply stmts_cons_fn.
  Qed.

  (* ------------------------------------------------------------ the start of a function and of the program *)
  Lemma pub_exec (E : Env F) CS n npub (ins vals : list F) b : length ins = n -> (exec SI E CS (bd_insns (pub_builder n npub) : list (Insn SI)) (f0 :: ins) vals b <-> vals = f0 :: ins ++ map (e_pub E) (seq 0 npub) /\ b = true).
  Proof.
    intros Hn. cbn [pub_builder bd_insns]. revert vals b. induction npub as [|k IH]; intros vals b.
    - cbn [seq map]. rewrite app_nil_r. apply exec_nil.
    - rewrite seq_S, !map_app, Nat.add_0_l. cbn [map]. rewrite exec_snoc. split.
      + intros (mid & outs & b1 & b2 & H1 & H2 & -> & ->). apply IH in H1. destruct H1 as [-> ->]. unfold step in H2. cbn [i_call SrcI s_call] in H2. destruct H2 as (_ & (v0 & -> & Hv) & ->). cbn in Hv. subst v0.
        rewrite app_assoc. auto.
      + intros [-> ->]. exists (f0 :: ins ++ map (e_pub E) (seq 0 k)), [e_pub E k], true, true. split; [apply IH; auto|]. split; [|split; auto; rewrite app_assoc; auto].
        unfold step. cbn [i_call SrcI s_call]. split; [constructor|]. split; auto. exists (e_pub E k). split; reflexivity.
  Qed.
  Lemma pub_bexec (E : Env F) CS n npub (ins vals : list F) w : bexec E CS (pub_builder n npub) ins vals w <-> length ins = n /\ vals = f0 :: ins ++ map (e_pub E) (seq 0 npub) /\ w = true.
  Proof.
    unfold bexec. split.
    - intros [Hl (b1 & H1 & ->)]. apply pub_exec in H1; auto. destruct H1 as [-> ->]. auto.
    - intros (Hl & -> & ->). split; auto. exists true. split; auto. apply pub_exec; auto.
  Qed.
  Lemma pub_inv (E : Env F) CS n npub : Inv E CS (pub_builder n npub).
  Proof.
    split.
    - split.
      + cbn [pub_builder bd_insns bd_n]. generalize 0 as a, n as m. induction npub as [|k IH]; intros a m; cbn [seq map wf_insns]; auto. split; [constructor|apply IH].
      + unfold next. cbn [pub_builder bd_insns bd_n bd_const]. rewrite repeat_length. f_equal. f_equal. generalize 0 as a. induction npub as [|k IH]; intros a; cbn [seq map nouts]; auto.
      + constructor.
      + cbn [pub_builder bd_insns]. apply Forall_forall. intros i Hi. apply in_map_iff in Hi. destruct Hi as (k & <- & _). intros id l m Hc. discriminate.
    - intros ins vals w H. apply pub_bexec in H. destruct H as (Hl & -> & ->). split.
      + cbn [length]. rewrite app_length, map_length, seq_length. unfold next. cbn [pub_builder bd_const]. rewrite repeat_length, Hl. auto.
      + cbn [pub_builder bd_const]. intros x c Hx. apply rep_none in Hx. destruct Hx.
  Qed.
  Lemma pub_hs n npub : hs_ok (pub_builder (F := F) n npub) (seq 1 (n + npub)).
  Proof. apply Forall_forall. intros x Hx. apply in_seq in Hx. unfold rng, next. cbn [pub_builder bd_const]. rewrite repeat_length. lia. Qed.
  Lemma map_getv_ins (l : list F) n : length l = n -> map (getv (f0 :: l)) (seq 1 n) = l.
  Proof. intros <-. pose proof (map_getv_seq [f0] l) as H. exact H. Qed.
  Lemma pub_Hrun (E : Env F) CS n npub (ins hv : list F) w : Hrun E CS (pub_builder n npub) (seq 1 (n + npub)) ins hv w <-> length ins = n /\ hv = ins ++ map (e_pub E) (seq 0 npub) /\ w = true.
  Proof.
    unfold Hrun. split.
    - intros (vals & Hb & ->). apply pub_bexec in Hb. destruct Hb as (Hl & -> & ->). split; auto. split; auto. apply map_getv_ins. rewrite app_length, map_length, seq_length. lia.
    - intros (Hl & -> & ->). eexists. split; [apply pub_bexec; auto|]. symmetry. apply map_getv_ins. rewrite app_length, map_length, seq_length. lia.
  Qed.
  Lemma new_pub n : bd_new (F := F) n = pub_builder n 0. Proof. unfold bd_new, pub_builder. cbn [seq map]. rewrite Nat.add_0_r. auto. Qed.

  (* a builder and its outputs as a circuit *)
  Lemma build_ok st b0 hs0 b hs ss pouts outs n : (forall E CS, Eok E -> sub_of st CS -> hseq E CS b0 hs0 b hs (stmts fns E ss)) -> bd_n b0 = n -> omap (nth_error hs) pouts = Some outs ->
    let c := bd_build b outs in
    num_inputs c = n /\ wf_circuit SI c /\ Forall (call_wf SI (st_subs st)) (instructions c) /\
    forall E CS, Eok E -> sub_of st CS -> forall ins o w, length ins = n ->
      (crun E CS c ins o w <-> exists hv hv' w1 w2, Hrun E CS b0 hs0 ins hv w1 /\ stmts fns E ss hv hv' w2 /\ w = w1 && w2 /\ omap (nth_error hv') pouts = Some o).
  Proof.
    intros HS Hn Ho c.
    destruct (HS E0 (st_subs st) E0_ok ltac:(intros id c0 H; exact H)) as [[S1 C1] h2 h3 h4 _].
    assert (Hout : Forall (rng b) outs). { apply omap_some in Ho. clear -Ho h2. induction Ho as [|j x js rs Hj _ IH]; constructor; auto. unfold hs_ok in h2. rewrite Forall_forall in h2. apply h2. eapply nth_error_In; eauto. }
    split; [cbn; congruence|]. split; [|split].
    - split; cbn [c bd_build instructions constraints outputs num_inputs].
      + apply S1.
      + eapply Forall_impl; [|apply (s_con _ _ S1)]. unfold rng. rewrite (s_next _ _ S1). cbn. intros; lia.
      + eapply Forall_impl; [|exact Hout]. unfold rng. rewrite (s_next _ _ S1). cbn. intros; lia.
    - apply S1.
    - intros E CS HE Hs ins o w Hl. destruct (HS E CS HE Hs) as [[S2 C2] _ _ _ Hi]. unfold crun. cbn [c bd_build instructions constraints outputs]. split.
      + intros (vals & w0 & H1 & H2 & H3 & -> & ->). destruct (proj1 (Hi ins (map (getv vals) hs) (w0 && forallb (fun k => con_verify F k (getv vals (snd k))) (bd_cons b)))) as (hv & w1 & w2 & G1 & G2 & G3).
        { exists vals. split; auto. split; [congruence|]. exists w0. auto. }
        exists hv, (map (getv vals) hs), w1, w2. split; auto. split; auto. split; auto. apply (pick vals hs pouts outs); auto.
      + intros (hv & hv' & w1 & w2 & G1 & G2 & -> & G4). destruct (proj2 (Hi ins hv' (w1 && w2))) as (vals & Hb & ->). { eauto 6. }
        apply (pick vals hs pouts outs) in G4; auto. subst o. pose proof (C2 _ _ _ Hb) as [Hlv _]. destruct Hb as [Hli (b1 & Hx & ->)]. exists vals, b1. split; auto. split; [|split; [|split; auto]].
        * eapply Forall_impl; [|apply (s_con _ _ S2)]. unfold rng, inb. cbn. intros; lia.
        * eapply Forall_impl; [|exact Hout]. unfold rng, inb. intros; lia.
  Qed.
  Lemma rb_fn_ok fuel : rec_ok (rb_fn fsize fns hash low fuel).
  Proof.
    induction fuel as [|fuel IH]; intros st p n st' c HS H; cbn [rb_fn] in H; [discriminate|].
    destruct (rb_stmts fsize fns hash low (rb_fn fsize fns hash low fuel) st (bd_new n) (seq 1 n) (p_body p)) as [[[st1 b] hs]|] eqn:Es; cbn [obind] in H; [|discriminate].
    destruct (omap (nth_error hs) (p_outs p)) as [outs|] eqn:Eo; cbn [obind] in H; [|discriminate]. injection H as <- <-.
    destruct (rb_stmts_ok _ _ IH _ _ _ _ _ _ HS Es) as (S1 & G1 & H1). split; auto. split; auto. rewrite new_pub in H1.
    assert (Hh : hs_ok (pub_builder (F := F) n 0) (seq 1 n)) by (rewrite <- (Nat.add_0_r n) at 2; apply pub_hs).
    destruct (build_ok st1 (pub_builder n 0) (seq 1 n) b hs (p_body p) (p_outs p) outs n) as (B1 & B2 & B3 & B4); auto.
    { intros E CS HE Hs. apply H1; auto. apply pub_inv. }
    split; auto. intros E CS HE Hs ins o w Hl. rewrite (B4 E CS HE Hs) by auto. rewrite prog_iff. split.
    - intros (hv & hv' & w1 & w2 & G1' & G2 & -> & G4). rewrite <- (Nat.add_0_r n) in G1' at 2. apply pub_Hrun in G1'. destruct G1' as (_ & -> & ->). cbn [seq map] in G2. rewrite app_nil_r in G2. eauto.
    - intros (hv & G1' & G2). exists ins, hv, true, w. split; auto. rewrite <- (Nat.add_0_r n) at 2. apply pub_Hrun. cbn [seq map]. rewrite app_nil_r. auto.
  Qed.

  (* ------------------------------------------------------------ the whole program *)
  Hypothesis low_pos : forall ty n, low (hash ty n) <> 0.
  Lemma filter_id {A} (f : A -> bool) l : (forall x, In x l -> f x = true) -> filter f l = l.
  Proof. induction l as [|x l IH]; cbn; auto. intros H. rewrite (H x) by auto. f_equal. auto. Qed.
  Theorem record_ok fuel n npub p rc : record fsize fns hash low fuel n npub p = Some rc ->
    wf_root SI rc /\ num_public_inputs rc = npub /\ (exists c0, lookup 0 (circuits rc) = Some c0 /\ num_inputs c0 = n) /\
    forall E, Eok E -> forall ins outs b, (root_run SI E rc ins outs b <-> length ins = n /\ main fns E npub p ins outs b).
  Proof.
    intros H. unfold record in H.
    destruct (rb_stmts fsize fns hash low (rb_fn fsize fns hash low fuel) {| st_subs := []; st_ids := [] |} (pub_builder n npub) (seq 1 (n + npub)) (p_body p)) as [[[st b] hs]|] eqn:Es; cbn [obind] in H; [|discriminate].
    destruct (omap (nth_error hs) (p_outs p)) as [outs0|] eqn:Eo; cbn [obind] in H; [|discriminate]. injection H as <-.
    assert (Sn : StOk {| st_subs := []; st_ids := [] |}). { split; [constructor|intros id c H; discriminate|]. intros pre id c post H. destruct pre; discriminate. }
    destruct (rb_stmts_ok _ _ (rb_fn_ok fuel) _ _ _ _ _ _ Sn Es) as (S1 & _ & H1).
    assert (Hk : forall id c, lookup id (st_subs st) = Some c -> id <> 0). { intros id c Hc. destruct (so_each _ S1 id c Hc) as (ty & m & -> & _). apply low_pos. }
    assert (Hf : filter (fun e => negb (fst e =? 0)) (st_subs st) = st_subs st).
    { apply filter_id. intros [id c] Hin. cbn. apply In_lookup in Hin; [|apply S1]. apply Hk in Hin. apply Nat.eqb_neq in Hin. rewrite Hin. auto. }
    rewrite Hf. set (c0 := bd_build b outs0). set (rc := {| num_public_inputs := npub |}).
    destruct (build_ok st (pub_builder n npub) (seq 1 (n + npub)) b hs (p_body p) (p_outs p) outs0 n) as (B1 & B2 & B3 & B4); auto.
    { intros E CS HE Hs. apply H1; auto. apply pub_inv. apply pub_hs. }
    fold c0 in B1, B2, B3, B4.
    assert (Hs : sub_of st (circuits rc)). { intros id c Hc. cbn [rc circuits lookup]. pose proof (Hk id c Hc). destruct (Nat.eqb_spec 0 id); [subst; contradiction|auto]. }
    assert (Hcw : forall i, call_wf SI (st_subs st) i -> call_wf SI (circuits rc) i). { intros i Hi id l m Ec. destruct (Hi id l m Ec) as (c & Hc & Hr). exists c. split; auto. }
    split; [split|split; [auto|split; [exists c0; auto|]]].
    - split.
      + cbn [rc circuits keys map]. constructor; [|apply S1]. intros Hin. apply lookup_keys in Hin. destruct Hin as [c Hc]. apply (Hk 0 c Hc); auto.
      + intros id c Hc. cbn [rc circuits lookup] in Hc. destruct (Nat.eqb 0 id); [injection Hc as <-; auto|]. destruct (so_each _ S1 id c Hc) as (ty & m & _ & _ & C). apply C.
      + intros id c Hc. cbn [rc circuits lookup] in Hc. destruct (Nat.eqb 0 id).
        * injection Hc as <-. eapply Forall_impl; [|exact B3]. auto.
        * destruct (so_each _ S1 id c Hc) as (ty & m & _ & _ & C). eapply Forall_impl; [|apply C]. auto.
    - (* position in the list of sub-circuits *)
      exists (fun x => if x =? 0 then S (length (st_subs st)) else length (st_subs st) - rk (keys (st_subs st)) x).
      assert (Hin : forall c o, Forall (call_wf SI (st_subs st)) (instructions c) -> In o (calls c) -> exists c', lookup o (st_subs st) = Some c').
      { intros c o Hc Ho. destruct (calls_in SI c o Ho) as (i & l & m & Hi & Ei). rewrite Forall_forall in Hc. destruct (Hc i Hi o l m Ei) as (c' & Hc' & _). eauto. }
      intros id c o Hc Ho. cbn [rc circuits lookup] in Hc. destruct (Nat.eqb_spec 0 id) as [<-|Hne].
      + injection Hc as <-. destruct (Hin c0 o B3 Ho) as [c' Hc']. pose proof (Hk o c' Hc') as Ho0. apply Nat.eqb_neq in Ho0. rewrite Ho0. rewrite Nat.eqb_refl. lia.
      + destruct (so_each _ S1 id c Hc) as (ty & m & _ & _ & C). destruct (Hin c o (cs_calls _ _ _ _ C) Ho) as [c' Hc']. pose proof (Hk o c' Hc') as Ho0. apply Nat.eqb_neq in Ho0. rewrite Ho0. assert (Hne2 : (id =? 0) = false) by (apply Nat.eqb_neq; auto). rewrite Hne2.
        apply lookup_In in Hc. apply in_split in Hc. destruct Hc as (pre & post & Hsp). pose proof (so_order _ S1 pre id c post Hsp o Ho) as Hpre. apply in_split in Hpre. destruct Hpre as (q1 & q2 & Hq).
        pose proof (so_keys _ S1) as Hnd. assert (Hlen : length (st_subs st) = length (keys (st_subs st))) by (unfold keys; rewrite map_length; auto). rewrite Hlen.
        assert (Hkk : keys (st_subs st) = q1 ++ o :: q2 ++ id :: keys post). { rewrite Hsp. unfold keys in *. rewrite map_app. cbn [map fst]. rewrite Hq, <- app_assoc. auto. }
        rewrite Hkk in *. clear -Hnd.
        assert (N1 : ~ In o q1). { apply NoDup_remove_2 in Hnd. intros H. apply Hnd, in_or_app; auto. }
        assert (N2 : ~ In id (q1 ++ o :: q2)). { replace (q1 ++ o :: q2 ++ id :: keys post) with ((q1 ++ o :: q2) ++ id :: keys post) in Hnd by (rewrite <- app_assoc; auto). apply NoDup_remove_2 in Hnd. intros H. apply Hnd, in_or_app; auto. }
        rewrite (rk_app q1 o _ N1). replace (q1 ++ o :: q2 ++ id :: keys post) with ((q1 ++ o :: q2) ++ id :: keys post) by (rewrite <- app_assoc; auto). rewrite (rk_app _ id _ N2). repeat (rewrite ?app_length; cbn [length]). lia.
    - exists c0. split; [reflexivity|]. cbn [rc expected_num_output_zeroes]. lia.
    - intros E HE ins outs w. unfold root_run. cbn [rc expected_num_output_zeroes skipn firstn forallb]. split.
      + intros (c & all & w0 & Hc & Hl & Hr & _ & -> & ->). cbn [rc circuits lookup Nat.eqb] in Hc. injection Hc as <-. rewrite B1 in Hl. split; auto. rewrite andb_true_r.
        apply (run_crun E _ 0 c0) in Hr; auto. apply B4 in Hr; auto. destruct Hr as (hv & hv' & w1 & w2 & G1 & G2 & -> & G4). apply pub_Hrun in G1. destruct G1 as (_ & -> & ->). apply prog_iff. eauto.
      + intros [Hl Hm]. exists c0, outs, w. split; auto. split; [congruence|]. rewrite andb_true_r. split; [|split; [lia|auto]]. apply (run_crun E _ 0 c0); auto. apply B4; auto.
        unfold main in Hm. apply prog_iff in Hm. destruct Hm as (hv & G1 & G2). exists (ins ++ map (e_pub E) (seq 0 npub)), hv, true, w. split; auto. apply pub_Hrun. auto.
  Qed.
End Record_.
