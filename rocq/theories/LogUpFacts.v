(* What the runs of the lookup arguments are. *)
From Verif Require Import Prelude Field Expr Hints Ir IrInst ApiSpec Gadget GadgetRec ShaSpec ShaGf2 ShaGf2Facts LogUp.
From Coq Require Import NArith.
Open Scope nat_scope.

(* ------------------------------------------------------------ runs of gadgets with random values and hints *)
Section Runs.
  Context {F : Fld}.
  Variable fns : nat -> nat -> nat -> Prog F.
  Variable E : Env F.
  Definition runs {A} (hv : list F) (m : G F A) (hv' : list F) (a : A) (b : bool) : Prop :=
    exists ops, m (length hv) = Some (ops, a) /\ stmts fns E (map SOp ops) hv hv' b.
  Lemma api_sem_len (o : Op F) outs b : api_sem E o outs b -> length outs = op_outs o.
  Proof.
    destruct o; cbn [api_sem]; intros H; try (apply api_fun_len in H; exact H).
    - destruct H as (r & _ & -> & _). reflexivity.
    - destruct H as [[H _] _]. exact H.
  Qed.
  Lemma stmts_len ops : forall hv hv' b, stmts fns E (map SOp ops) hv hv' b -> length hv' = length hv + ops_outs ops /\ ext hv hv'.
  Proof.
    induction ops as [|o ops IH]; intros hv hv' b S; cbn [map] in S.
    - inversion S; subst. split; [cbn; lia|apply ext_refl].
    - inversion S as [|o0 o' ss h0 outs b0 h1 b1 Ho Ha Hr|]; subst. apply IH in Hr. destruct Hr as [L X]. apply api_sem_len in Ha. apply op_map_outs in Ho.
      rewrite app_length in L. change (ops_outs (o :: ops)) with (op_outs o + ops_outs ops). split; [lia|].
      eapply ext_trans; [eexists; reflexivity|exact X].
  Qed.
  Lemma runs_ext {A} hv (m : G F A) hv' a b : runs hv m hv' a b -> ext hv hv'.
  Proof. intros (ops & _ & S). apply stmts_len in S. tauto. Qed.
  Lemma runs_bind {A B} hv (m : G F A) (f : A -> G F B) hv' c b :
    runs hv (gbind m f) hv' c b <-> exists h a b1 b2, runs hv m h a b1 /\ runs h (f a) hv' c b2 /\ b = b1 && b2.
  Proof.
    unfold runs, gbind. split.
    - intros (ops & Eq & S). destruct (m (length hv)) as [[o1 a]|]; [|discriminate]. destruct (f a _) as [[o2 c']|] eqn:E2; [|discriminate]. injection Eq as <- <-.
      rewrite map_app in S. apply stmts_app in S. destruct S as (h & b1 & b2 & S1 & S2 & ->). exists h, a, b1, b2. split; [eauto|]. split; [|auto].
      destruct (stmts_len _ _ _ _ S1) as [L _]. rewrite L. eauto.
    - intros (h & a & b1 & b2 & (o1 & E1 & S1) & (o2 & E2 & S2) & ->). rewrite E1. destruct (stmts_len _ _ _ _ S1) as [L _]. rewrite L in E2. rewrite E2.
      eexists. split; [reflexivity|]. rewrite map_app. apply stmts_app. eauto 8.
  Qed.
  Lemma runs_ret {A} hv (a : A) hv' a' b : runs hv (gret a) hv' a' b <-> hv' = hv /\ a' = a /\ b = true.
  Proof.
    unfold runs, gret. split.
    - intros (ops & Eq & S). injection Eq as <- <-. inversion S; auto.
    - intros (-> & -> & ->). exists []. split; auto. constructor.
  Qed.
  Lemma runs_ok {A} hv (m : G F A) Q : ok hv m Q -> exists h a, ext hv h /\ Q h a /\ forall hv' a' b, runs hv m hv' a' b <-> hv' = h /\ a' = a /\ b = true.
  Proof.
    intros (h & a & R & X & H). exists h, a. split; auto. split; auto. intros hv' a' b. unfold grun in R. unfold runs.
    destruct (m (length hv)) as [[ops a0]|]; cbn [obind fst snd] in R; [|discriminate]. destruct (exec hv ops) as [h1|] eqn:Ex; cbn [obind] in R; [|discriminate]. injection R as -> ->.
    split.
    - intros (ops' & Eq & S). injection Eq as <- <-. eapply exec_stmts in S; [|exact Ex]. tauto.
    - intros (-> & -> & ->). exists ops. split; auto. eapply exec_stmts; eauto.
  Qed.
  (* the runs of m are, up to the handles, one for each choice x of random values and answers to hints *)
  Definition cr {A} (hv : list F) (m : G F A) (X : Type) (pre : X -> Prop) (Q : X -> list F -> A -> bool -> Prop) : Prop :=
    (forall hv' a b, runs hv m hv' a b -> exists x, pre x /\ Q x hv' a b) /\ (forall x, pre x -> exists hv' a b, runs hv m hv' a b /\ Q x hv' a b).
  Lemma cr_bind {A B} hv (m : G F A) (f : A -> G F B) X Y pre pre2 P Q :
    cr hv m X pre P -> (forall x h a b, pre x -> ext hv h -> P x h a b -> b = true /\ cr h (f a) Y pre2 (Q x)) ->
    cr hv (gbind m f) (X * Y) (fun p => pre (fst p) /\ pre2 (snd p)) (fun p => Q (fst p) (snd p)).
  Proof.
    intros [M1 M2] H. split.
    - intros hv' c b R. apply runs_bind in R. destruct R as (h & a & b1 & b2 & R1 & R2 & ->). destruct (M1 _ _ _ R1) as (x & Px & Pq).
      destruct (H _ _ _ _ Px (runs_ext _ _ _ _ _ R1) Pq) as [-> [N1 _]]. destruct (N1 _ _ _ R2) as (y & Py & Qy). exists (x, y). auto.
    - intros [x y] [Px Py]. cbn [fst snd] in *. destruct (M2 _ Px) as (h & a & b1 & R1 & Pq). destruct (H _ _ _ _ Px (runs_ext _ _ _ _ _ R1) Pq) as [-> [_ N2]].
      destruct (N2 _ Py) as (h' & c & b2 & R2 & Qy). exists h', c, b2. split; auto. apply runs_bind. exists h, a, true, b2. auto.
  Qed.
  Lemma cr_ok {A B} hv (m : G F A) (f : A -> G F B) P Y pre2 Q :
    ok hv m P -> (forall h a, ext hv h -> P h a -> cr h (f a) Y pre2 Q) -> cr hv (gbind m f) Y pre2 Q.
  Proof.
    intros M H. destruct (runs_ok _ _ _ M) as (h & a & X & Pa & R). destruct (H _ _ X Pa) as [N1 N2]. split.
    - intros hv' c b Rb. apply runs_bind in Rb. destruct Rb as (h1 & a1 & b1 & b2 & R1 & R2 & ->). apply R in R1. destruct R1 as (-> & -> & ->). apply N1. exact R2.
    - intros y Py. destruct (N2 _ Py) as (h' & c & b2 & R2 & Qy). exists h', c, b2. split; auto. apply runs_bind. exists h, a, true, b2. split; [apply R; auto|auto].
  Qed.
  Lemma cr_random hv : cr hv a_random F (e_rnd E) (fun r h a b => is h a r /\ b = true).
  Proof.
    split.
    - intros hv' a b (ops & Eq & S). injection Eq as <- <-. cbn [map] in S. inversion S as [|o o' ss h0 outs b0 h1 b1 Ho Ha Hr|]; subst. cbn in Ho. injection Ho as <-.
      cbn in Ha. destruct Ha as (r & Hr' & -> & ->). inversion Hr; subst. exists r. split; auto. split; auto. apply is_new.
    - intros r Hr. exists (hv ++ [r]), (length hv), true. split; [|split; [apply is_new|auto]]. exists [ORandom]. split; [reflexivity|]. cbn [map].
      change true with (true && true). eapply StOp; [reflexivity| |constructor]. cbn. eauto.
  Qed.
  Lemma cr_randoms : forall l hv, cr hv (gmap (fun _ : nat => a_random) l) (list F) (fun rs => length rs = length l /\ Forall (e_rnd E) rs) (fun rs h a b => iss h a rs /\ b = true).
  Proof.
    induction l as [|i l IH]; intros hv; cbn [gmap].
    - split.
      + intros hv' a b R. apply runs_ret in R. destruct R as (-> & -> & ->). exists []. repeat split; auto. constructor.
      + intros rs [L _]. destruct rs; [|discriminate]. exists hv, [], true. split; [apply runs_ret; auto|]. split; auto. constructor.
    - destruct (cr_random hv) as [M1 M2]. split.
      + intros hv' a b R. apply runs_bind in R. destruct R as (h & x & b1 & b2 & R1 & R2 & ->). apply runs_bind in R2. destruct R2 as (h2 & xs & b3 & b4 & R2 & R3 & ->).
        apply runs_ret in R3. destruct R3 as (-> & -> & ->). destruct (M1 _ _ _ R1) as (r & Hr & I & ->). destruct (IH h) as [N1 _]. destruct (N1 _ _ _ R2) as (rs & [L Hrs] & Is & ->).
        exists (r :: rs). cbn [length]. repeat split; auto. constructor; auto. eapply is_ext; [|exact I]. eapply runs_ext; eauto.
      + intros [|r rs] [L Hrs]; [discriminate|]. inversion Hrs; subst. destruct (M2 r) as (h & x & b1 & R1 & I & ->); auto. destruct (IH h) as [_ N2]. destruct (N2 rs) as (h2 & xs & b3 & R2 & Is & ->); auto.
        exists h2, (x :: xs), true. split.
        * apply runs_bind. exists h, x, true, true. split; auto. split; auto. apply runs_bind. exists h2, xs, true, true. split; auto. split; auto. apply runs_ret. auto.
        * split; auto. constructor; auto. eapply is_ext; [|exact I]. eapply runs_ext; eauto.
  Qed.
  Lemma cr_hint hv id xs vs n : iss hv xs vs -> cr hv (calln (OHint id (map AV xs) n)) (list F) (fun outs => hint_sem F E id n vs outs) (fun outs h a b => iss h a outs /\ b = true).
  Proof.
    intros I. assert (O : omap (arg_val hv) (map AV xs) = Some vs).
    { apply omap_nth_iss in I. rewrite <- I. clear. induction xs as [|x xs IH]; cbn; auto. rewrite IH. reflexivity. }
    split.
    - intros hv' a b (ops & Eq & S). injection Eq as <- <-. cbn [map] in S. inversion S as [|o o' ss h0 outs b0 h1 b1 Ho Ha Hr|]; subst. cbn [op_map] in Ho. rewrite O in Ho. cbn in Ho. injection Ho as <-.
      cbn in Ha. destruct Ha as [Ha ->]. inversion Hr; subst. exists outs. split; auto. split; auto. cbn [op_outs]. destruct Ha as [<- _]. apply iss_new.
    - intros outs Ho. exists (hv ++ outs), (seq (length hv) n), true. split.
      + exists [OHint id (map AV xs) n]. split; [reflexivity|]. cbn [map]. change true with (true && true). eapply StOp; [cbn [op_map]; rewrite O; reflexivity| |constructor]. split; auto.
      + split; auto. destruct Ho as [<- _]. apply iss_new.
  Qed.
  Lemma cr_assert_eq hv x y u v : is hv x u -> is hv y v -> cr hv (call0 (OAssertEq (AV x) (AV y))) unit (fun _ => True) (fun _ h _ b => h = hv /\ b = feqb u v).
  Proof.
    intros Hx Hy. unfold is in *. split.
    - intros hv' a b (ops & Eq & S). injection Eq as <- <-. cbn [map] in S. inversion S as [|o o' ss h0 outs b0 h1 b1 Ho Ha Hr|]; subst. cbn in Ho. rewrite Hx, Hy in Ho. cbn in Ho. injection Ho as <-.
      cbn in Ha. injection Ha as <- <-. inversion Hr; subst. exists tt. split; auto. rewrite app_nil_r, andb_true_r. auto.
    - intros [] _. exists hv, tt, (feqb u v). split; [|auto]. eexists. split; [reflexivity|]. cbn [map]. rewrite <- (andb_true_r (feqb u v)). eapply StOp with (outs := []).
      cbn. rewrite Hx, Hy. cbn. reflexivity. cbn. reflexivity. rewrite app_nil_r. constructor.
  Qed.
  Lemma cr_imp {A} hv (m : G F A) X pre P (Q : X -> list F -> A -> bool -> Prop) : cr hv m X pre P -> (forall x h a b, ext hv h -> P x h a b -> Q x h a b) -> cr hv m X pre Q.
  Proof.
    intros [M1 M2] H. split.
    - intros hv' a b R. destruct (M1 _ _ _ R) as (x & Px & Q1). exists x. split; auto. apply H; auto. eapply runs_ext; eauto.
    - intros x Px. destruct (M2 _ Px) as (h & a & b & R & Q1). exists h, a, b. split; auto. apply H; auto. eapply runs_ext; eauto.
  Qed.
  (* a circuit that runs a gadget and has no outputs *)
  Lemma cr_main npub n (m : G F unit) X pre (bx : X -> bool) ins p : length ins = n -> gprog (n + npub) (_ <-- m;; gret []) = Some p ->
    cr (ins ++ map (e_pub E) (seq 0 npub)) m X pre (fun x _ _ b => b = bx x) ->
    forall outs b, main fns E npub p ins outs b <-> outs = [] /\ exists x, pre x /\ b = bx x.
  Proof.
    intros Li Hp [M1 M2] outs b. unfold main, gprog, gbind in *. unfold runs in *. rewrite app_length, map_length, seq_length, Li in *.
    destruct (m (n + npub)) as [[ops a]|]; cbn [obind fst snd gret] in *; [|discriminate]. injection Hp as <-. rewrite app_nil_r. split.
    - intros H. inversion H as [p0 ins0 h b0 outs0 Hs Ho]; subst. cbn in *. injection Ho as <-. split; auto. destruct (M1 h a b) as (x & Px & ->); eauto.
    - intros [-> (x & Px & ->)]. destruct (M2 _ Px) as (h & a' & b' & (ops' & Eq & S) & ->). injection Eq as <- <-. econstructor; cbn; [exact S|reflexivity].
  Qed.
End Runs.

(* ------------------------------------------------------------ lists *)
  Lemma f2_firstn {A B} (R : A -> B -> Prop) n : forall l xs, Forall2 R l xs -> Forall2 R (firstn n l) (firstn n xs).
  Proof. induction n as [|n IH]; intros l xs H; destruct H; cbn; constructor; auto. Qed.
  Lemma f2_skipn {A B} (R : A -> B -> Prop) n : forall l xs, Forall2 R l xs -> Forall2 R (skipn n l) (skipn n xs).
  Proof. induction n as [|n IH]; intros l xs H; auto. destruct H; cbn; auto. Qed.
  Lemma f2_combine {A B C D} (R : A -> B -> Prop) (S : C -> D -> Prop) : forall a x b y, Forall2 R a x -> Forall2 S b y -> Forall2 (fun p q => R (fst p) (fst q) /\ S (snd p) (snd q)) (combine a b) (combine x y).
  Proof. intros a x b y H. revert b y. induction H; intros b0 y0 H'; cbn; [constructor|]. destruct H'; constructor; auto. Qed.
  Lemma f2_len {A B} (R : A -> B -> Prop) l xs : Forall2 R l xs -> length l = length xs. Proof. intros H. induction H; cbn; auto. Qed.
  Lemma f2_nth {A B} (R : A -> B -> Prop) d e : forall l xs, Forall2 R l xs -> forall i, i < length l -> R (nth i l d) (nth i xs e).
  Proof. intros l xs H. induction H; intros i L; cbn in L; [lia|]. destruct i; cbn; auto. apply IHForall2. lia. Qed.
  Lemma skipn_skipn' {A} n : forall m (l : list A), skipn n (skipn m l) = skipn (m + n) l.
  Proof. induction m as [|m IH]; intros l; auto. destruct l; cbn [skipn Nat.add]; auto. apply skipn_nil. Qed.
  Lemma skipn_last {A} (d : A) : forall l n, n + 1 = length l -> skipn n l = [nth n l d].
  Proof. induction l as [|x l IH]; intros n H; cbn in H; [lia|]. destruct n as [|n]; cbn [skipn nth]. destruct l; [reflexivity|cbn in H; lia]. apply IH. lia. Qed.
  Lemma halves {A} (d : A) l : 1 < length l -> l = firstn (length l / 2) l ++ firstn (length l / 2) (skipn (length l / 2) l) ++ (if Nat.odd (length l) then [nth (length l - 1) l d] else []).
  Proof.
    intros L. pose proof (Nat.div2_odd (length l)) as D. rewrite Nat.div2_div in D. set (h := length l / 2) in *. rewrite <- (firstn_skipn h l) at 1. f_equal.
    rewrite <- (firstn_skipn h (skipn h l)) at 1. f_equal. rewrite skipn_skipn'. destruct (Nat.odd (length l)); cbn [Nat.b2n] in D.
    - replace (length l - 1) with (h + h) by lia. apply skipn_last. lia.
    - apply skipn_all2. lia.
  Qed.
(* ------------------------------------------------------------ sums of fractions *)
Section Sums.
  Context {F : Fld}.
  Local Open Scope fld_scope.
  Add Field FfL : (fth F).
  (* over common denominators: the fractions c / (alpha - v) for the pairs (c, v) *)
  Definition den (alpha : F) (l : list (F * F)) : F := fprod F (map (fun p => alpha - snd p) l).
  Fixpoint num (alpha : F) (l : list (F * F)) : F :=
    match l with [] => 0 | (c, v) :: l => c * den alpha l + (alpha - v) * num alpha l end.
  Definition ones (qs : list F) : list (F * F) := map (fun q => (1, q)) qs.
  (* sum of c / (alpha - v) over T = sum of 1 / (alpha - q) over qs, multiplied out *)
  Definition balanced (alpha : F) (T : list (F * F)) (qs : list F) : bool :=
    num alpha T * den alpha (ones qs) =? den alpha T * num alpha (ones qs).
  (* a row, its columns combined with coefficients 1, r1, r2, .. *)
  Definition comb (rs row : list F) : F := fsum F (map (fun p => fst p * snd p) (combine row (1 :: rs))).

  Definition radd (a b : F * F) : F * F := (fst a * snd b + snd a * fst b, snd a * snd b).
  Definition rsum (l : list (F * F)) : F * F := fold_right radd (0, 1) l.
  Lemma radd_assoc a b c : radd a (radd b c) = radd (radd a b) c.
  Proof. unfold radd; cbn [fst snd]. f_equal; ring. Qed.
  Lemma radd_comm a b : radd a b = radd b a.
  Proof. unfold radd; cbn [fst snd]. f_equal; ring. Qed.
  Lemma radd_0 a : radd a (0, 1) = a.
  Proof. destruct a. unfold radd; cbn [fst snd]. f_equal; ring. Qed.
  Lemma rsum_app a b : rsum (a ++ b) = radd (rsum a) (rsum b).
  Proof. induction a as [|x a IH]; cbn [app rsum fold_right]; [rewrite radd_comm, radd_0; auto|]. fold (rsum (a ++ b)). rewrite IH. apply radd_assoc. Qed.
  Lemma rsum_perm a b : Permutation a b -> rsum a = rsum b.
  Proof.
    intros P. induction P as [|x a b P IH|x y l|a b c P IH P' IH']; cbn [rsum fold_right]; auto.
    - fold (rsum a) (rsum b). congruence.
    - rewrite !radd_assoc, (radd_comm y x). auto.
    - congruence.
  Qed.
  Lemma rsum_pairs : forall a b, length a = length b -> rsum (map (fun p => radd (fst p) (snd p)) (combine a b)) = radd (rsum a) (rsum b).
  Proof.
    induction a as [|x a IH]; intros [|y b] L; try discriminate; cbn [combine map rsum fold_right fst snd].
    - rewrite radd_0. auto.
    - fold (rsum a) (rsum b) (rsum (map (fun p => radd (fst p) (snd p)) (combine a b))). rewrite IH by (cbn in L; lia).
      unfold radd; cbn [fst snd]. f_equal; ring.
  Qed.
  Definition frac (alpha : F) (p : F * F) : F * F := (fst p, alpha - snd p).
  Lemma rsum_num alpha l : rsum (map (frac alpha) l) = (num alpha l, den alpha l).
  Proof. induction l as [|[c v] l IH]; [reflexivity|]. cbn [map rsum fold_right]. fold (rsum (map (frac alpha) l)). rewrite IH. reflexivity. Qed.
  Lemma num_perm alpha a b : Permutation a b -> num alpha a = num alpha b /\ den alpha a = den alpha b.
  Proof.
    intros P. pose proof (rsum_perm _ _ (Permutation_map (frac alpha) P)) as H. rewrite !rsum_num in H. injection H as H1 H2. auto.
  Qed.
  Lemma num_app alpha a b : num alpha (a ++ b) = num alpha a * den alpha b + den alpha a * num alpha b /\ den alpha (a ++ b) = den alpha a * den alpha b.
  Proof.
    pose proof (rsum_app (map (frac alpha) a) (map (frac alpha) b)) as H. rewrite <- map_app, !rsum_num in H. unfold radd in H. cbn [fst snd] in H. injection H as H1 H2. auto.
  Qed.

  (* gadgets *)
  Definition RR (hv : list F) (x : nat * nat) (v : F * F) : Prop := is hv (fst x) (fst v) /\ is hv (snd x) (snd v).
  Lemma RR_ext hv hv' x v : ext hv hv' -> RR hv x v -> RR hv' x v.
  Proof. intros X [H1 H2]. split; eapply is_ext; eauto. Qed.
  Lemma f2_ext {A B} (R : list F -> A -> B -> Prop) : (forall hv hv' a x, ext hv hv' -> R hv a x -> R hv' a x) -> forall hv hv' l xs, ext hv hv' -> Forall2 (R hv) l xs -> Forall2 (R hv') l xs.
  Proof. intros H hv hv' l xs X A2. induction A2; constructor; eauto. Qed.
  Lemma ok_add_rational hv x y u v : RR hv x u -> RR hv y v -> ok hv (add_rational x y) (fun hv' r => RR hv' r (radd u v)).
  Proof.
    intros [X1 X2] [Y1 Y2]. unfold add_rational.
    eapply ok_bind; [apply ok_mul; [exact X1|exact Y2]|]. cbv beta. intros h1 p1 E1 P1.
    eapply ok_bind; [apply ok_mul; [eapply is_ext; [exact E1|exact X2]|eapply is_ext; [exact E1|exact Y1]]|]. cbv beta. intros h2 p2 E2 P2.
    eapply ok_bind; [apply ok_add; [eapply is_ext; [exact E2|exact P1]|exact P2]|]. cbv beta. intros h3 n E3 P3.
    eapply ok_bind; [apply ok_mul; [eapply is_ext; [|exact X2]|eapply is_ext; [|exact Y2]]; eauto using ext_trans|]. cbv beta. intros h4 d E4 P4.
    apply ok_ret. split; cbn [fst snd radd]; [eapply is_ext; eauto|exact P4].
  Qed.
  Lemma ok_sum_loop : forall fuel vvs vs hv, Forall2 (RR hv) vvs vs -> (0 < length vvs <= S fuel)%nat -> ok hv (sum_loop fuel vvs) (fun hv' r => RR hv' r (rsum vs)).
  Proof.
    induction fuel as [|fuel IH]; intros vvs vs hv H L; cbn [sum_loop]; cbv zeta; unfold Rational in *; destruct (Nat.ltb_spec 1 (length vvs)) as [N|N]; try lia.
    1, 3: destruct H as [|x v l xs Hx Hl]; cbn [length] in *; [lia|]; destruct Hl; cbn [length] in N; [|lia]; apply ok_ret; cbn [rsum fold_right]; rewrite radd_0; exact Hx.
    pose proof (f2_len _ _ _ H) as Lv. pose proof (halves (0, 0)%nat vvs N) as HV. assert (N' : (1 < length vs)%nat) by lia. pose proof (halves (0, 0) vs N') as HX. rewrite <- Lv in HX.
    pose proof (Nat.div2_odd (length vvs)) as D. rewrite Nat.div2_div in D. set (h := (length vvs / 2)%nat) in *.
    assert (H1 : Forall2 (RR hv) (firstn h vvs) (firstn h vs)) by (apply f2_firstn; auto).
    assert (H2 : Forall2 (RR hv) (firstn h (skipn h vvs)) (firstn h (skipn h vs))) by (apply f2_firstn, f2_skipn; auto).
    fold h. eapply ok_bind.
    - eapply (ok_gmap _ (fun hv p q => RR hv (fst p) (fst q) /\ RR hv (snd p) (snd q)) RR (fun p => radd (fst p) (snd p))) with (xs := combine (firstn h vs) (firstn h (skipn h vs))).
      + intros h0 h1 a x X [A1 A2]. split; eapply RR_ext; eauto.
      + intros. eapply RR_ext; eauto.
      + intros h0 a x [A1 A2]. apply ok_add_rational; auto.
      + apply f2_combine; auto.
    - cbv beta. intros h1 ss X1 H3. set (os := if Nat.odd (length vvs) then [nth (length vvs - 1)%nat vs (0, 0)] else []).
      assert (L1 : length (firstn h vs) = length (firstn h (skipn h vs))). { rewrite !firstn_length, skipn_length. destruct (Nat.odd (length vvs)); cbn [Nat.b2n] in D; lia. }
      assert (L3 : length ss = h). { rewrite (f2_len _ _ _ H3), map_length, combine_length, <- L1, firstn_length. destruct (Nat.odd (length vvs)); cbn [Nat.b2n] in D; lia. }
      eapply ok_imp; [apply (IH _ (map (fun p => radd (fst p) (snd p)) (combine (firstn h vs) (firstn h (skipn h vs))) ++ os))|].
      + apply Forall2_app; [exact H3|]. unfold os. destruct (Nat.odd (length vvs)); constructor; auto. eapply RR_ext; [exact X1|]. apply f2_nth; auto. lia.
      + rewrite app_length, L3. unfold Rational in *. clear -D L N. clearbody h. destruct (Nat.odd (length vvs)); cbn [Nat.b2n length] in *; lia.
      + cbv beta. intros h2 r X2 HR. rewrite rsum_app, rsum_pairs in HR by exact L1. rewrite HX, !rsum_app, radd_assoc. exact HR.
  Qed.
  Lemma ok_sum hv vvs vs : Forall2 (RR hv) vvs vs -> ok hv (sum_rational_vec vvs) (fun hv' r => RR hv' r (rsum vs)).
  Proof.
    intros H. unfold sum_rational_vec. destruct vvs as [|x vvs].
    - inversion H; subst. eapply ok_bind; [apply ok_const|]. cbv beta. intros h1 n X1 H1. eapply ok_bind; [apply ok_const|]. cbv beta. intros h2 d X2 H2. apply ok_ret. split; cbn [fst snd rsum fold_right].
      + eapply is_ext; [exact X2|]. rewrite ofZ_0 in H1. exact H1.
      + rewrite ofZ_1 in H2. exact H2.
    - apply ok_sum_loop; auto. unfold Rational in *. cbn [length]. lia.
  Qed.
  Lemma ok_poly hv vals counts x vs cs alpha : iss hv vals vs -> iss hv counts cs -> is hv x alpha ->
    ok hv (logup_poly_val vals counts x) (fun hv' r => RR hv' r (num alpha (combine cs vs), den alpha (combine cs vs))).
  Proof.
    intros H1 H2 H3. unfold logup_poly_val. eapply ok_bind.
    - eapply (ok_gmap _ (fun hv p q => (is hv (fst p) (fst q) /\ is hv (snd p) (snd q)) /\ is hv x alpha) RR (fun q => (snd q, alpha - fst q))) with (xs := combine vs cs).
      + intros h0 h1 a y X [[A1 A2] A3]. repeat split; eapply is_ext; eauto.
      + intros. eapply RR_ext; eauto.
      + intros h0 a y [[A1 A2] A3]. eapply ok_bind; [apply ok_sub; [exact A3|exact A1]|]. cbv beta. intros h1 d X1 D. apply ok_ret. split; cbn [fst snd]; auto. eapply is_ext; eauto.
      + pose proof (f2_combine (is hv) (is hv) _ _ _ _ H1 H2) as C. clear -C H3. induction C; constructor; auto.
    - cbv beta. intros h1 ts X1 T. eapply ok_imp; [apply ok_sum; exact T|]. cbv beta. intros h2 r X2 R.
      replace (map (fun q => (snd q, alpha - fst q)) (combine vs cs)) with (map (frac alpha) (combine cs vs)) in R. rewrite rsum_num in R. exact R.
      clear. revert cs. induction vs as [|v vs IH]; intros [|c cs]; cbn [combine map]; auto. rewrite IH. reflexivity.
  Qed.
  (* rows *)
  Definition rows (hv : list F) (xs : list (list nat)) (vs : list (list F)) : Prop := Forall2 (iss hv) xs vs.
  Lemma rows_ext hv hv' xs vs : ext hv hv' -> rows hv xs vs -> rows hv' xs vs.
  Proof. apply (f2_ext (fun hv => iss hv)). intros. eapply iss_ext; eauto. Qed.
  Lemma comb_fold l : forall acc, fold_left (fun (acc : F) p => acc + fst p * snd p) l acc = acc + fsum F (map (fun p => fst p * snd p) l).
  Proof. induction l as [|p l IH]; intros acc; cbn [fold_left map fsum fold_right]; [ring|]. rewrite IH. unfold fsum. ring. Qed.
  Lemma ok_row hv row cs vs rs : iss hv row vs -> iss hv cs (1 :: rs) ->
    ok hv (z <-- a_const 0;; gfold (fun acc p => prod <-- a_mul (fst p) (snd p);; a_add acc prod) (combine row cs) z) (fun hv' x => is hv' x (comb rs vs)).
  Proof.
    intros H1 H2. eapply ok_bind; [apply ok_const|]. cbv beta. intros h1 z X1 Hz. rewrite ofZ_0 in Hz. eapply ok_imp.
    - eapply (ok_gfold _ (fun hv p q => is hv (fst p) (fst q) /\ is hv (snd p) (snd q)) (fun hv x v => is hv x v) (fun acc p => acc + fst p * snd p)) with (xs := combine vs (1 :: rs)) (y := 0).
      + intros h2 h3 a x X [A1 A2]. split; eapply is_ext; eauto.
      + intros h2 s y a x S [A1 A2]. eapply ok_bind; [apply ok_mul; [exact A1|exact A2]|]. cbv beta. intros h3 m X3 M. apply ok_add; auto. eapply is_ext; eauto.
      + apply f2_combine; [eapply iss_ext; eauto|eapply iss_ext; eauto].
      + exact Hz.
    - cbv beta. intros h2 x X2 H. rewrite comb_fold in H. unfold comb. replace (0 + fsum F (map (fun p => fst p * snd p) (combine vs (1 :: rs)))) with (fsum F (map (fun p => fst p * snd p) (combine vs (1 :: rs)))) in H by ring. exact H.
  Qed.
  Lemma ok_combine hv vec cs vss rs : rows hv vec vss -> iss hv cs (1 :: rs) -> Forall (fun v => length v = S (length rs)) vss ->
    ok hv (combine_columns vec cs) (fun hv' xs => iss hv' xs (map (comb rs) vss)).
  Proof.
    intros H1 H2 L. unfold combine_columns. destruct vec as [|row0 vec]; [inversion H1; subst; apply ok_ret; constructor|].
    assert (E0 : length cs = length row0). { inversion H1 as [|x y l l' Hx Hl]; subst. inversion L; subst. rewrite (f2_len _ _ _ Hx), (f2_len _ _ _ H2). cbn [length]. auto. }
    apply Nat.eqb_eq in E0. rewrite E0.
    eapply (ok_gmap _ (fun hv r v => iss hv r v /\ iss hv cs (1 :: rs)) (fun hv x v => is hv x v) (comb rs)).
    - intros h0 h1 a x X [A1 A2]. split; eapply iss_ext; eauto.
    - intros. eapply is_ext; eauto.
    - intros h0 a x [A1 A2]. apply ok_row; auto.
    - clear -H1 H2. induction H1; constructor; auto.
  Qed.
  (* the check *)
  Variable fns : nat -> nat -> nat -> Prog F.
  Variable E : Env F.
  Lemma iss_repeat (hv : list F) x v n : is hv x v -> iss hv (repeat x n) (repeat v n).
  Proof. intros H. induction n; cbn; constructor; auto. Qed.
  Lemma ones_combine (qs : list F) : combine (repeat 1 (length qs)) qs = ones qs.
  Proof. induction qs as [|q qs IH]; cbn; auto. rewrite IH. reflexivity. Qed.
  Lemma cr_assert_rational hv x y u v : RR hv x u -> RR hv y v ->
    cr fns E hv (assert_eq_rational x y) unit (fun _ => True) (fun _ _ _ b => b = (fst u * snd v =? snd u * fst v)).
  Proof.
    intros [A1 A2] [B1 B2]. unfold assert_eq_rational. eapply cr_ok; [apply ok_mul; [exact A1|exact B2]|]. cbv beta. intros h1 p1 X1 P1.
    eapply cr_ok; [apply ok_mul; [eapply is_ext; [exact X1|exact A2]|eapply is_ext; [exact X1|exact B1]]|]. cbv beta. intros h2 p2 X2 P2.
    eapply cr_imp; [apply cr_assert_eq; [eapply is_ext; [exact X2|exact P1]|exact P2]|]. cbv beta. tauto.
  Qed.
  (* the end of all the checks: the queries' side *)
  Lemma cr_tail hv T v_table queries alpha qs x : RR hv v_table (num alpha T, den alpha T) -> iss hv queries qs -> is hv x alpha ->
    cr fns E hv (one <-- a_const 1;; v_query <-- logup_poly_val queries (repeat one (length queries)) x;; assert_eq_rational v_table v_query)
      unit (fun _ => True) (fun _ _ _ b => b = balanced alpha T qs).
  Proof.
    intros HT HQ HX. eapply cr_ok; [apply ok_const|]. cbv beta. intros h1 one X1 O. rewrite ofZ_1 in O.
    eapply cr_ok.
    { eapply ok_poly; [eapply iss_ext; [exact X1|exact HQ]|apply iss_repeat; exact O|eapply is_ext; [exact X1|exact HX]]. }
    cbv beta. intros h2 vq X2 H2. rewrite (f2_len _ _ _ HQ), ones_combine in H2. eapply cr_imp; [apply cr_assert_rational; [eapply RR_ext; [exact X2|eapply RR_ext; [exact X1|exact HT]]|exact H2]|].
    cbv beta. intros _ h3 a b X3 ->. reflexivity.
  Qed.
  Lemma cr_cols hv n : cr fns E hv (get_column_randomness n) (list F) (fun rs => length rs = (n - 1)%nat /\ Forall (e_rnd E) rs) (fun rs h a b => iss h a (1 :: rs) /\ b = true).
  Proof.
    unfold get_column_randomness. eapply cr_ok; [apply ok_const|]. cbv beta. intros h1 one X1 O. rewrite ofZ_1 in O.
    destruct (cr_randoms fns E (seq 1 (n - 1)%nat) h1) as [M1 M2]. rewrite seq_length in *. split.
    - intros hv' c b R. apply runs_bind in R. destruct R as (h & a & b1 & b2 & R1 & R2 & ->). apply runs_ret in R2. destruct R2 as (-> & -> & ->).
      destruct (M1 _ _ _ R1) as (rs & Pr & I & ->). exists rs. split; auto. split; auto. constructor; auto. eapply is_ext; [|exact O]. eapply runs_ext; eauto.
    - intros rs Pr. destruct (M2 _ Pr) as (h & a & b & R & I & ->). exists h, (one :: a), true. split; [apply runs_bind; exists h, a, true, true; split; [exact R|split; [apply runs_ret; auto|auto]]|].
      split; auto. constructor; auto. eapply is_ext; [|exact O]. eapply runs_ext; eauto.
  Qed.
End Sums.
