(* Model of expander_compiler/src/utils/union_find.rs *)
From Verif Require Import Prelude.

(* union_find.rs:6-9 *)
Definition uf_new (n : nat) : list nat := seq 0 n.
(* union_find.rs:11-17: path halving; None = index out of range, or fuel exhausted (proved impossible) *)
Fixpoint uf_find_loop (fuel : nat) (par : list nat) (x : nat) : option (nat * list nat) :=
  match fuel with
  | 0 => None
  | S fuel =>
      let* px := nth_error par x in
      if px =? x then Some (x, par)
      else let* gp := nth_error par px in
           uf_find_loop fuel (upd par x gp) gp
  end.
Definition uf_find (par : list nat) (x : nat) : option (nat * list nat) := uf_find_loop (S (length par)) par x.
(* union_find.rs:19-23 *)
Definition uf_union (par : list nat) (x y : nat) : option (list nat) :=
  let* (rx, par) := uf_find par x in
  let* (ry, par) := uf_find par y in
  vset par rx ry.

(* histories *)
Inductive ufop := OFind (x : nat) | OUnion (x y : nat).
Fixpoint uf_run (par : list nat) (ops : list ufop) : option (list nat) :=
  match ops with
  | [] => Some par
  | OFind x :: ops => let* (_, par) := uf_find par x in uf_run par ops
  | OUnion x y :: ops => let* par := uf_union par x y in uf_run par ops
  end.
Definition op_in_range (n : nat) (o : ufop) : Prop :=
  match o with OFind x => x < n | OUnion x y => x < n /\ y < n end.

(* specification: the equivalence generated by the requested unions *)
Inductive conn (ops : list ufop) : nat -> nat -> Prop :=
| CU x y : In (OUnion x y) ops -> conn ops x y
| CRefl x : conn ops x x
| CSym x y : conn ops x y -> conn ops y x
| CTrans x y z : conn ops x y -> conn ops y z -> conn ops x z.

(* ---------------- proofs ---------------- *)
(* steps par x k r : following k parent links from x reaches the root r *)
Inductive steps (par : list nat) : nat -> nat -> nat -> Prop :=
| St0 r : nth_error par r = Some r -> steps par r 0 r
| StS x y k r : nth_error par x = Some y -> x <> y -> steps par y k r -> steps par x (S k) r.

Lemma steps_det par x k r : steps par x k r -> forall k' r', steps par x k' r' -> k = k' /\ r = r'.
Proof.
  induction 1; intros k' r' H'; inversion H'; subst; auto; try congruence.
  assert (y = y0) by congruence. subst. destruct (IHsteps _ _ H4); auto.
Qed.
Lemma steps_root par x k r : steps par x k r -> nth_error par r = Some r.
Proof. induction 1; auto. Qed.

(* the path is duplicate-free, hence shorter than the array *)
Inductive path (par : list nat) : nat -> list nat -> Prop :=
| P0 r : nth_error par r = Some r -> path par r [r]
| PS x y l : nth_error par x = Some y -> x <> y -> path par y l -> path par x (x :: l).
Lemma steps_path par x k r : steps par x k r -> exists l, path par x l /\ length l = S k.
Proof. induction 1. exists [r]; split; auto; constructor; auto. destruct IHsteps as [l [H1' H2]]. exists (x :: l); split; cbn; auto. econstructor; eauto. Qed.
Lemma path_steps par x l : path par x l -> forall z, In z l -> exists k r, steps par z k r /\ k < length l.
Proof.
  induction 1; intros z Hz.
  - destruct Hz as [<-|[]]. exists 0, r; split; cbn; auto. constructor; auto.
  - destruct Hz as [<-|Hz].
    + assert (Hy : In y l) by (inversion H1; subst; left; auto).
      destruct (IHpath y Hy) as [k [r [Hs Hk]]]. exists (S k), r; split; cbn; [econstructor; eauto|lia].
    + destruct (IHpath z Hz) as [k [r [Hs Hk]]]. exists k, r; cbn; split; auto.
Qed.
Lemma path_exact par x l : path par x l -> exists r, steps par x (length l - 1) r.
Proof.
  induction 1. exists r; cbn; constructor; auto.
  destruct IHpath as [r Hr]. exists r. cbn [length]. assert (0 < length l) by (inversion H1; cbn; lia).
  replace (S (length l) - 1) with (S (length l - 1)) by lia. econstructor; eauto.
Qed.
Lemma path_nodup par x l : path par x l -> NoDup l.
Proof.
  induction 1. repeat constructor; auto.
  constructor; auto. intros Hin. destruct (path_steps _ _ _ H1 x Hin) as [k [r [Hs Hk]]].
  destruct (path_exact _ _ _ H1) as [r2 H2].
  assert (Hx : steps par x (S (length l - 1)) r2) by (econstructor; eauto).
  destruct (steps_det _ _ _ _ Hs _ _ Hx). lia.
Qed.
Lemma steps_lt par x k r : steps par x k r -> k < length par.
Proof.
  intros H. destruct (steps_path _ _ _ _ H) as [l [Hp Hl]].
  assert (Hincl : incl l (seq 0 (length par))).
  { intros z Hz. destruct (path_steps _ _ _ Hp z Hz) as [k2 [r2 [Hs _]]]. apply in_seq.
    assert (z < length par) by (inversion Hs; subst; eapply nth_error_Some_lt; eauto). lia. }
  pose proof (NoDup_incl_length (path_nodup _ _ _ Hp) Hincl) as Hle. rewrite seq_length in Hle. lia.
Qed.

Definition uf_inv (n : nat) (par : list nat) : Prop :=
  length par = n /\ forall x, x < n -> exists k r, steps par x k r.
Definition same_roots (p1 p2 : list nat) : Prop :=
  length p1 = length p2 /\ forall x r, (exists k, steps p1 x k r) <-> (exists k, steps p2 x k r).

Lemma halve_steps par x px gp : nth_error par x = Some px -> px <> x -> nth_error par px = Some gp ->
  forall z k r, steps par z k r -> exists k', k' <= k /\ steps (upd par x gp) z k' r.
Proof.
  intros Hx Hne Hp z k r H. revert z H. induction k as [k IH] using lt_wf_ind. intros z H.
  assert (Hxl : x < length par) by (eapply nth_error_Some_lt; eauto).
  inversion H; subst.
  - exists 0; split; auto. constructor. rewrite nth_error_upd_ne; auto. congruence.
  - destruct (Nat.eq_dec z x) as [->|Hzx].
    + assert (y = px) by congruence; subst y. inversion H2; subst.
      * assert (gp = r) by congruence. subst gp.
        exists 1; split; [lia|]. apply StS with r.
        -- apply nth_error_upd_eq; auto.
        -- congruence.
        -- constructor. rewrite nth_error_upd_ne; auto.
      * assert (y = gp) by congruence; subst y.
        destruct (IH k ltac:(lia) gp H5) as [k' [Hk' Hs']].
        exists (S k'); split; [lia|]. apply StS with gp; auto.
        -- apply nth_error_upd_eq; auto.
        -- intros E. subst gp. destruct (steps_det _ _ _ _ H5 _ _ H). lia.
    + destruct (IH k0 ltac:(lia) y H2) as [k' [Hk' Hs']].
      exists (S k'); split; [lia|]. apply StS with y; auto. rewrite nth_error_upd_ne; auto.
Qed.
Lemma same_roots_trans a b c : same_roots a b -> same_roots b c -> same_roots a c.
Proof. intros [H1 H2] [H3 H4]; split; [congruence|]. intros x r. rewrite H2; auto. Qed.
Lemma same_roots_refl a : same_roots a a.
Proof. split; auto. intros; tauto. Qed.
Lemma halve_same n par x px gp : uf_inv n par -> nth_error par x = Some px -> px <> x ->
  nth_error par px = Some gp -> uf_inv n (upd par x gp) /\ same_roots par (upd par x gp).
Proof.
  intros [Hl Hi] Hx Hne Hp. split; split; rewrite ?upd_length; auto.
  - intros z Hz. destruct (Hi z Hz) as [k [r Hs]]. destruct (halve_steps _ _ _ _ Hx Hne Hp _ _ _ Hs) as [k' [_ Hs']]; eauto.
  - intros z r; split; intros [k Hs].
    + destruct (halve_steps _ _ _ _ Hx Hne Hp _ _ _ Hs) as [k' [_ Hs']]; eauto.
    + assert (z < n). { rewrite <- Hl, <- (upd_length par x gp). inversion Hs; subst; eapply nth_error_Some_lt; eauto. }
      destruct (Hi z H) as [k2 [r2 Hs2]]. destruct (halve_steps _ _ _ _ Hx Hne Hp _ _ _ Hs2) as [k' [_ Hs']].
      destruct (steps_det _ _ _ _ Hs _ _ Hs'); subst; eauto.
Qed.

Lemma find_loop_spec n fuel : forall par x k r, uf_inv n par -> steps par x k r -> k < fuel ->
  exists par', uf_find_loop fuel par x = Some (r, par') /\ uf_inv n par' /\ same_roots par par'.
Proof.
  induction fuel as [|fuel IH]; intros par x k r Hi Hs Hk; [lia|]. cbn [uf_find_loop].
  inversion Hs; subst.
  - rewrite H. cbn. rewrite Nat.eqb_refl. exists par; repeat split; auto; destruct Hi; auto.
  - rewrite H. cbn [obind]. destruct (Nat.eqb_spec y x); [congruence|].
    assert (exists gp, nth_error par y = Some gp) as [gp Hgp] by (inversion H1; subst; eauto).
    rewrite Hgp. cbn [obind].
    destruct (halve_same n par x y gp Hi H n0 Hgp) as [Hi' Hsr].
    assert (Hsg : exists k', k' <= k0 /\ steps (upd par x gp) gp k' r).
    { inversion H1; subst.
      - assert (gp = r) by congruence; subst. apply (halve_steps _ _ _ _ H n0 Hgp). auto.
      - assert (y0 = gp) by congruence; subst. destruct (halve_steps _ _ _ _ H n0 Hgp _ _ _ H4) as [k' [? ?]]. exists k'; split; auto; lia. }
    destruct Hsg as [k' [Hk' Hsg]].
    destruct (IH _ _ _ _ Hi' Hsg ltac:(lia)) as [par' [G1 [G2 G3]]].
    exists par'; repeat split; auto. apply G2. apply G2. 1: apply (same_roots_trans _ _ _ Hsr G3).
    all: intros; apply (same_roots_trans _ _ _ Hsr G3); auto.
Qed.
Lemma find_spec n par x : uf_inv n par -> x < n ->
  exists r k par', uf_find par x = Some (r, par') /\ steps par x k r /\ uf_inv n par' /\ same_roots par par'.
Proof.
  intros Hi Hx. destruct (proj2 Hi x Hx) as [k [r Hs]].
  pose proof (steps_lt _ _ _ _ Hs).
  destruct (find_loop_spec n (S (length par)) par x k r Hi Hs ltac:(lia)) as [par' [G1 [G2 G3]]].
  exists r, k, par'. repeat split; auto; try apply G2; try apply G3.
Qed.

Lemma link_steps par rx ry : nth_error par rx = Some rx -> nth_error par ry = Some ry ->
  forall z k r, steps par z k r -> exists k', steps (upd par rx ry) z k' (if r =? rx then ry else r).
Proof.
  intros Hx Hy z k r H. assert (Hxl : rx < length par) by (eapply nth_error_Some_lt; eauto).
  induction H.
  - destruct (Nat.eqb_spec r rx) as [->|Hne].
    + destruct (Nat.eq_dec rx ry) as [<-|Hne].
      * exists 0. constructor. rewrite nth_error_upd_eq; auto.
      * exists 1. apply StS with ry; auto. apply nth_error_upd_eq; auto.
        constructor. rewrite nth_error_upd_ne; auto.
    + exists 0. constructor. rewrite nth_error_upd_ne; auto.
  - destruct IHsteps as [k' Hs']. exists (S k'). apply StS with y; auto.
    rewrite nth_error_upd_ne; auto. intros ->. congruence.
Qed.

(* the partition *)
Definition same_class (par : list nat) (x y : nat) : Prop := exists r k k', steps par x k r /\ steps par y k' r.
Definition repr (n : nat) (ops : list ufop) (par : list nat) : Prop :=
  uf_inv n par /\ forall x y, x < n -> y < n -> (same_class par x y <-> conn ops x y).

Lemma conn_mono ops ops' x y : incl ops ops' -> conn ops x y -> conn ops' x y.
Proof. intros Hi H; induction H; eauto using conn. Qed.
Lemma conn_range n ops : Forall (op_in_range n) ops -> forall x y, conn ops x y -> x = y \/ (x < n /\ y < n).
Proof.
  intros Hf x y H; induction H; try (intuition; subst; auto; fail).
  - rewrite Forall_forall in Hf. specialize (Hf _ H). cbn in Hf. auto.
Qed.
Lemma conn_find ops x y z : conn (ops ++ [OFind z]) x y <-> conn ops x y.
Proof.
  split; [|apply conn_mono; intros a Ha; apply in_or_app; auto].
  intros H; induction H; eauto using conn. apply in_app_or in H. destruct H as [H|[H|[]]]; [constructor; auto|discriminate].
Qed.

Lemma same_roots_class a b x y : same_roots a b -> (same_class a x y <-> same_class b x y).
Proof.
  intros [_ H]. unfold same_class. split; intros [r [k [k' [H1 H2]]]].
  - destruct (proj1 (H x r)) as [j Hj]; eauto. destruct (proj1 (H y r)) as [j' Hj']; eauto. 
  - destruct (proj2 (H x r)) as [j Hj]; eauto. destruct (proj2 (H y r)) as [j' Hj']; eauto.
Qed.

Lemma uf_run_spec n ops : forall done par, Forall (op_in_range n) (done ++ ops) -> repr n done par ->
  exists par', uf_run par ops = Some par' /\ repr n (done ++ ops) par'.
Proof.
  induction ops as [|o ops IH]; intros done par Hf Hr.
  - rewrite app_nil_r. exists par; auto.
  - assert (Hd : Forall (op_in_range n) done /\ op_in_range n o).
    { apply Forall_app in Hf. destruct Hf as [H1 H2]. inversion H2; auto. }
    destruct Hd as [Hd Ho].
    replace (done ++ o :: ops) with ((done ++ [o]) ++ ops) in * by (rewrite <- app_assoc; auto).
    destruct o as [x|x y]; cbn [uf_run]; cbn [op_in_range] in Ho.
    + destruct Hr as [Hi Hc]. destruct (find_spec n par x Hi Ho) as [r [k [par' [H1 [H2 [H3 H4]]]]]].
      rewrite H1. cbn [obind]. apply IH; auto. split; auto. intros a b Ha Hb.
      rewrite conn_find, <- Hc by auto. symmetry. apply same_roots_class; auto.
    + destruct Hr as [Hi Hc]. destruct Ho as [Hx Hy].
      destruct (find_spec n par x Hi Hx) as [rx [k [par1 [H1 [H2 [H3 H4]]]]]].
      destruct (find_spec n par1 y H3 Hy) as [ry [k' [par2 [G1 [G2 [G3 G4]]]]]].
      unfold uf_union. rewrite H1. cbn [obind]. rewrite G1. cbn [obind].
      assert (HS : same_roots par par2) by (eapply same_roots_trans; eauto).
      destruct HS as [HSl HS].
      destruct (proj1 (HS x rx)) as [kx Kx]; eauto.
      assert (Ky : exists ky, steps par2 y ky ry) by (apply G4; eauto). destruct Ky as [ky Ky].
      pose proof (steps_root _ _ _ _ Kx) as Rx. pose proof (steps_root _ _ _ _ Ky) as Ry.
      unfold vset. pose proof (nth_error_Some_lt _ _ _ Rx) as Lx. destruct (Nat.ltb_spec rx (length par2)); [|lia].
      cbn [obind]. apply IH; auto.
      assert (Hlink := link_steps par2 rx ry Rx Ry).
      destruct G3 as [Gl Gi].
      assert (Hinv : uf_inv n (upd par2 rx ry)).
      { split; [rewrite upd_length; auto|]. intros z Hz. destruct (Gi z Hz) as [kz [rz Kz]].
        destruct (Hlink _ _ _ Kz) as [k2 K2]; eauto. }
      split; auto.
      assert (Hc2 : forall a b, a < n -> b < n -> same_class par2 a b <-> conn done a b).
      { intros a b Ha Hb. rewrite <- Hc by auto. symmetry. apply same_roots_class. split; auto. }
      assert (Hsub : forall a b, conn done a b -> conn (done ++ [OUnion x y]) a b)
        by (intros a b; apply conn_mono; intros z Hz; apply in_or_app; auto).
      assert (Hxy : conn (done ++ [OUnion x y]) x y) by (apply CU; apply in_or_app; right; left; auto).
      assert (Hcls : forall a ra ka, a < n -> steps par2 a ka ra -> ra = rx -> conn done a x).
      { intros a ra ka Ha Ka ->. apply Hc2; auto. exists rx, ka, kx; auto. }
      assert (Hcls2 : forall a ra ka, a < n -> steps par2 a ka ra -> ra = ry -> conn done a y).
      { intros a ra ka Ha Ka ->. apply Hc2; auto. exists ry, ka, ky; auto. }
      intros a b Ha Hb. destruct (Gi a Ha) as [ka [ra Ka]]. destruct (Gi b Hb) as [kb [rb Kb]].
      destruct (Hlink _ _ _ Ka) as [ka' Ka']. destruct (Hlink _ _ _ Kb) as [kb' Kb'].
      split.
      * intros [r [k1 [k2 [S1 S2]]]].
        destruct (steps_det _ _ _ _ S1 _ _ Ka') as [_ E1]. destruct (steps_det _ _ _ _ S2 _ _ Kb') as [_ E2].
        rewrite E1 in E2.
        destruct (Nat.eqb_spec ra rx), (Nat.eqb_spec rb rx).
        -- apply CTrans with x. apply Hsub; eauto. apply CSym, Hsub; eauto.
        -- apply CTrans with x. apply Hsub; eauto. apply CTrans with y; auto. apply CSym, Hsub; eauto.
        -- apply CTrans with y. apply Hsub; eauto. apply CTrans with x; [apply CSym; auto|]. apply CSym, Hsub; eauto.
        -- subst. apply Hsub. apply Hc2; auto. exists rb, ka, kb; auto.
      * intros Hcon. clear ka ra Ka kb rb Kb ka' Ka' kb' Kb'. revert Ha Hb. induction Hcon; intros Ha Hb.
        -- apply in_app_or in H0. destruct H0 as [H0|[H0|[]]].
           ++ assert (HH : same_class par2 x0 y0) by (apply Hc2; auto; apply CU; auto).
              destruct HH as [r [k1 [k2 [S1 S2]]]].
              destruct (Hlink _ _ _ S1) as [? ?]. destruct (Hlink _ _ _ S2) as [? ?].
              eexists; eauto.
           ++ inversion H0; subst. destruct (Hlink _ _ _ Kx) as [j1 J1]. destruct (Hlink _ _ _ Ky) as [j2 J2].
              rewrite Nat.eqb_refl in J1. exists ry, j1, j2; split; auto.
              destruct (ry =? rx) eqn:E; auto.
        -- destruct Hinv as [_ Hinv]. destruct (Hinv x0 Ha) as [k1 [r1 S1]]. exists r1, k1, k1; auto.
        -- destruct (IHHcon Hb Ha) as [r [k1 [k2 [S1 S2]]]]. exists r, k2, k1; auto.
        -- assert (Hy0 : y0 < n).
           { destruct (conn_range n (done ++ [OUnion x y])) with (x:=x0) (y:=y0); auto.
             apply Forall_app; split; auto. repeat constructor; auto. congruence. tauto. }
           destruct (IHHcon1 Ha Hy0) as [r [k1 [k2 [S1 S2]]]].
           destruct (IHHcon2 Hy0 Hb) as [r' [k3 [k4 [S3 S4]]]].
           destruct (steps_det _ _ _ _ S2 _ _ S3); subst. exists r', k1, k4; auto.
Qed.

Lemma repr_new n : repr n [] (uf_new n).
Proof.
  assert (Hs : forall x, x < n -> steps (uf_new n) x 0 x).
  { intros x Hx. constructor. unfold uf_new. rewrite nth_error_seq by auto. auto. }
  split; [split|].
  - apply seq_length.
  - intros x Hx; eauto.
  - intros x y Hx Hy. split.
    + intros [r [k [k' [S1 S2]]]]. destruct (steps_det _ _ _ _ (Hs x Hx) _ _ S1) as [_ E1].
      destruct (steps_det _ _ _ _ (Hs y Hy) _ _ S2) as [_ E2]. rewrite E1, E2. apply CRefl.
    + intros H. assert (x = y) by (clear -H; induction H; [contradiction|auto|auto|congruence]). subst.
      exists y, 0, 0; auto.
Qed.

Lemma uf_correct n ops : Forall (op_in_range n) ops ->
  exists par, uf_run (uf_new n) ops = Some par /\
    forall x y, x < n -> y < n -> exists rx px ry py,
      uf_find par x = Some (rx, px) /\ uf_find par y = Some (ry, py) /\ (rx = ry <-> conn ops x y).
Proof.
  intros Hf. destruct (uf_run_spec n ops [] (uf_new n) Hf (repr_new n)) as [par [H1 [Hi Hc]]].
  exists par; split; auto. intros x y Hx Hy.
  destruct (find_spec n par x Hi Hx) as [rx [k [px [A1 [A2 _]]]]].
  destruct (find_spec n par y Hi Hy) as [ry [k' [py [B1 [B2 _]]]]].
  exists rx, px, ry, py. repeat split; auto.
  - intros ->. apply Hc; auto. exists ry, k, k'; auto.
  - intros H. apply Hc in H; auto. destruct H as [r [k1 [k2 [S1 S2]]]].
    destruct (steps_det _ _ _ _ A2 _ _ S1). destruct (steps_det _ _ _ _ B2 _ _ S2). congruence.
Qed.
