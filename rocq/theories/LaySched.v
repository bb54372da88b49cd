(* The layers computed for a circuit keep the promises of [ctx_ok]. *)
From Verif Require Import Prelude Field Zp Sorting Expr Topo Ir IrInst InputMapping Layered IrFacts Sim Layering LaySem.
Open Scope nat_scope.

Lemma omap_at {A B} (f : A -> option B) l r k x : omap f l = Some r -> nth_error l k = Some x -> exists y, nth_error r k = Some y /\ f x = Some y.
Proof. intros H Hx. apply omap_some in H. apply (Forall2_nth_error _ _ _ H) in Hx. auto. Qed.

Lemma Some_inj {A} (a b : A) : Some a = Some b -> a = b.
Proof. congruence. Qed.
Lemma combine_at {A B} (l : list A) (r : list B) k a b : nth_error l k = Some a -> nth_error r k = Some b -> nth_error (combine l r) k = Some (a, b).
Proof. revert r k. induction l as [|x l IH]; intros [|y r] [|k] Ha Hb; cbn in *; try discriminate; [congruence|auto]. Qed.

(* ------------------------------------------------------------ longest paths *)
Lemma outs_of_In edges x y : In y (outs_of edges x) <-> In (x, y) edges.
Proof.
  unfold outs_of. rewrite in_map_iff. split.
  - intros [[a b] [<- H]]. apply filter_In in H. destruct H as [H1 H2]. apply Nat.eqb_eq in H2. cbn in *. subst. auto.
  - intros H. exists (x, y). split; auto. apply filter_In. split; auto. cbn. apply Nat.eqb_refl.
Qed.
Lemma getn_upd l i v j : i < length l -> getn (upd l i v) j = if i =? j then v else getn l j.
Proof. intros H. unfold getn. rewrite nth_upd. destruct (Nat.eqb_spec i j) as [->|]; cbn [andb]; auto. replace (j <? length l) with true by (symmetry; apply Nat.ltb_lt; auto). auto. Qed.
Lemma getn_upd_any l i v j : getn (upd l i v) j = if (i =? j) && (j <? length l) then v else getn l j.
Proof. unfold getn. rewrite nth_upd. destruct (Nat.eqb_spec i j) as [->|]; auto. Qed.
Section Relax.
  Variable edges : list (nat * nat).
  Variable adv : list nat.
  Notation step x := (fun ml y => upd ml y (Nat.max (getn ml y) (getn ml x + getn adv y))).
  Lemma fold_step x O : forall ml, ~ In x O ->
    length (fold_left (step x) O ml) = length ml /\
    getn (fold_left (step x) O ml) x = getn ml x /\
    (forall y, getn ml y <= getn (fold_left (step x) O ml) y) /\
    (forall y, ~ In y O -> getn (fold_left (step x) O ml) y = getn ml y) /\
    (forall y, In y O -> y < length ml -> getn (fold_left (step x) O ml) y = Nat.max (getn ml y) (getn ml x + getn adv y)).
  Proof.
    induction O as [|z O IH]; intros ml Hx; cbn [fold_left].
    - repeat split; auto. intros y [].
    - assert (Hz : z <> x) by (intros ->; apply Hx; left; auto). assert (HxO : ~ In x O) by (intros H; apply Hx; right; auto).
      set (ml1 := upd ml z (Nat.max (getn ml z) (getn ml x + getn adv z))). destruct (IH ml1 HxO) as [H1 [H2 [H3 [H4 H5]]]].
      assert (Hx1 : getn ml1 x = getn ml x) by (unfold ml1; rewrite getn_upd_any; destruct (Nat.eqb_spec z x); [contradiction|auto]).
      assert (Hl1 : length ml1 = length ml) by apply upd_length.
      split; [congruence|]. split; [congruence|]. split; [|split].
      + intros y. etransitivity; [|apply H3]. unfold ml1. rewrite getn_upd_any. destruct ((z =? y) && (y <? length ml)) eqn:Ez; auto. apply andb_true_iff in Ez. destruct Ez as [Ez _]. apply Nat.eqb_eq in Ez. subst. lia.
      + intros y Hy. rewrite H4 by (intros H; apply Hy; right; auto). unfold ml1. rewrite getn_upd_any. destruct (Nat.eqb_spec z y); auto. subst. exfalso. apply Hy. left; auto.
      + intros y Hy Hl. destruct (in_dec Nat.eq_dec y O) as [Hi|Hi].
        * rewrite H5 by (auto; lia). rewrite Hx1. unfold ml1. rewrite getn_upd_any. destruct (Nat.eqb_spec z y) as [->|]; cbn [andb]; auto. replace (y <? length ml) with true by (symmetry; apply Nat.ltb_lt; auto). lia.
        * destruct Hy as [->|Hy]; [|contradiction]. rewrite H4 by auto. unfold ml1. rewrite getn_upd by auto. rewrite Nat.eqb_refl. auto.
  Qed.
  (* without the assumption on x *)
  Lemma fold_any x O : forall ml, length (fold_left (step x) O ml) = length ml /\ (forall y, getn ml y <= getn (fold_left (step x) O ml) y) /\
    (forall y, ~ In y O -> getn (fold_left (step x) O ml) y = getn ml y).
  Proof.
    induction O as [|z O IH]; intros ml; cbn [fold_left]; auto. set (ml1 := upd ml z _). destruct (IH ml1) as [H1 [H2 H3]]. split; [rewrite H1; apply upd_length|]. split.
    - intros y. etransitivity; [|apply H2]. unfold ml1. rewrite getn_upd_any. destruct ((z =? y) && (y <? length ml)) eqn:Ez; auto. apply andb_true_iff in Ez. destruct Ez as [Ez _]. apply Nat.eqb_eq in Ez. subst. lia.
    - intros y Hy. rewrite H3 by (intros H; apply Hy; right; auto). unfold ml1. rewrite getn_upd_any. destruct (Nat.eqb_spec z y); auto. subst. exfalso. apply Hy. left; auto.
  Qed.
  Lemma relax_any l : forall ml, length (relax edges adv l ml) = length ml /\ (forall y, getn ml y <= getn (relax edges adv l ml) y) /\
    (forall y, (forall x, In x l -> ~ In (x, y) edges) -> getn (relax edges adv l ml) y = getn ml y).
  Proof.
    induction l as [|x l IH]; intros ml; auto. change (relax edges adv (x :: l) ml) with (relax edges adv l (relax1 edges adv ml x)).
    destruct (IH (relax1 edges adv ml x)) as [H1 [H2 H3]]. destruct (fold_any x (outs_of edges x) ml) as [G1 [G2 G3]]. fold (relax1 edges adv ml x) in *. split; [congruence|]. split.
    - intros y. etransitivity; eauto.
    - intros y Hy. rewrite H3 by (intros z Hz; apply Hy; right; auto). apply G3. rewrite outs_of_In. apply Hy. left; auto.
  Qed.
  Lemma relax_app l1 l2 ml : relax edges adv (l1 ++ l2) ml = relax edges adv l2 (relax edges adv l1 ml).
  Proof. apply fold_left_app. Qed.
  Lemma relax_split l1 x l2 ml : (forall z, In z (x :: l2) -> ~ In (z, x) edges) ->
    forall y, In (x, y) edges -> y < length ml ->
      let m := relax edges adv (l1 ++ x :: l2) ml in getn m x + getn adv y <= getn m y /\
      (~ In x l1 -> ~ In x l2 -> (forall z, In (z, y) edges -> z = x) -> getn m y = Nat.max (getn ml y) (getn m x + getn adv y)).
  Proof.
    intros Hx y Hy Hl. cbv zeta. rewrite relax_app. change (relax edges adv (x :: l2)) with (fun ml => relax edges adv l2 (relax1 edges adv ml x)). cbv beta.
    destruct (relax_any l1 ml) as [A1 [A2 A3]]. set (m1 := relax edges adv l1 ml) in *.
    assert (Hnx : ~ In x (outs_of edges x)) by (rewrite outs_of_In; apply Hx; left; auto).
    destruct (fold_step x (outs_of edges x) m1 Hnx) as [B1 [B2 [B3 [B4 B5]]]]. fold (relax1 edges adv m1 x) in *. set (m2 := relax1 edges adv m1 x) in *.
    destruct (relax_any l2 m2) as [C1 [C2 C3]]. set (m3 := relax edges adv l2 m2) in *.
    assert (Hm3x : getn m3 x = getn m1 x) by (rewrite C3; auto; intros z Hz; apply Hx; right; auto).
    assert (Hm2y : getn m2 y = Nat.max (getn m1 y) (getn m1 x + getn adv y)) by (apply B5; [apply outs_of_In; auto|lia]).
    split.
    - rewrite Hm3x. specialize (C2 y). lia.
    - intros H1 H2 H3. rewrite (C3 y), Hm3x, Hm2y; [f_equal; apply A3|]; intros z Hz He; apply H3 in He; subst; auto.
  Qed.
End Relax.
Lemma fold_max_ge l : forall a, a <= fold_left Nat.max l a.
Proof. induction l as [|x l IH]; intros a; cbn; auto. etransitivity; [|apply IH]. lia. Qed.
Lemma fold_max_in l : forall a x, In x l -> x <= fold_left Nat.max l a.
Proof. induction l as [|y l IH]; intros a x H; [destruct H|]. destruct H as [->|H]; cbn; auto. etransitivity; [|apply fold_max_ge]. lia. Qed.
Lemma maxl_in l x : In x l -> x <= maxl l.
Proof. apply fold_max_in. Qed.
Lemma fold_max_le l : forall a b, a <= b -> (forall x, In x l -> x <= b) -> fold_left Nat.max l a <= b.
Proof. induction l as [|y l IH]; intros a b Ha H; cbn; auto. apply IH; [|intros; apply H; right; auto]. specialize (H y (or_introl eq_refl)). lia. Qed.
Lemma fold_min_le l : forall a, fold_left Nat.min l a <= a.
Proof. induction l as [|x l IH]; intros a; cbn; auto. etransitivity; [apply IH|]. lia. Qed.
Lemma fold_min_in l : forall a x, In x l -> fold_left Nat.min l a <= x.
Proof. induction l as [|y l IH]; intros a x H; [destruct H|]. destruct H as [->|H]; cbn; auto. etransitivity; [apply fold_min_le|]. lia. Qed.
Lemma fold_min_ge l : forall a b, b <= a -> (forall x, In x l -> b <= x) -> b <= fold_left Nat.min l a.
Proof. induction l as [|y l IH]; intros a b Ha H; cbn; auto. apply IH; [|intros; apply H; right; auto]. specialize (H y (or_introl eq_refl)). lia. Qed.
Lemma getn_app1 l l' x : x < length l -> getn (l ++ l') x = getn l x.
Proof. intros H. unfold getn. apply app_nth1; auto. Qed.
Lemma getn_app2 l l' x : getn (l ++ l') (length l + x) = getn l' x.
Proof. unfold getn. rewrite app_nth2 by lia. f_equal. lia. Qed.
Lemma getn_nth l x v : nth_error l x = Some v -> getn l x = v.
Proof. intros H. unfold getn. apply nth_error_nth; auto. Qed.
Lemma getn_map_seq f n x : x < n -> getn (map f (seq 0 n)) x = f x.
Proof. intros H. apply getn_nth. rewrite nth_error_map, nth_error_seq by auto. auto. Qed.
Lemma getn_In l x : x < length l -> In (getn l x) l.
Proof. intros H. unfold getn. apply nth_In; auto. Qed.

(* ------------------------------------------------------------ sorted layers *)
Lemma dedup_In l x : In x (dedup l) <-> In x l.
Proof.
  induction l as [|y l IH]; [reflexivity|]. destruct l as [|z l]; [reflexivity|]. change (dedup (y :: z :: l)) with (if y =? z then dedup (z :: l) else y :: dedup (z :: l)).
  destruct (Nat.eqb_spec y z) as [->|]; [rewrite IH; cbn; tauto|]. cbn [In]. rewrite IH. cbn. tauto.
Qed.
Lemma dedup_sorted l : StronglySorted le l -> StronglySorted lt (dedup l).
Proof.
  induction l as [|y l IH]; intros H; [constructor|]. inversion H as [|? ? Hs Hf]; subst. destruct l as [|z l]; [constructor; constructor|].
  change (dedup (y :: z :: l)) with (if y =? z then dedup (z :: l) else y :: dedup (z :: l)). destruct (Nat.eqb_spec y z) as [->|Hne]; auto.
  constructor; auto. apply Forall_forall. intros x Hx. apply (proj1 (dedup_In _ _)) in Hx. inversion Hs as [|? ? _ Hfz]; subst. inversion Hf; subst.
  destruct Hx as [<-|Hx]; [lia|]. rewrite Forall_forall in Hfz. apply Hfz in Hx. lia.
Qed.
Lemma isort_le l : StronglySorted le (isort Nat.leb l).
Proof.
  assert (H : StronglySorted (fun a b => Nat.leb a b = true) (isort Nat.leb l)).
  { apply isort_sorted. - intros x y. rewrite Nat.leb_le. destruct (Nat.leb_spec x y), (Nat.leb_spec y x); auto; lia. - intros x y z. rewrite !Nat.leb_le. lia. }
  induction H; constructor; auto. eapply Forall_impl; [|eassumption]. intros x Hx. apply Nat.leb_le; auto.
Qed.

(* ------------------------------------------------------------ taking minima into a table *)
Lemma min_fold {A} (kf gf : A -> nat) (l : list A) : forall u, let r := fold_left (fun u p => upd u (kf p) (Nat.min (getn u (kf p)) (gf p))) l u in
  length r = length u /\ (forall i, getn r i <= getn u i) /\ forall p, In p l -> kf p < length u -> getn r (kf p) <= gf p.
Proof.
  induction l as [|a l IH]; intros u; cbn [fold_left]; [split; auto; split; auto; intros p []|]. set (u1 := upd u _ _). destruct (IH u1) as [H1 [H2 H3]]. assert (L1 : length u1 = length u) by apply upd_length.
  split; [congruence|]. split.
  - intros i. etransitivity; [apply H2|]. unfold u1. rewrite getn_upd_any. destruct (Nat.eqb_spec (kf a) i) as [->|]; cbn [andb]; auto. destruct (i <? length u); auto. lia.
  - intros p [->|Hp] Hl; [|apply H3; auto; lia]. etransitivity; [apply H2|]. unfold u1. rewrite getn_upd by auto. rewrite Nat.eqb_refl. lia.
Qed.
Lemma min_fold2 {A} (kf gf : A -> nat -> nat) (sf : A -> list nat) (l : list A) : forall u,
  let r := fold_left (fun u p => fold_left (fun u j => upd u (kf p j) (Nat.min (getn u (kf p j)) (gf p j))) (sf p) u) l u in
  length r = length u /\ (forall i, getn r i <= getn u i) /\ forall p j, In p l -> In j (sf p) -> kf p j < length u -> getn r (kf p j) <= gf p j.
Proof.
  induction l as [|a l IH]; intros u; cbn [fold_left]; [split; auto; split; auto; intros p j []|]. destruct (min_fold (kf a) (gf a) (sf a) u) as [G1 [G2 G3]]. set (u1 := fold_left _ (sf a) u) in *. destruct (IH u1) as [H1 [H2 H3]].
  split; [congruence|]. split; [intros i; etransitivity; eauto|]. intros p j [->|Hp] Hj Hl; [|apply H3; auto; lia]. etransitivity; [apply H2|]. auto.
Qed.

(* ------------------------------------------------------------ the dependency graph of a circuit *)
Section Graph.
  Context {F : Fld}.
  Notation DI := (DestI F true).
  Variable nv : nat.
  Fixpoint nodes_from (is : list (DInsn F)) (cur k : nat) : list (nat * list nat) :=
    match is with
    | [] => []
    | DVar e :: is => (cur, e_vars F e) :: nodes_from is (S cur) k
    | DConst _ :: is => nodes_from is (S cur) k
    | DCall _ l n :: is => (nv + k, l) :: map (fun y => (y, [nv + k])) (seq cur n) ++ nodes_from is (cur + n) (S k)
    end.
  Lemma nodes_q1 (is : list (DInsn F)) : forall cur k, q1_from nv is cur k = map fst (nodes_from is cur k).
  Proof.
    induction is as [|[e|id l n|c] is IH]; intros cur k; cbn [q1_from nodes_from map fst]; auto; [rewrite IH; auto|].
    rewrite map_app, map_map. cbn [fst]. rewrite map_id, IH. auto.
  Qed.
  Lemma nodes_edges (is : list (DInsn F)) x y : forall cur k, In (x, y) (edges_from nv is cur k) <-> exists ps, In (y, ps) (nodes_from is cur k) /\ In x ps.
  Proof.
    induction is as [|[e|id l n|c] is IH]; intros cur k; cbn [edges_from nodes_from].
    - split; [intros []|intros [ps [[] _]]].
    - rewrite in_app_iff, in_map_iff, IH. split.
      + intros [[z [H1 H2]]|[ps [H1 H2]]]; [injection H1 as -> ->; exists (e_vars F e); split; auto; left; auto|exists ps; split; auto; right; auto].
      + intros [ps [[H1|H1] H2]]; [injection H1 as -> <-; left; eauto|right; eauto].
    - rewrite !in_app_iff, !in_map_iff, IH. split.
      + intros [[z [H1 H2]]|[[z [H1 H2]]|[ps [H1 H2]]]].
        * injection H1 as -> ->. exists l. split; auto. left; auto.
        * injection H1 as <- ->. exists [nv + k]. split; [|left; auto]. right. apply in_app_iff. left. apply in_map_iff. eauto.
        * exists ps. split; auto. right. apply in_app_iff. auto.
      + intros [ps [[H1|H1] H2]]; [injection H1 as -> <-; left; eauto|]. apply in_app_iff in H1. destruct H1 as [H1|H1]; [|right; right; eauto].
        apply in_map_iff in H1. destruct H1 as [z [H1 H3]]. injection H1 as <- <-. destruct H2 as [<-|[]]. right; left. eauto.
    - apply IH.
  Qed.
  Definition node_at (is : list (DInsn F)) (cur k y : nat) (ps : list nat) : Prop :=
    (exists j e, nth_error (kinds_from is k) j = Some (OExpr e) /\ y = cur + j /\ ps = e_vars F e) \/
    (exists j l, nth_error (calls_from is cur) j = Some l /\ y = nv + (k + j) /\ ps = cl_ins l) \/
    (exists j l, nth_error (calls_from is cur) j = Some l /\ In y (cl_outs l) /\ ps = [nv + (k + j)]).
  Lemma nodes_at (is : list (DInsn F)) y ps : forall cur k, In (y, ps) (nodes_from is cur k) <-> node_at is cur k y ps.
  Proof.
    induction is as [|[e|id l n|c] is IH]; intros cur k; cbn [nodes_from]; unfold node_at; cbn [kinds_from calls_from].
    - split; [intros []|]. intros [[[|j] [e [H _]]]|[[[|j] [e [H _]]]|[[|j] [e [H _]]]]]; discriminate.
    - cbn [In]. rewrite IH. unfold node_at. split.
      + intros [H|[[j [e' [H1 [H2 H3]]]]|H]]; [injection H as <- <-; left; exists 0, e; split; auto; split; auto; lia| |right; auto]. left. exists (S j), e'. split; auto. split; auto. lia.
      + intros [[[|j] [e' [H1 [H2 H3]]]]|H]; [cbn in H1; injection H1 as <-; left; rewrite H2, H3; f_equal; lia| |right; right; auto]. right. left. exists j, e'. split; auto. split; auto. lia.
    - cbn [In]. rewrite in_app_iff, in_map_iff, IH. unfold node_at. split.
      + intros [H|[[z [H1 H2]]|[[j [e' [H1 [H2 H3]]]]|[[j [l' [H1 [H2 H3]]]]|[j [l' [H1 [H2 H3]]]]]]]].
        * injection H as <- <-. right; left. exists 0, {| cl_sub := id; cl_ins := l; cl_outs := seq cur n |}. split; [auto|]. split; [lia|auto].
        * injection H1 as <- <-. right; right. exists 0, {| cl_sub := id; cl_ins := l; cl_outs := seq cur n |}. split; [auto|]. split; [auto|]. do 2 f_equal. lia.
        * left. exists (n + j), e'. split; [|split; auto; lia]. rewrite nth_error_app2 by (rewrite repeat_length; lia). rewrite repeat_length. replace (n + j - n) with j by lia. auto.
        * right; left. exists (S j), l'. split; auto. split; auto. lia.
        * right; right. exists (S j), l'. split; auto. split; auto. rewrite H3. do 2 f_equal. lia.
      + intros [[j [e' [H1 [H2 H3]]]]|[[[|j] [l' [H1 [H2 H3]]]]|[[|j] [l' [H1 [H2 H3]]]]]].
        * right; right; left. destruct (Nat.lt_ge_cases j n) as [Hlt|Hge].
          -- rewrite nth_error_app1 in H1 by (rewrite repeat_length; auto). apply nth_error_In, repeat_spec in H1. discriminate.
          -- rewrite nth_error_app2 in H1 by (rewrite repeat_length; auto). rewrite repeat_length in H1. exists (j - n), e'. split; auto. split; auto. lia.
        * cbn in H1. injection H1 as <-. left. rewrite H2, H3. cbn. f_equal. lia.
        * right; right; right; left. exists j, l'. split; auto. split; auto. lia.
        * cbn in H1. injection H1 as <-. right; left. exists y. split; auto. rewrite H3. do 3 f_equal. lia.
        * right; right; right; right. exists j, l'. split; auto. split; auto. rewrite H3. do 2 f_equal. lia.
    - rewrite IH. unfold node_at. split.
      + intros [[j [e' [H1 [H2 H3]]]]|H]; [|right; auto]. left. exists (S j), e'. split; auto. split; auto. lia.
      + intros [[[|j] [e' [H1 [H2 H3]]]]|H]; [discriminate| |right; auto]. left. exists j, e'. split; auto. split; auto. lia.
  Qed.
  Lemma nodes_range (is : list (DInsn F)) y : forall cur k, In y (map fst (nodes_from is cur k)) -> cur <= y < cur + nouts DI is \/ nv + k <= y.
  Proof.
    induction is as [|[e|id l n|c] is IH]; intros cur k; cbn [nodes_from map fst In].
    - intros [].
    - change (nouts DI (DVar e :: is)) with (1 + nouts DI is). intros [<-|H]; [lia|]. apply IH in H. lia.
    - change (nouts DI (DCall id l n :: is)) with (n + nouts DI is). rewrite map_app, map_map. cbn [fst]. rewrite map_id. intros [<-|H]; [lia|]. apply in_app_iff in H. destruct H as [H|H]; [apply in_seq in H; lia|]. apply IH in H. lia.
    - change (nouts DI (DConst c :: is)) with (1 + nouts DI is). intros H. apply IH in H. lia.
  Qed.
  Lemma nodes_nodup (is : list (DInsn F)) : forall cur k, cur + nouts DI is <= nv -> NoDup (map fst (nodes_from is cur k)).
  Proof.
    induction is as [|[e|id l n|c] is IH]; intros cur k Hn; cbn [nodes_from map fst].
    - constructor.
    - change (nouts DI (DVar e :: is)) with (1 + nouts DI is) in Hn. constructor; [|apply IH; lia]. intros H. apply nodes_range in H. lia.
    - change (nouts DI (DCall id l n :: is)) with (n + nouts DI is) in Hn. rewrite map_app, map_map. cbn [fst]. rewrite map_id. constructor.
      + rewrite in_app_iff. intros [H|H]; [apply in_seq in H; lia|]. apply nodes_range in H. lia.
      + apply NoDup_app_iff. split; [apply seq_NoDup|]. split; [apply IH; lia|]. intros x H1 H2. apply in_seq in H1. apply nodes_range in H2. lia.
    - change (nouts DI (DConst c :: is)) with (1 + nouts DI is) in Hn. apply IH. lia.
  Qed.
  Fixpoint topo_ok (N : list (nat * list nat)) : Prop :=
    match N with [] => True | (y, ps) :: N => (forall x, In x ps -> x <> y /\ ~ In x (map fst N)) /\ topo_ok N end.
  Lemma topo_ok_app N1 N2 : topo_ok (N1 ++ N2) <-> topo_ok N1 /\ topo_ok N2 /\ (forall y ps x, In (y, ps) N1 -> In x ps -> ~ In x (map fst N2)).
  Proof.
    induction N1 as [|[y ps] N1 IH]; cbn [app topo_ok].
    - split; [intros H; split; auto; split; auto; intros ? ? ? []|tauto].
    - rewrite IH. split.
      + intros [H1 [H2 [H3 H4]]]. split; [split; auto; intros x Hx; destruct (H1 x Hx) as [A B]; split; auto; rewrite map_app, in_app_iff in B; tauto|]. split; [auto|].
        intros y' ps' x [H|H] Hx; [injection H as <- <-; destruct (H1 x Hx) as [A B]; rewrite map_app, in_app_iff in B; tauto|eauto].
      + intros [[H1 H2] [H3 H4]]. split; [|split; [auto|split; [auto|intros y' ps' x H; apply (H4 y' ps'); right; auto]]]. intros x Hx. destruct (H1 x Hx) as [A B]. split; auto. rewrite map_app, in_app_iff. intros [?|Hn]; auto. apply (H4 y ps x); auto. left; auto.
  Qed.
  Lemma nodes_topo (is : list (DInsn F)) : forall cur k, cur + nouts DI is <= nv -> 1 <= cur -> wf_insns DI is (cur - 1) -> topo_ok (nodes_from is cur k).
  Proof.
    induction is as [|[e|id l n|c] is IH]; intros cur k Hn Hc Hw; cbn [nodes_from topo_ok]; auto; destruct Hw as [Hi Hw].
    - change (nouts DI (DVar e :: is)) with (1 + nouts DI is) in Hn. change (i_nout (i := DI) (DVar e)) with 1 in Hw. replace (cur - 1 + 1) with (S cur - 1) in Hw by lia. split; [|apply IH; auto; lia].
      intros x Hx. change (Forall (fun x => 0 < x <= cur - 1) (e_vars F e)) in Hi. rewrite Forall_forall in Hi. apply Hi in Hx. split; [lia|]. intros H. apply nodes_range in H. lia.
    - change (nouts DI (DCall id l n :: is)) with (n + nouts DI is) in Hn. change (i_nout (i := DI) (DCall id l n)) with n in Hw. replace (cur - 1 + n) with (cur + n - 1) in Hw by lia. split.
      + intros x Hx. change (Forall (fun x => 0 < x <= cur - 1) l) in Hi. rewrite Forall_forall in Hi. apply Hi in Hx. split; [lia|]. rewrite map_app, map_map. cbn [fst]. rewrite map_id, in_app_iff. intros [H|H]; [apply in_seq in H; lia|]. apply nodes_range in H. lia.
      + apply topo_ok_app. split; [|split; [apply IH; auto; lia|]].
        * assert (Hs : forall m a, a + m <= nv -> topo_ok (map (fun y => (y, [nv + k])) (seq a m))).
          { clear. induction m as [|m IHm]; intros a Ha; cbn [seq map topo_ok]; auto. split; [|apply IHm; lia]. intros x [<-|[]]. split; [lia|]. rewrite map_map. cbn [fst]. rewrite map_id, in_seq. lia. }
          apply Hs. lia.
        * intros y ps x Hy Hx. apply in_map_iff in Hy. destruct Hy as [z [Hy _]]. injection Hy as <- <-. destruct Hx as [<-|[]]. intros H. apply nodes_range in H. lia.
    - change (nouts DI (DConst c :: is)) with (1 + nouts DI is) in Hn. change (i_nout (i := DI) (DConst c)) with 1 in Hw. replace (cur - 1 + 1) with (S cur - 1) in Hw by lia. apply IH; auto; lia.
  Qed.
  Lemma topo_split N x : NoDup (map fst N) -> topo_ok N -> In x (map fst N) ->
    exists l1 l2, map fst N = l1 ++ x :: l2 /\ forall z ps, In z (x :: l2) -> In (x, ps) N -> ~ In z ps.
  Proof.
    intros Hn Ht Hx. apply in_map_iff in Hx. destruct Hx as [[y ps] [<- Hx]]. cbn [fst]. apply in_split in Hx. destruct Hx as [N1 [N2 ->]]. apply topo_ok_app in Ht. destruct Ht as [_ [Ht _]]. cbn [topo_ok] in Ht.
    exists (map fst N1), (map fst N2). split; [rewrite map_app; auto|]. intros z ps' Hz Hps Hi.
    assert (ps' = ps).
    { rewrite map_app in Hn. cbn [map fst] in Hn. apply NoDup_remove_2 in Hn. apply in_app_iff in Hps. destruct Hps as [Hps|[Hps|Hps]]; [|congruence|]; exfalso; apply Hn; apply in_app_iff; [left|right]; apply in_map_iff; exists (y, ps'); auto. }
    subst ps'. destruct Ht as [Ht _]. destruct (Ht z Hi) as [H1 H2]. destruct Hz as [<-|Hz]; auto.
  Qed.
  Lemma consts_kind (is : list (DInsn F)) x : forall cur k, In x (consts_from is cur) <-> exists j c, x = cur + j /\ nth_error (kinds_from is k) j = Some (OCoef c).
  Proof.
    induction is as [|[e|id l n|c] is IH]; intros cur k; cbn [consts_from kinds_from].
    - split; [intros []|intros [[|j] [c [_ H]]]; discriminate].
    - rewrite (IH _ k). split; intros [j [c [H1 H2]]]; [exists (S j), c; split; auto; lia|]. destruct j; [discriminate|]. exists j, c. split; auto. lia.
    - rewrite (IH _ (S k)). split; intros [j [c [H1 H2]]].
      + exists (n + j), c. split; [lia|]. rewrite nth_error_app2 by (rewrite repeat_length; lia). rewrite repeat_length. replace (n + j - n) with j by lia. auto.
      + destruct (Nat.lt_ge_cases j n) as [Hlt|Hge].
        * rewrite nth_error_app1 in H2 by (rewrite repeat_length; auto). apply nth_error_In, repeat_spec in H2. discriminate.
        * rewrite nth_error_app2 in H2 by (rewrite repeat_length; auto). rewrite repeat_length in H2. exists (j - n), c. split; auto. lia.
    - cbn [In]. rewrite (IH _ k). split.
      + intros [<-|[j [c' [H1 H2]]]]; [exists 0, c; split; auto; lia|]. exists (S j), c'. split; auto. lia.
      + intros [[|j] [c' [H1 H2]]]; [left; lia|]. right. exists j, c'. split; auto. lia.
  Qed.
  Lemma consts_nodup (is : list (DInsn F)) : forall cur, NoDup (consts_from is cur) /\ forall x, In x (consts_from is cur) -> cur <= x < cur + nouts DI is.
  Proof.
    induction is as [|[e|id l n|c] is IH]; intros cur; cbn [consts_from].
    - split; [constructor|intros ? []].
    - change (nouts DI (DVar e :: is)) with (1 + nouts DI is). destruct (IH (S cur)) as [H1 H2]. split; auto. intros x Hx. apply H2 in Hx. lia.
    - change (nouts DI (DCall id l n :: is)) with (n + nouts DI is). destruct (IH (cur + n)) as [H1 H2]. split; auto. intros x Hx. apply H2 in Hx. lia.
    - change (nouts DI (DConst c :: is)) with (1 + nouts DI is). destruct (IH (S cur)) as [H1 H2]. split; [constructor; auto; intros H; apply H2 in H; lia|]. intros x [<-|Hx]; [lia|]. apply H2 in Hx. lia.
  Qed.
End Graph.

(* ------------------------------------------------------------ combined constraints *)
Lemma cc_num (l : list (list nat * list nat)) : forall m i0 i c, nth_error (cc_number l m) i = Some (Some c) ->
  exists p r, nth_error l i = Some p /\ cc_nonempty p = true /\ cc_vars c = fst p /\ cc_subs c = snd p /\ cc_id c = m + r /\ nth_error (cc_layers (cc_number l m) i0) r = Some (i0 + i).
Proof.
  induction l as [|p l IH]; intros m i0 i c H; cbn [cc_number] in *; [destruct i; discriminate|]. destruct (cc_nonempty p) eqn:Ep.
  - destruct i as [|i]; cbn [nth_error cc_layers] in *.
    + injection H as <-. exists p, 0. cbn. repeat split; auto; f_equal; lia.
    + destruct (IH (S m) (S i0) i c H) as [p' [r [H1 [H2 [H3 [H4 [H5 H6]]]]]]]. exists p', (S r). cbn [nth_error]. repeat split; auto; [lia|]. rewrite H6. f_equal. lia.
  - destruct i as [|i]; cbn [nth_error cc_layers] in *; [discriminate|]. destruct (IH m (S i0) i c H) as [p' [r [H1 [H2 [H3 [H4 [H5 H6]]]]]]]. exists p', r. repeat split; auto. rewrite H6. f_equal. lia.
Qed.
Lemma cc_num_ex (l : list (list nat * list nat)) : forall m i p, nth_error l i = Some p -> cc_nonempty p = true ->
  exists c, nth_error (cc_number l m) i = Some (Some c) /\ cc_vars c = fst p /\ cc_subs c = snd p.
Proof.
  induction l as [|q l IH]; intros m i p H Hp; [destruct i; discriminate|]. cbn [cc_number]. destruct i as [|i]; cbn [nth_error] in H.
  - injection H as ->. rewrite Hp. cbn. eauto.
  - destruct (cc_nonempty q); cbn [nth_error]; eauto.
Qed.
Lemma cc_num_len (l : list (list nat * list nat)) : forall m, length (cc_number l m) = length l.
Proof. induction l as [|p l IH]; intros m; cbn [cc_number]; auto. destruct (cc_nonempty p); cbn; rewrite IH; auto. Qed.
Lemma cc_num_at l m i : cc_at (cc_number l m) i = true <-> exists p, nth_error l i = Some p /\ cc_nonempty p = true.
Proof.
  rewrite cc_at_iff. split.
  - intros [c H]. destruct (cc_num _ _ 0 _ _ H) as [p [r [H1 [H2 _]]]]. eauto.
  - intros [p [H1 H2]]. destruct (cc_num_ex _ m _ _ H1 H2) as [c [H3 _]]. eauto.
Qed.
Lemma cc_layers_in {A} (l : list (option A)) : forall i0 i, In i (cc_layers l i0) <-> i0 <= i /\ cc_at l (i - i0) = true.
Proof.
  induction l as [|o l IH]; intros i0 i; cbn [cc_layers].
  - split; [intros []|]. intros [_ H]. unfold cc_at in H. destruct (i - i0); discriminate.
  - destruct o as [a|]; cbn [In]; rewrite IH; split.
    + intros [<-|[H1 H2]]; [split; auto; rewrite Nat.sub_diag; auto|]. split; [lia|]. replace (i - i0) with (S (i - S i0)) by lia. auto.
    + intros [H1 H2]. destruct (Nat.eq_dec i0 i); auto. right. split; [lia|]. replace (i - i0) with (S (i - S i0)) in H2 by lia. auto.
    + intros [H1 H2]. split; [lia|]. replace (i - i0) with (S (i - S i0)) by lia. auto.
    + intros [H1 H2]. destruct (Nat.eq_dec i0 i) as [->|]; [rewrite Nat.sub_diag in H2; discriminate|]. split; [lia|]. replace (i - i0) with (S (i - S i0)) in H2 by lia. auto.
Qed.
Lemma cc_pop_spec {A} (r : list (option A)) out : exists t, r = repeat None t ++ cc_pop r out /\ (t <> 0 -> out < length (cc_pop r out)).
Proof.
  induction r as [|o r IH]; [exists 0; split; auto; congruence|]. destruct o as [a|]; cbn [cc_pop]; [exists 0; split; auto; congruence|].
  destruct (Nat.ltb_spec out (length r)) as [Hlt|Hge]; [|exists 0; split; auto; congruence]. destruct IH as [t [H1 H2]]. exists (S t). split; [cbn; rewrite <- H1; auto|]. intros _. destruct t; [cbn in H1; rewrite <- H1; auto|]. apply H2. congruence.
Qed.
Lemma cc_popped {A} (cc : list (option A)) out : exists t, cc = rev (cc_pop (rev cc) out) ++ repeat None t /\ (t <> 0 -> out < length (rev (cc_pop (rev cc) out))).
Proof.
  destruct (cc_pop_spec (rev cc) out) as [t [H1 H2]]. exists t. rewrite rev_length. split; auto. rewrite <- (rev_involutive cc) at 1. rewrite H1 at 1. rewrite rev_app_distr. f_equal.
  clear. induction t as [|t IH]; auto. cbn [repeat rev]. rewrite IH. clear. induction t as [|t IH]; auto. cbn [repeat app]. f_equal. auto.
Qed.
Lemma nth_error_none_tail {A} (l : list (option A)) t i a : nth_error (l ++ repeat None t) i = Some (Some a) <-> nth_error l i = Some (Some a).
Proof.
  split; [|apply nth_error_app_l]. intros H. destruct (Nat.lt_ge_cases i (length l)) as [Hl|Hl]; [rewrite nth_error_app1 in H; auto|]. rewrite nth_error_app2 in H by auto.
  apply nth_error_In, repeat_spec in H. discriminate.
Qed.
Lemma cc_out_spec root layers : forall out, out <= cc_out root out layers /\ forall i, In i layers -> (if root then i else i + 1) <= cc_out root out layers.
Proof.
  induction layers as [|j layers IH]; intros out; cbn [cc_out fold_left]; [split; auto; intros ? []|].
  fold (cc_out root (if out <? j + 1 then if root then j else j + 1 else out) layers). destruct (IH (if out <? j + 1 then if root then j else j + 1 else out)) as [H1 H2].
  assert (Hs : out <= (if out <? j + 1 then if root then j else j + 1 else out) /\ (if root then j else j + 1) <= (if out <? j + 1 then if root then j else j + 1 else out)).
  { destruct (Nat.ltb_spec out (j + 1)), root; lia. }
  split; [lia|]. intros i [<-|Hi]; [lia|auto].
Qed.
Lemma find_first_some {A} (f : A -> bool) l j : find_first f l = Some j -> (exists x, nth_error l j = Some x /\ f x = true) /\ forall j' y, j' < j -> nth_error l j' = Some y -> f y = false.
Proof.
  revert j. induction l as [|x l IH]; intros j H; cbn in H; [discriminate|]. destruct (f x) eqn:Ef.
  - injection H as <-. split; [exists x; auto|]. intros; lia.
  - destruct (find_first f l) as [j0|]; [|discriminate]. cbn in H. injection H as <-. destruct (IH j0 eq_refl) as [H1 H2]. split; auto.
    intros [|j'] y Hj Hy; cbn in Hy; [congruence|]. apply (H2 j' y); auto. lia.
Qed.
Lemma find_first_none {A} (f : A -> bool) l : find_first f l = None -> forall x, In x l -> f x = false.
Proof.
  induction l as [|y l IH]; intros H x Hx; [destruct Hx|]. cbn in H. destruct (f y) eqn:Ef; [discriminate|]. destruct (find_first f l); [discriminate|]. destruct Hx as [->|Hx]; auto.
Qed.
Lemma nonempty_fst x (p : list nat * list nat) : In x (fst p) -> cc_nonempty p = true.
Proof. unfold cc_nonempty. destruct (fst p); [intros []|auto]. Qed.
Lemma nonempty_snd x (p : list nat * list nat) : In x (snd p) -> cc_nonempty p = true.
Proof. unfold cc_nonempty. destruct (snd p); [intros []|]. rewrite orb_true_r. auto. Qed.

(* ------------------------------------------------------------ one circuit *)
Section Sched.
  Context {F : Fld}.
  Notation DI := (DestI F true).
  Notation Ctx := (Ctx (F := F)).
  Variable cross : bool.
  Section Defs.
    Variables (root : bool) (c : Circuit DI) (subs : list Ctx) (starts : list nat).
    Definition d_kd := kinds c.
    Definition d_nv := length d_kd.
    Definition d_ns := length (calls_of c).
    Definition d_n := d_nv + d_ns.
    Definition d_deps := map x_out subs.
    Definition d_adv := map kind_adv d_kd ++ map (fun d => d - 1) d_deps.
    Definition d_edges := edges_from d_nv (instructions c) (S (num_inputs c)) 0.
    Definition d_q := queue d_nv c.
    Definition d_init := map kind_min d_kd ++ repeat 0 d_ns.
    Definition d_ml := relax d_edges d_adv d_q d_init.
    Definition d_mo := maxl d_ml.
    Definition d_out1 := maxl (map (fun p => fst p + snd p) (combine starts d_deps) ++ firstn (d_nv - 1) (skipn 1 d_ml)).
    Definition d_rh := cc_merge root d_n d_mo (map (cc_raw (constraints c) d_ml starts (map x_cc subs)) (seq 0 (d_mo + 3))).
    Definition d_cc0 := cc_number (fst d_rh) d_n.
    Definition d_cl0 := cc_layers d_cc0 0.
    Definition d_out2 := cc_out root d_out1 d_cl0.
    Definition d_ml2 := d_ml ++ d_cl0.
    Definition d_adv2 := d_adv ++ repeat 1 (length d_cl0).
    Definition d_edges2 := d_edges ++ cc_edges d_cc0.
    Definition d_cc1 := rev (cc_pop (rev d_cc0) d_out2).
    Definition d_out3 := if root then length d_cc1 - 1 else d_out2.
    Definition d_mx := map (fun x => fold_left Nat.max (map (fun y => getn d_ml2 y - getn d_adv2 y) (outs_of d_edges2 x)) (getn d_ml2 x)) (seq 0 (length d_ml2)).
    Definition d_out4 := Nat.max 1 d_out3.
    Definition d_partial k :=
      let ys := outs_of d_edges2 (d_nv + k) in
      let count := length (filter (fun y => memb y (outputs c)) ys) in
      let anyc := match nth_error subs k with Some X => existsb is_some (x_cc X) | None => false end in
      forallb (fun y => getn d_ml2 y =? d_out4) ys && (negb (count =? 0) || anyc) && negb (count =? length ys).
    Definition d_out := if existsb d_partial (seq 0 d_ns) then S d_out4 else d_out4.
    Definition d_cc := if d_out =? length d_cc1 then d_cc1 ++ [None] else d_cc1.
    Definition d_mx2 := map (fun x => if memb x (outputs c) then d_out else getn d_mx x) (seq 0 (length d_ml2)).
    Definition d_ml3 := map (fun x => match nth_error d_kd x with
                             | Some (OCoef _) => if getn d_mx2 x =? d_out then getn d_ml2 x
                                 else fold_left Nat.min (map (fun y => getn d_ml2 y - getn d_adv2 y) (outs_of d_edges2 x)) (Nat.min d_out (getn d_mx2 x))
                             | _ => getn d_ml2 x end) (seq 0 (length d_ml2)).
    Definition d_used0 := fold_left (fun u p => let '(st, X) := p in
                   fold_left (fun u j => upd u (j + st) (Nat.min (getn u (j + st)) (getn (x_used X) j + st))) (seq 0 (S (x_out X))) u)
                 (combine starts subs) (0 :: seq 0 d_out).
    Definition d_used occ := fold_left (fun u p => upd u (snd p) (Nat.min (getn u (snd p)) (fst p))) (flat_map pairs occ) d_used0.
  End Defs.

  Lemma compute_inv ctxs root c X has : compute_layers cross ctxs root c = Some (X, has) -> exists subs starts occ,
    omap (fun l => lookup (cl_sub l) ctxs) (calls_of c) = Some subs /\
    omap (fun k => let* _ := guard (getn (d_adv c subs) (d_nv c + k) <=? getn (d_ml c subs) (d_nv c + k)) in Some (getn (d_ml c subs) (d_nv c + k) - getn (d_adv c subs) (d_nv c + k))) (seq 0 (d_ns c)) = Some starts /\
    (root = true -> d_out2 root c subs starts < length (d_cc1 root c subs starts)) /\
    (if cross then omap (fun x => if x =? 0 then Some [] else occured (d_edges2 root c subs starts) (d_adv2 root c subs starts) (d_ml3 root c subs starts) (d_mx2 root c subs starts) (outputs c) (d_out root c subs starts) x)
        (seq 0 (length (d_ml2 root c subs starts))) else Some []) = Some occ /\
    has = snd (d_rh root c subs starts) /\
    X = {| x_c := c; x_kinds := kinds c; x_calls := calls_of c; x_starts := starts; x_deps := d_deps subs; x_min := d_ml3 root c subs starts; x_max := d_mx2 root c subs starts;
           x_occ := occ; x_out := d_out root c subs starts; x_used := d_used root c subs starts occ; x_cc := d_cc root c subs starts; x_lcs := [] |}.
  Proof.
    intros H. unfold compute_layers in H.
    destruct (omap (fun l => lookup (cl_sub l) ctxs) (calls_of c)) as [subs|] eqn:Es; [|discriminate]. cbn [obind] in H.
    match type of H with (let* s := ?o in _) = _ => destruct o as [starts|] eqn:Est; [|discriminate] end. cbn [obind] in H.
    fold (d_kd c) in *. fold (d_nv c) in *. fold (d_ns c) in *. fold (d_deps subs) in *. fold (d_adv c subs) in *. fold (d_edges c) in *. fold (d_q c) in *. fold (d_init c) in *. fold (d_ml c subs) in *.
    fold (d_mo c subs) in *. fold (d_n c) in *. fold (d_rh root c subs starts) in *. fold (d_out1 c subs starts) in *.
    destruct (d_rh root c subs starts) as [raws has0] eqn:Erh. assert (Hraws : raws = fst (d_rh root c subs starts)) by (rewrite Erh; auto). rewrite Hraws in H.
    fold (d_cc0 root c subs starts) in *. fold (d_cl0 root c subs starts) in *. fold (d_out2 root c subs starts) in *. fold (d_ml2 root c subs starts) in *. fold (d_adv2 root c subs starts) in *. fold (d_edges2 root c subs starts) in *.
    fold (d_cc1 root c subs starts) in *. fold (d_mx root c subs starts) in *.
    match type of H with (let* s := ?o in _) = _ => destruct o as [out3|] eqn:Eo; [|discriminate] end. cbn [obind] in H.
    assert (Ho3 : out3 = d_out3 root c subs starts /\ (root = true -> d_out2 root c subs starts < length (d_cc1 root c subs starts))).
    { unfold d_out3. destruct root; [|split; congruence]. destruct (Nat.ltb_spec (d_out2 true c subs starts) (length (d_cc1 true c subs starts))); [|discriminate]. injection Eo as <-. auto. }
    destruct Ho3 as [-> Ho3].
    match type of H with (let* s := ?o in _) = _ => destruct o as [[]|] eqn:Eg; [|discriminate] end. cbn [obind] in H.
    fold (d_out4 root c subs starts) in *. 
    change (fun k : nat => forallb (fun y : nat => getn (d_ml2 root c subs starts) y =? d_out4 root c subs starts) (outs_of (d_edges2 root c subs starts) (d_nv c + k)) &&
       (negb (length (filter (fun y : nat => memb y (outputs c)) (outs_of (d_edges2 root c subs starts) (d_nv c + k))) =? 0) || match nth_error subs k with Some X => existsb is_some (x_cc X) | None => false end) &&
       negb (length (filter (fun y : nat => memb y (outputs c)) (outs_of (d_edges2 root c subs starts) (d_nv c + k))) =? length (outs_of (d_edges2 root c subs starts) (d_nv c + k)))) with (d_partial root c subs starts) in H.
    fold (d_out root c subs starts) in *. fold (d_cc root c subs starts) in *. fold (d_mx2 root c subs starts) in *. fold (d_ml3 root c subs starts) in *.
    match type of H with (let* s := ?o in _) = _ => destruct o as [occ|] eqn:Eocc; [|discriminate] end. cbn [obind] in H.
    injection H as <- <-. exists subs, starts, occ. rewrite Erh. split; [auto|]. split; [auto|]. split; [exact Ho3|]. split; [exact Eocc|]. split; [auto|]. reflexivity.
  Qed.

  (* ------------------------------------------------------------ what the stages satisfy *)
  Section One.
    Variables (root : bool) (c : Circuit DI) (subs : list Ctx) (starts : list nat).
    Hypothesis Hw : wf_circuit DI c.
    Hypothesis Hsubs : length subs = d_ns c.
    Hypothesis Hdep : forall Y, In Y subs -> 1 <= x_out Y.
    Hypothesis Hcci : forall Y j, In Y subs -> cc_at (x_cc Y) j = true -> j < x_out Y.
    Hypothesis Hst : omap (fun k => let* _ := guard (getn (d_adv c subs) (d_nv c + k) <=? getn (d_ml c subs) (d_nv c + k)) in Some (getn (d_ml c subs) (d_nv c + k) - getn (d_adv c subs) (d_nv c + k))) (seq 0 (d_ns c)) = Some starts.
    Hypothesis Hroot : root = true -> d_out2 root c subs starts < length (d_cc1 root c subs starts).
    Notation kd := (kinds c). Notation nv := (d_nv c). Notation ns := (d_ns c). Notation ni := (num_inputs c).
    Notation m := (d_ml c subs). Notation adv := (d_adv c subs). Notation edges := (d_edges c). Notation cl := (calls_of c).
    Lemma nv_sum : nv = S ni + nouts DI (instructions c).
    Proof. unfold d_nv, d_kd, kinds. rewrite app_length, repeat_length, kinds_from_len. auto. Qed.
    Lemma edge_at x y : In (x, y) edges <-> exists ps, node_at nv (instructions c) (S ni) 0 y ps /\ In x ps.
    Proof.
      unfold d_edges. rewrite nodes_edges. split; intros [ps [H1 H2]]; exists ps; split; auto; apply nodes_at; auto.
    Qed.
    Lemma edge_inv x y : In (x, y) edges -> (exists e, nth_error kd y = Some (OExpr e) /\ In x (e_vars F e) /\ S ni <= y < nv) \/
      (exists k l, nth_error cl k = Some l /\ y = nv + k /\ In x (cl_ins l)) \/ (exists k l, nth_error cl k = Some l /\ In y (cl_outs l) /\ x = nv + k).
    Proof.
      intros H. apply edge_at in H. destruct H as [ps [H1 H2]]. destruct H1 as [[j [e [H1 [H3 H4]]]]|[[j [l [H1 [H3 H4]]]]|[j [l [H1 [H3 H4]]]]]].
      - left. exists e. subst. rewrite kinds_tail. split; auto. split; auto. apply nth_error_Some_lt in H1. rewrite kinds_from_len in H1. rewrite nv_sum. lia.
      - right; left. exists j, l. subst. auto.
      - right; right. exists j, l. subst. destruct H2 as [<-|[]]. auto.
    Qed.
    Lemma kd_tail x k : nth_error kd x = Some k -> k <> OIn -> S ni <= x /\ nth_error (kinds_from (instructions c) 0) (x - S ni) = Some k.
    Proof.
      intros H Hk. destruct (Nat.le_gt_cases x ni) as [Hl|Hl]; [rewrite kinds_head in H; congruence|]. split; [lia|]. rewrite <- kinds_tail. replace (S ni + (x - S ni)) with x by lia. auto.
    Qed.
    Lemma edge_expr x y e : nth_error kd y = Some (OExpr e) -> In x (e_vars F e) -> In (x, y) edges.
    Proof.
      intros H1 H2. apply edge_at. exists (e_vars F e). split; auto. left. destruct (kd_tail _ _ H1 ltac:(congruence)) as [H3 H4]. exists (y - S ni), e. split; auto. split; auto. lia.
    Qed.
    Lemma edge_arg x k l : nth_error cl k = Some l -> In x (cl_ins l) -> In (x, nv + k) edges.
    Proof. intros H1 H2. apply edge_at. exists (cl_ins l). split; auto. right; left. exists k, l. auto. Qed.
    Lemma edge_out y k l : nth_error cl k = Some l -> In y (cl_outs l) -> In (nv + k, y) edges.
    Proof. intros H1 H2. apply edge_at. exists [nv + k]. split; [|left; auto]. right; right. exists k, l. auto. Qed.
    Lemma wf_from : wf_insns DI (instructions c) (S ni - 1).
    Proof. replace (S ni - 1) with ni by lia. apply (wf_is _ _ Hw). Qed.
    Lemma arg_range k l x : nth_error cl k = Some l -> In x (cl_ins l) -> 1 <= x < nv.
    Proof.
      intros H Hx. destruct (call_struct _ _ 0 _ _ H) as [a [n [_ [_ [H3 H4]]]]]. specialize (H4 ltac:(lia) wf_from x Hx). rewrite nv_sum. lia.
    Qed.
    Lemma out_kind k l y : nth_error cl k = Some l -> In y (cl_outs l) -> nth_error kd y = Some (OSub k) /\ S ni <= y < nv.
    Proof.
      intros H Hy. destruct (call_struct _ _ 0 _ _ H) as [a [n [H1 [H2 [H3 _]]]]]. rewrite H1 in Hy. apply in_seq in Hy. rewrite nv_sum. split; [|lia].
      specialize (H2 (y - S ni - a) ltac:(lia)). rewrite <- kinds_tail in H2. replace (S ni + (a + (y - S ni - a))) with y in H2 by lia. rewrite H2. auto.
    Qed.
    Lemma expr_range x e y : nth_error kd x = Some (OExpr e) -> In y (e_vars F e) -> 1 <= y < x /\ x < nv.
    Proof.
      intros H Hy. destruct (kd_tail _ _ H ltac:(congruence)) as [H3 H4]. pose proof (expr_struct _ (S ni) 0 _ _ ltac:(lia) wf_from H4) as He. apply nth_error_Some_lt in H. fold (d_nv c) in H. apply He in Hy. fold (d_kd c) in *. split; [lia|]. auto.
    Qed.
    Lemma edge_range x y : In (x, y) edges -> 1 <= x < nv + ns /\ S ni <= y < nv + ns /\ (forall co, nth_error kd y <> Some (OCoef co)).
    Proof.
      intros H. destruct (edge_inv _ _ H) as [[e [H1 [H2 H3]]]|[[k [l [H1 [-> H3]]]]|[k [l [H1 [H2 ->]]]]]].
      - destruct (expr_range _ _ _ H1 H2). split; [lia|]. split; [lia|]. congruence.
      - pose proof (arg_range _ _ _ H1 H3). apply nth_error_Some_lt in H1. fold ns in H1. pose proof nv_sum. split; [lia|]. split; [lia|]. intros co. rewrite (proj2 (nth_error_None kd (nv + k))); [congruence|]. fold (d_kd c). fold (d_nv c). lia.
      - destruct (out_kind _ _ _ H1 H2). apply nth_error_Some_lt in H1. pose proof nv_sum. split; [unfold d_ns; lia|]. split; [lia|]. congruence.
    Qed.
    Lemma m_len : length m = nv + ns.
    Proof. unfold d_ml. rewrite (proj1 (relax_any _ _ _ _)). unfold d_init. rewrite app_length, map_length, repeat_length. auto. Qed.
    Lemma init_at x k : nth_error kd x = Some k -> getn (d_init c) x = kind_min k.
    Proof. intros H. unfold d_init. rewrite getn_app1 by (rewrite map_length; eapply nth_error_Some_lt; eauto). apply getn_nth. rewrite nth_error_map. unfold d_kd. rewrite H. auto. Qed.
    Lemma adv_at x k : nth_error kd x = Some k -> getn adv x = kind_adv k.
    Proof. intros H. unfold d_adv. rewrite getn_app1 by (rewrite map_length; eapply nth_error_Some_lt; eauto). apply getn_nth. rewrite nth_error_map. unfold d_kd. rewrite H. auto. Qed.
    Lemma adv_call k Y : nth_error subs k = Some Y -> getn adv (nv + k) = x_out Y - 1.
    Proof.
      intros H. unfold d_adv. replace (nv + k) with (length (map kind_adv (d_kd c)) + k) by (rewrite map_length; auto). rewrite getn_app2. apply getn_nth. rewrite nth_error_map. unfold d_deps. rewrite nth_error_map, H. auto.
    Qed.
    Lemma m_noin y : (forall x, ~ In (x, y) edges) -> getn m y = getn (d_init c) y.
    Proof. intros H. unfold d_ml. apply relax_any. auto. Qed.
    Lemma kd_cases x : 1 <= x < nv -> x <= ni \/ (exists e, nth_error kd x = Some (OExpr e)) \/ (exists co, nth_error kd x = Some (OCoef co)) \/ (exists k l, nth_error kd x = Some (OSub k) /\ nth_error cl k = Some l /\ In x (cl_outs l)).
    Proof.
      intros Hx. destruct (nth_error_Some_ex kd x ltac:(unfold d_nv, d_kd in Hx; lia)) as [k Hk]. destruct k as [|e|co|k]; eauto.
      - left. destruct (Nat.le_gt_cases x ni) as [|Hl]; auto. exfalso. replace x with (S ni + (x - S ni)) in Hk by lia. rewrite kinds_tail in Hk.
        assert (Hno : forall is k0 j, nth_error (kinds_from is k0) j <> Some (OIn (F := F))).
        { clear. induction is as [|[e|id l n|co] is IH]; intros k0 j H; cbn [kinds_from] in H; [destruct j; discriminate|destruct j; [discriminate|apply (IH _ _ H)]| |destruct j; [discriminate|apply (IH _ _ H)]].
          destruct (Nat.lt_ge_cases j n) as [Hlt|Hge]; [rewrite nth_error_app1 in H by (rewrite repeat_length; auto); apply nth_error_In, repeat_spec in H; discriminate|].
          rewrite nth_error_app2 in H by (rewrite repeat_length; auto). apply (IH _ _ H). }
        apply (Hno _ _ _ Hk).
      - right; right; right. destruct (kd_tail _ _ Hk ltac:(congruence)) as [H3 H4]. destruct (sub_struct _ (S ni) _ _ _ H4) as [_ [l [H5 H6]]]. rewrite Nat.sub_0_r in H5. exists k, l. split; auto.
        split; auto. replace x with (S ni + (x - S ni)) by lia. auto.
    Qed.
    Lemma consts_at x : In x (consts_from (instructions c) (S ni)) <-> exists co, nth_error kd x = Some (OCoef co).
    Proof.
      rewrite (consts_kind _ _ _ 0). split.
      - intros [j [co [-> H]]]. exists co. rewrite kinds_tail. auto.
      - intros [co H]. destruct (kd_tail _ _ H ltac:(congruence)) as [H1 H2]. exists (x - S ni), co. split; auto. lia.
    Qed.
    Lemma q1_at x : In x (q1_from nv (instructions c) (S ni) 0) <-> (exists e, nth_error kd x = Some (OExpr e)) \/ (exists k l, nth_error cl k = Some l /\ (x = nv + k \/ In x (cl_outs l))).
    Proof.
      rewrite nodes_q1, in_map_iff. split.
      - intros [[y ps] [<- H]]. apply nodes_at in H. cbn [fst]. destruct H as [[j [e [H1 [-> H2]]]]|[[j [l [H1 [-> H2]]]]|[j [l [H1 [H2 H3]]]]]].
        + left. exists e. rewrite kinds_tail. auto.
        + right. exists j, l. auto.
        + right. exists j, l. auto.
      - intros [[e H]|[k [l [H [->|H1]]]]].
        + destruct (kd_tail _ _ H ltac:(congruence)) as [H1 H2]. exists (x, e_vars F e). split; auto. apply nodes_at. left. exists (x - S ni), e. split; auto. split; auto. lia.
        + exists (nv + k, cl_ins l). split; auto. apply nodes_at. right; left. exists k, l. auto.
        + exists (x, [nv + k]). split; auto. apply nodes_at. right; right. exists k, l. auto.
    Qed.
    Lemma q1_edges x : In x (q1_from nv (instructions c) (S ni) 0) -> exists l1 l2, q1_from nv (instructions c) (S ni) 0 = l1 ++ x :: l2 /\ forall z, In z (x :: l2) -> ~ In (z, x) edges.
    Proof.
      rewrite nodes_q1. intros H. destruct (topo_split _ _ (nodes_nodup nv (instructions c) (S ni) 0 ltac:(rewrite nv_sum; auto)) (nodes_topo nv (instructions c) (S ni) 0 ltac:(rewrite nv_sum; auto) ltac:(lia) wf_from) H) as [l1 [l2 [H1 H2]]].
      exists l1, l2. split; auto. intros z Hz He. apply edge_at in He. destruct He as [ps [H3 H4]]. apply nodes_at in H3. apply (H2 z ps Hz H3 H4).
    Qed.
    Lemma noin_in x : x <= ni -> forall z, ~ In (z, x) edges.
    Proof. intros H z He. apply edge_range in He. lia. Qed.
    Lemma noin_const x co : nth_error kd x = Some (OCoef co) -> forall z, ~ In (z, x) edges.
    Proof. intros H z He. apply edge_range in He. destruct He as [_ [_ He]]. apply (He co); auto. Qed.
    Lemma q_nodup : NoDup (d_q c).
    Proof.
      unfold d_q, queue. destruct (consts_nodup (instructions c) (S ni)) as [C1 C2]. apply NoDup_app_iff. split; [apply seq_NoDup|]. split.
      - apply NoDup_app_iff. split; auto. split; [rewrite nodes_q1; apply nodes_nodup; rewrite nv_sum; auto|]. intros x H1 H2. apply consts_at in H1. apply q1_at in H2. destruct H1 as [co H1].
        destruct H2 as [[e H2]|[k [l [H2 [->|H3]]]]]; [congruence| |destruct (out_kind _ _ _ H2 H3); congruence]. apply nth_error_Some_lt in H1. fold (d_kd c) in H1. fold (d_nv c) in H1. lia.
      - intros x H1 H2. apply in_seq in H1. apply in_app_iff in H2. destruct H2 as [H2|H2]; [apply C2 in H2; lia|]. rewrite nodes_q1 in H2. apply nodes_range in H2. pose proof nv_sum. lia.
    Qed.
    Lemma qsplit x : 1 <= x < nv + ns -> exists l1 l2, d_q c = l1 ++ x :: l2 /\ (forall z, In z (x :: l2) -> ~ In (z, x) edges) /\ ~ In x l1 /\ ~ In x l2.
    Proof.
      intros Hx. assert (Hs : exists l1 l2, d_q c = l1 ++ x :: l2 /\ forall z, In z (x :: l2) -> ~ In (z, x) edges).
      { assert (Hq : In x (q1_from nv (instructions c) (S ni) 0) -> exists l1 l2, d_q c = l1 ++ x :: l2 /\ forall z, In z (x :: l2) -> ~ In (z, x) edges).
        { intros H. destruct (q1_edges _ H) as [l1 [l2 [H1 H2]]]. exists (seq 1 ni ++ consts_from (instructions c) (S ni) ++ l1), l2. split; auto. unfold d_q, queue. rewrite H1, !app_assoc. auto. }
        assert (Hn : In x (d_q c) -> (forall z, ~ In (z, x) edges) -> exists l1 l2, d_q c = l1 ++ x :: l2 /\ forall z, In z (x :: l2) -> ~ In (z, x) edges).
        { intros H1 H2. apply in_split in H1. destruct H1 as [l1 [l2 H1]]. exists l1, l2. auto. }
        destruct (Nat.lt_ge_cases x nv) as [Hl|Hl].
        - destruct (kd_cases x ltac:(lia)) as [H|[[e H]|[[co H]|[k [l [H1 [H2 H3]]]]]]].
          + apply Hn; [|apply noin_in; auto]. unfold d_q, queue. apply in_app_iff. left. apply in_seq. lia.
          + apply Hq. apply q1_at. left; eauto.
          + apply Hn; [|eapply noin_const; eauto]. unfold d_q, queue. rewrite !in_app_iff. right; left. apply consts_at. eauto.
          + apply Hq. apply q1_at. right. exists k, l. auto.
        - destruct (nth_error_Some_ex cl (x - nv)) as [l Hl']; [fold (d_ns c); lia|]. apply Hq. apply q1_at. right. exists (x - nv), l. split; auto. left. lia. }
      destruct Hs as [l1 [l2 [H1 H2]]]. exists l1, l2. split; auto. split; auto. pose proof q_nodup as Hn. rewrite H1 in Hn. apply NoDup_remove_2 in Hn. rewrite in_app_iff in Hn. tauto.
    Qed.
    Lemma m_edge x y : In (x, y) edges -> getn m x + getn adv y <= getn m y.
    Proof.
      intros H. pose proof (edge_range _ _ H) as [H1 [H2 _]]. destruct (qsplit x H1) as [l1 [l2 [Hq [H3 [H4 H5]]]]]. unfold d_ml. rewrite Hq. apply relax_split; auto. unfold d_init. rewrite app_length, map_length, repeat_length. fold (d_nv c). lia.
    Qed.
    Lemma m_single x y : In (x, y) edges -> (forall z, In (z, y) edges -> z = x) -> getn m y = Nat.max (getn (d_init c) y) (getn m x + getn adv y).
    Proof.
      intros H Hz. pose proof (edge_range _ _ H) as [H1 [H2 _]]. destruct (qsplit x H1) as [l1 [l2 [Hq [H3 [H4 H5]]]]]. unfold d_ml. rewrite Hq. apply relax_split; auto. unfold d_init. rewrite app_length, map_length, repeat_length. fold (d_nv c). lia.
    Qed.
    Lemma sub_at k : k < ns -> exists Y, nth_error subs k = Some Y /\ 1 <= x_out Y.
    Proof. intros H. destruct (nth_error_Some_ex subs k ltac:(lia)) as [Y HY]. exists Y. split; auto. apply Hdep. eapply nth_error_In; eauto. Qed.
    Lemma starts_len : length starts = ns.
    Proof. apply omap_length in Hst. rewrite seq_length in Hst. auto. Qed.
    Lemma start_at k Y : nth_error subs k = Some Y -> nth_error starts k = Some (getn starts k) /\ getn starts k + (x_out Y - 1) = getn m (nv + k).
    Proof.
      intros HY. assert (Hk : k < ns) by (apply nth_error_Some_lt in HY; lia). destruct (nth_error_Some_ex starts k ltac:(rewrite starts_len; auto)) as [s Hs]. rewrite (getn_nth _ _ _ Hs). split; auto.
      destruct (omap_at _ _ _ k k Hst) as [s' [Ho2 Ho1]]; [rewrite nth_error_seq by auto; auto|]. rewrite Hs in Ho2. injection Ho2 as <-.
      rewrite (adv_call _ _ HY) in Ho1. destruct (Nat.leb_spec (x_out Y - 1) (getn m (nv + k))); [|discriminate]. cbn [guard obind] in Ho1. apply (f_equal (fun o => match o with Some v => v | None => 0 end)) in Ho1. cbv beta iota in Ho1. lia.
    Qed.
    Lemma m_out k l Y y : nth_error cl k = Some l -> nth_error subs k = Some Y -> In y (cl_outs l) -> getn m y = getn starts k + x_out Y.
    Proof.
      intros Hl HY Hy. destruct (out_kind _ _ _ Hl Hy) as [Hk Hr]. rewrite (m_single (nv + k) y (edge_out _ _ _ Hl Hy)).
      - rewrite (init_at _ _ Hk), (adv_at _ _ Hk). cbn [kind_min kind_adv]. destruct (start_at _ _ HY) as [_ Hs]. destruct (sub_at k) as [Y' [HY' Ho]]; [apply nth_error_Some_lt in Hl; auto|]. assert (Y' = Y) by congruence. subst. lia.
      - intros z Hz. destruct (edge_inv _ _ Hz) as [[e [H1 _]]|[[k' [l' [H1 [-> _]]]]|[k' [l' [H1 [H2 ->]]]]]].
        + congruence.
        + lia.
        + destruct (out_kind _ _ _ H1 H2) as [H3 _]. congruence.
    Qed.
    Lemma m_arg k l Y x : nth_error cl k = Some l -> nth_error subs k = Some Y -> In x (cl_ins l) -> getn m x <= getn starts k.
    Proof. intros Hl HY Hx. pose proof (m_edge _ _ (edge_arg _ _ _ Hl Hx)) as H. rewrite (adv_call _ _ HY) in H. destruct (start_at _ _ HY) as [_ Hs]. lia. Qed.
    Lemma mo_ge x : x < nv + ns -> getn m x <= d_mo c subs.
    Proof. intros H. unfold d_mo. apply maxl_in, getn_In. rewrite m_len. auto. Qed.
    Lemma mo_call k Y : nth_error subs k = Some Y -> getn starts k + x_out Y <= d_mo c subs + 1.
    Proof.
      intros HY. destruct (start_at _ _ HY) as [_ Hs]. assert (Hk : k < ns) by (apply nth_error_Some_lt in HY; lia). pose proof (mo_ge (nv + k) ltac:(lia)). destruct (sub_at k Hk) as [Y' [HY' Ho]]. assert (Y' = Y) by congruence. subst. lia.
    Qed.
    Lemma out1_var x : 1 <= x < nv -> getn m x <= d_out1 c subs starts.
    Proof.
      intros H. unfold d_out1. apply maxl_in. apply in_app_iff. right. assert (Hl : x - 1 < length (firstn (nv - 1) (skipn 1 m))) by (rewrite firstn_length, skipn_length, m_len; lia).
      assert (He : getn (firstn (nv - 1) (skipn 1 m)) (x - 1) = getn m x).
      { unfold getn. transitivity (nth (x - 1) (skipn 1 m) 0).
        - rewrite <- (firstn_skipn (nv - 1) (skipn 1 m)) at 2. rewrite app_nth1; auto.
        - rewrite <- (firstn_skipn 1 m) at 2. rewrite app_nth2 by (rewrite firstn_length, m_len; lia). f_equal. rewrite firstn_length, m_len. lia. }
      rewrite <- He. apply getn_In; auto.
    Qed.
    Lemma out1_call k Y : nth_error subs k = Some Y -> getn starts k + x_out Y <= d_out1 c subs starts.
    Proof.
      intros HY. unfold d_out1. apply maxl_in. apply in_app_iff. left. apply in_map_iff. destruct (start_at _ _ HY) as [Hs _]. exists (getn starts k, x_out Y). split; auto.
      assert (Hn : nth_error (combine starts (d_deps subs)) k = Some (getn starts k, x_out Y)).
      { apply combine_at; auto. unfold d_deps. rewrite nth_error_map, HY. auto. }
      eapply nth_error_In; eauto.
    Qed.
    (* ---- combined constraints *)
    Notation mo := (d_mo c subs).
    Definition d_raw := cc_raw (constraints c) m starts (map x_cc subs).
    Definition d_M := fst (d_rh root c subs starts).
    Lemma raw_fst i x : In x (fst (d_raw i)) <-> In x (constraints c) /\ S (getn m x) = i.
    Proof. unfold d_raw, cc_raw. cbn [fst]. rewrite filter_In, Nat.eqb_eq. reflexivity. Qed.
    Lemma raw_snd i k : In k (snd (d_raw i)) <-> k < ns /\ exists Y, nth_error subs k = Some Y /\ getn starts k < i /\ cc_at (x_cc Y) (i - 1 - getn starts k) = true.
    Proof.
      unfold d_raw, cc_raw. cbn [snd]. rewrite filter_In, in_seq, starts_len. split.
      - intros [H1 H2]. split; [lia|]. destruct (sub_at k ltac:(lia)) as [Y [HY _]]. exists Y. split; auto. rewrite (proj1 (start_at _ _ HY)), nth_error_map, HY in H2. cbn [option_map] in H2. apply andb_true_iff in H2. rewrite Nat.ltb_lt in H2. auto.
      - intros [H1 [Y [HY [H2 H3]]]]. split; [lia|]. rewrite (proj1 (start_at _ _ HY)), nth_error_map, HY. cbn [option_map]. apply andb_true_iff. rewrite Nat.ltb_lt. auto.
    Qed.
    Lemma con_range x : In x (constraints c) -> 1 <= x < nv.
    Proof. intros H. pose proof (wf_con _ _ Hw) as Hc. rewrite Forall_forall in Hc. apply Hc in H. change (0 < x <= ni + nouts DI (instructions c)) in H. rewrite nv_sum. lia. Qed.
    Lemma raw_range i : cc_nonempty (d_raw i) = true -> 1 <= i <= mo + 1.
    Proof.
      intros H. unfold cc_nonempty in H. destruct (fst (d_raw i)) as [|x l] eqn:E1.
      - destruct (snd (d_raw i)) as [|k l] eqn:E2; [discriminate|]. assert (Hk : In k (snd (d_raw i))) by (rewrite E2; left; auto). apply raw_snd in Hk. destruct Hk as [H1 [Y [HY [H2 H3]]]].
        apply Hcci in H3; [|eapply nth_error_In; eauto]. pose proof (mo_call _ _ HY). lia.
      - assert (Hx : In x (fst (d_raw i))) by (rewrite E1; left; auto). apply raw_fst in Hx. destruct Hx as [H1 <-]. pose proof (mo_ge x ltac:(apply con_range in H1; lia)). lia.
    Qed.
    Lemma M_rel : (root = false \/ find_first cc_nonempty (map d_raw (seq 0 (mo + 3))) = None) /\ d_M = map d_raw (seq 0 (mo + 3)) /\ snd (d_rh root c subs starts) = false \/
      exists first, root = true /\ find_first cc_nonempty (map d_raw (seq 0 (mo + 3))) = Some first /\ snd (d_rh root c subs starts) = true /\
        d_M = map (fun i => let p := d_raw i in (if first <? i then fst p ++ [i - 1 - first + d_n c] else fst p, snd p)) (seq 0 (mo + 2)).
    Proof.
      unfold d_M, d_rh, cc_merge. fold d_raw. destruct root; [|left; auto]. destruct (find_first cc_nonempty (map d_raw (seq 0 (mo + 3)))) as [first|] eqn:Ef; [|left; auto].
      right. exists first. split; [auto|]. split; [auto|]. split; [auto|]. cbn [fst]. apply map_ext_in. intros i Hi. apply in_seq in Hi.
      replace (nth i (map d_raw (seq 0 (mo + 3))) ([], [])) with (d_raw i); auto. symmetry. apply nth_error_nth. rewrite nth_error_map, nth_error_seq by lia. auto.
    Qed.
    Lemma first_spec first : find_first cc_nonempty (map d_raw (seq 0 (mo + 3))) = Some first -> 1 <= first <= mo + 1 /\ cc_nonempty (d_raw first) = true /\ forall i, i < first -> cc_nonempty (d_raw i) = false.
    Proof.
      intros H. destruct (find_first_some _ _ _ H) as [[x [H1 H2]] H3]. rewrite nth_error_map in H1. assert (Hl : first < mo + 3). { destruct (Nat.lt_ge_cases first (mo + 3)); auto. rewrite (proj2 (nth_error_None (seq 0 (mo + 3)) first)) in H1 by (rewrite seq_length; auto). discriminate. }
      rewrite nth_error_seq in H1 by auto. cbn in H1. injection H1 as <-. split; [apply raw_range; auto|]. split; auto. intros i Hi. apply (H3 i); auto. rewrite nth_error_map, nth_error_seq by lia. auto.
    Qed.
    Lemma M_none : find_first cc_nonempty (map d_raw (seq 0 (mo + 3))) = None -> forall i, cc_nonempty (d_raw i) = false.
    Proof.
      intros H i. destruct (cc_nonempty (d_raw i)) eqn:E; auto. pose proof (raw_range i E). rewrite <- E. apply (find_first_none _ _ H). apply in_map, in_seq. lia.
    Qed.
    Notation cc0 := (d_cc0 root c subs starts).
    Lemma map_seq_at {A} (f : nat -> A) N i : nth_error (map f (seq 0 N)) i = if i <? N then Some (f i) else None.
    Proof.
      rewrite nth_error_map. destruct (Nat.ltb_spec i N); [rewrite nth_error_seq by auto; auto|]. rewrite (proj2 (nth_error_None _ _)) by (rewrite seq_length; auto). auto.
    Qed.
    Lemma cc0_root first : find_first cc_nonempty (map d_raw (seq 0 (mo + 3))) = Some first -> root = true -> forall i, cc_at cc0 i = true <-> first <= i <= mo + 1.
    Proof.
      intros Hf Hr i. destruct M_rel as [[[H|H] _]|[first' [_ [Hf' [_ HM]]]]]; [congruence|congruence|]. assert (first' = first) by congruence. subst first'. destruct (first_spec _ Hf) as [F1 [F2 F3]].
      unfold d_cc0. rewrite cc_num_at. fold d_M. rewrite HM. setoid_rewrite map_seq_at. split.
      - intros [p [P1 P2]]. destruct (Nat.ltb_spec i (mo + 2)); [|discriminate]. apply Some_inj in P1; subst p; cbv zeta in P2; cbv zeta. split; [|lia]. destruct (Nat.le_gt_cases first i) as [|Hlt]; auto. replace (first <? i) with false in P2 by (symmetry; apply Nat.ltb_ge; lia). specialize (F3 i Hlt). unfold cc_nonempty in *. cbn [fst snd] in P2. congruence.
      - intros [P1 P2]. destruct (Nat.ltb_spec i (mo + 2)); [|lia]. eexists. split; [reflexivity|]. destruct (Nat.ltb_spec first i) as [Hlt|Hge'].
        + unfold cc_nonempty. cbn [fst snd]. rewrite app_length. cbn [length]. replace (length (fst (d_raw i)) + 1 =? 0) with false by (symmetry; apply Nat.eqb_neq; lia). auto.
        + assert (i = first) by lia. subst i. unfold cc_nonempty in *. cbn [fst snd]. auto.
    Qed.
    (* what the combined constraint of a layer holds *)
    Lemma cc0_inv i a : nth_error cc0 i = Some (Some a) -> 1 <= i <= mo + 1 /\ cc_subs a = snd (d_raw i) /\ (exists r, cc_id a = d_n c + r /\ nth_error (d_cl0 root c subs starts) r = Some i) /\
      exists ch, cc_vars a = fst (d_raw i) ++ ch /\ (ch = [] \/ exists v, ch = [v] /\ nv <= v) /\ (ch <> [] <-> root = true /\ cc_at cc0 (i - 1) = true) /\
        (forall v, In v ch -> exists a', nth_error cc0 (i - 1) = Some (Some a') /\ cc_id a' = v).
    Proof.
      intros H. destruct (cc_num _ _ 0 _ _ H) as [p [r [H1 [H2 [H3 [H4 [H5 H6]]]]]]]. fold d_M in H1, H6. cbn [Nat.add] in H6. fold (d_cc0 root c subs starts) in H6. fold (d_cl0 root c subs starts) in H6.
      rewrite H3, H4. assert (Hat : forall j, cc_at cc0 j = true <-> exists p, nth_error d_M j = Some p /\ cc_nonempty p = true) by (intros j; apply cc_num_at).
      destruct M_rel as [[Hr [HM _]]|[first [Hr [Hf [_ HM]]]]].
      - rewrite HM, map_seq_at in H1. destruct (Nat.ltb_spec i (mo + 3)) as [Hi|]; [|discriminate]. apply Some_inj in H1; subst p; cbv zeta in *. split; [apply raw_range; auto|]. split; auto. split; [eauto|]. exists []. rewrite app_nil_r. split; auto. split; auto. split; [|intros v []].
        split; [congruence|]. intros [Ht Hc]. exfalso. destruct Hr as [Hr|Hr]; [congruence|]. rewrite (M_none Hr i) in H2. discriminate.
      - rewrite HM, map_seq_at in H1. destruct (Nat.ltb_spec i (mo + 2)) as [Hi|]; [|discriminate]. apply Some_inj in H1; subst p; cbv zeta in *. cbn [fst snd] in *. destruct (first_spec _ Hf) as [F1 [F2 F3]].
        assert (Hge : first <= i). { destruct (Nat.le_gt_cases first i) as [|Hlt]; auto. replace (first <? i) with false in H2 by (symmetry; apply Nat.ltb_ge; lia). specialize (F3 i Hlt). unfold cc_nonempty in *. cbn [fst snd] in H2. congruence. }
        split; [lia|]. split; auto. split; [eauto|].
        assert (Hats : forall j, cc_at cc0 j = true <-> first <= j <= mo + 1).
        { intros j. apply cc0_root; auto. }
        exists (if first <? i then [i - 1 - first + d_n c] else []). destruct (Nat.ltb_spec first i) as [Hlt|Hge'].
        + split; auto. split; [right; eexists; split; [reflexivity|]; unfold d_n; lia|]. split; [split; [intros _; split; auto; apply Hats; lia|congruence]|]. intros v [<-|[]].
          assert (Hc : cc_at cc0 (i - 1) = true) by (apply Hats; lia). apply cc_at_iff in Hc. destruct Hc as [a' Ha']. exists a'. split; auto.
          destruct (cc_num _ _ 0 _ _ Ha') as [p' [r' [_ [_ [_ [_ [K5 K6]]]]]]]. rewrite K5. cbn [Nat.add] in K6.
          assert (Hseq : forall (l : list (option CC)) j0 f r' j, (forall j, cc_at l j = true -> f <= j) -> (forall j, f <= j -> j < length l -> cc_at l j = true) -> nth_error (cc_layers l j0) r' = Some j -> j = j0 + f + r').
          { clear. induction l as [|o l IH]; intros j0 f r' j L1 L2 L3; [destruct r'; discriminate|]. destruct o as [b|]; cbn [cc_layers] in L3.
            - assert (f = 0) by (specialize (L1 0 eq_refl); lia). subst f. destruct r' as [|r']; cbn in L3; [injection L3 as <-; lia|]. rewrite (IH (S j0) 0 r' j); [lia| | |auto]; [intros; lia|]. intros q Hq Hl. apply (L2 (S q)); cbn; lia.
            - destruct f as [|f]; [specialize (L2 0 ltac:(lia) ltac:(cbn; lia)); discriminate|]. rewrite (IH (S j0) f r' j); [lia| | |auto]; [intros q Hq; specialize (L1 (S q) Hq); lia|]. intros q Hq Hl. apply (L2 (S q)); cbn; lia. }
          assert (Hlen : length cc0 = mo + 2) by (unfold d_cc0; rewrite cc_num_len; fold d_M; rewrite HM, map_length, seq_length; auto).
          rewrite (Hseq _ 0 first r' (i - 1) (fun j Hj => proj1 (proj1 (Hats j) Hj)) (fun j Hj Hl => proj2 (Hats j) ltac:(lia)) K6). lia.
        + rewrite app_nil_r. split; auto. split; auto. split; [|intros v []]. split; [congruence|]. intros [_ Hc]. apply Hats in Hc. lia.
    Qed.
    Lemma cc0_ex i : cc_nonempty (d_raw i) = true -> exists a, nth_error cc0 i = Some (Some a) /\ incl (fst (d_raw i)) (cc_vars a) /\ cc_subs a = snd (d_raw i).
    Proof.
      intros Hi. pose proof (raw_range i Hi) as Hr. assert (HM : exists p, nth_error d_M i = Some p /\ cc_nonempty p = true /\ incl (fst (d_raw i)) (fst p) /\ snd p = snd (d_raw i)).
      { destruct M_rel as [[_ [HM _]]|[first [_ [Hf [_ HM]]]]]; rewrite HM, map_seq_at.
        - replace (i <? mo + 3) with true by (symmetry; apply Nat.ltb_lt; lia). exists (d_raw i). split; auto. split; auto. split; auto. apply incl_refl.
        - replace (i <? mo + 2) with true by (symmetry; apply Nat.ltb_lt; lia). eexists. split; [reflexivity|]. cbn [fst snd]. destruct (Nat.ltb_spec first i).
          + split; [|split; auto; apply incl_appl, incl_refl]. unfold cc_nonempty. cbn [fst snd]. rewrite app_length. cbn [length]. replace (length (fst (d_raw i)) + 1 =? 0) with false by (symmetry; apply Nat.eqb_neq; lia). auto.
          + split; [unfold cc_nonempty in *; auto|]. split; auto. apply incl_refl. }
      destruct HM as [p [H1 [H2 [H3 H4]]]]. destruct (cc_num_ex _ (d_n c) _ _ H1 H2) as [a [A1 [A2 A3]]]. exists a. split; auto. rewrite A2, A3. auto.
    Qed.
    (* ---- first and last layers *)
    Notation ml2 := (d_ml2 root c subs starts). Notation adv2 := (d_adv2 root c subs starts). Notation edges2 := (d_edges2 root c subs starts). Notation out := (d_out root c subs starts).
    Notation mx2 := (d_mx2 root c subs starts). Notation ml3 := (d_ml3 root c subs starts). Notation cl0 := (d_cl0 root c subs starts).
    Lemma ml2_at x : x < nv + ns -> getn ml2 x = getn m x.
    Proof. intros H. unfold d_ml2. apply getn_app1. rewrite m_len. auto. Qed.
    Lemma adv_len : length adv = nv + ns.
    Proof. unfold d_adv, d_deps. rewrite app_length, !map_length, Hsubs. auto. Qed.
    Lemma adv2_at x : x < nv + ns -> getn adv2 x = getn adv x.
    Proof. intros H. unfold d_adv2. apply getn_app1. rewrite adv_len. auto. Qed.
    Lemma cc_ml2 i a : nth_error cc0 i = Some (Some a) -> getn ml2 (cc_id a) = i /\ getn adv2 (cc_id a) = 1 /\ nv + ns <= cc_id a < length ml2.
    Proof.
      intros H. destruct (cc0_inv _ _ H) as [_ [_ [[r [H1 H2]] _]]]. assert (Hr : r < length cl0) by (eapply nth_error_Some_lt; eauto). rewrite H1. unfold d_n. split; [|split].
      - unfold d_ml2. rewrite <- m_len, getn_app2. apply getn_nth; auto.
      - unfold d_adv2. rewrite <- adv_len, getn_app2. apply getn_nth. apply nth_error_repeat; auto.
      - unfold d_ml2. rewrite app_length, m_len. lia.
    Qed.
    Lemma edges2_inv x y : In (x, y) edges2 <-> In (x, y) edges \/ exists i a, nth_error cc0 i = Some (Some a) /\ In x (cc_vars a) /\ y = cc_id a.
    Proof.
      unfold d_edges2, cc_edges. rewrite in_app_iff, in_flat_map. apply or_iff_compat_l. split.
      - intros [[a|] [H1 H2]]; [|destruct H2]. apply in_map_iff in H2. destruct H2 as [v [H2 H3]]. injection H2 as <- <-. apply In_nth_error in H1. destruct H1 as [i H1]. exists i, a. auto.
      - intros [i [a [H1 [H2 ->]]]]. exists (Some a). split; [eapply nth_error_In; eauto|]. apply in_map_iff. eauto.
    Qed.
    Lemma out2_ge : d_out1 c subs starts <= d_out2 root c subs starts /\ forall i, cc_at cc0 i = true -> (if root then i else i + 1) <= d_out2 root c subs starts.
    Proof.
      destruct (cc_out_spec root cl0 (d_out1 c subs starts)) as [H1 H2]. split; auto. intros i Hi. apply H2. unfold d_cl0. apply cc_layers_in. split; [lia|]. rewrite Nat.sub_0_r. auto.
    Qed.
    Lemma out_ge : d_out2 root c subs starts <= out /\ 1 <= out.
    Proof.
      assert (d_out2 root c subs starts <= d_out3 root c subs starts). { unfold d_out3. destruct root; auto. specialize (Hroot eq_refl). lia. }
      unfold d_out, d_out4. destruct (existsb _ _); lia.
    Qed.
    Lemma out_var x : 1 <= x < nv -> getn m x <= out.
    Proof. intros H. pose proof (out1_var x H). pose proof out2_ge as [? _]. pose proof out_ge. lia. Qed.
    Lemma out_call k Y : nth_error subs k = Some Y -> getn starts k + x_out Y <= out.
    Proof. intros H. pose proof (out1_call _ _ H). pose proof out2_ge as [? _]. pose proof out_ge. lia. Qed.
    Lemma out_cc i : cc_at cc0 i = true -> (if root then i else i + 1) <= out.
    Proof. intros H. pose proof (proj2 out2_ge i H). pose proof out_ge. lia. Qed.
    Lemma use_range x y : In (x, y) edges2 -> x < nv -> 1 <= x /\ y < length ml2 /\ (forall co, nth_error kd y <> Some (OCoef co)) /\ getn ml2 x + getn adv2 y <= getn ml2 y /\ getn ml2 y - getn adv2 y <= out.
    Proof.
      intros H Hx. apply edges2_inv in H. destruct H as [H|[i [a [H1 [H2 ->]]]]].
      - pose proof (edge_range _ _ H) as [R1 [R2 R3]]. split; [lia|]. split; [unfold d_ml2; rewrite app_length, m_len; lia|]. split; auto. rewrite !ml2_at, adv2_at by lia. split; [apply m_edge; auto|].
        destruct (edge_inv _ _ H) as [[e [H1 [_ H2]]]|[[k [l [H1 [-> H2]]]]|[k [l [H1 [H2 ->]]]]]].
        + pose proof (out_var y ltac:(lia)). lia.
        + destruct (sub_at k) as [Y [HY _]]; [lia|]. pose proof (out_call _ _ HY). destruct (start_at _ _ HY) as [_ Hs]. rewrite (adv_call _ _ HY). lia.
        + lia.
      - destruct (cc_ml2 _ _ H1) as [C1 [C2 C3]]. rewrite C1, C2. destruct (cc0_inv _ _ H1) as [_ [_ [_ [ch [D1 [D2 [_ _]]]]]]]. rewrite D1, in_app_iff in H2. destruct H2 as [H2|H2].
        + apply raw_fst in H2. destruct H2 as [H2 H3]. pose proof (con_range _ H2). split; [lia|]. split; [lia|]. split; [|split].
          * intros co. rewrite (proj2 (nth_error_None kd (cc_id a))); [congruence|]. fold (d_kd c). fold (d_nv c). lia.
          * rewrite ml2_at by lia. lia.
          * assert (Hc : cc_at cc0 i = true) by (apply cc_at_iff; eauto). apply out_cc in Hc. destruct root; lia.
        + exfalso. destruct D2 as [->|[v [-> Hv]]]; [destruct H2|]. destruct H2 as [<-|[]]. lia.
    Qed.
    Lemma len2 : nv + ns <= length ml2.
    Proof. unfold d_ml2. rewrite app_length, m_len. lia. Qed.
    Lemma ml3_nc x : x < length ml2 -> (forall co, nth_error kd x <> Some (OCoef co)) -> getn ml3 x = getn ml2 x.
    Proof. intros Hx H. unfold d_ml3. rewrite getn_map_seq by auto. unfold d_kd. destruct (nth_error kd x) as [[|e|co|k]|] eqn:E; auto. exfalso. apply (H co); auto. Qed.
    Lemma mx2_use x y : In (x, y) edges2 -> x < nv -> getn ml2 y - getn adv2 y <= getn mx2 x.
    Proof.
      intros H Hx. pose proof (use_range _ _ H Hx) as [_ [_ [_ [_ Ho]]]]. unfold d_mx2. rewrite getn_map_seq by (pose proof len2; lia). destruct (memb x (outputs c)); auto.
      unfold d_mx. rewrite getn_map_seq by (pose proof len2; lia). apply fold_max_in. apply in_map_iff. exists y. split; auto. apply outs_of_In; auto.
    Qed.
    Lemma mx2_self x : 1 <= x < nv -> getn ml2 x <= getn mx2 x.
    Proof.
      intros Hx. unfold d_mx2. rewrite getn_map_seq by (pose proof len2; lia). destruct (memb x (outputs c)); [rewrite ml2_at by lia; apply out_var; auto|].
      unfold d_mx. rewrite getn_map_seq by (pose proof len2; lia). apply fold_max_ge.
    Qed.
    Lemma ml3_facts x : 1 <= x < nv -> getn ml2 x <= getn ml3 x <= out /\ getn ml3 x <= getn mx2 x /\ forall y, In (x, y) edges2 -> getn ml3 x <= getn ml2 y - getn adv2 y.
    Proof.
      intros Hx. pose proof len2. pose proof (out_var x Hx) as Ho. pose proof (mx2_self x Hx) as Hm. assert (Hu : forall y, In (x, y) edges2 -> getn ml2 x <= getn ml2 y - getn adv2 y) by (intros y Hy; pose proof (use_range _ _ Hy ltac:(lia)); lia).
      rewrite <- ml2_at in Ho by lia. unfold d_ml3. rewrite getn_map_seq by lia. destruct (nth_error (d_kd c) x) as [[|e|co|k]|]; try (split; [lia|]; split; [lia|]; auto).
      destruct (getn mx2 x =? out) eqn:Eo; [split; [lia|]; split; [lia|]; auto|]. set (ys := map _ (outs_of edges2 x)). pose proof (fold_min_le ys (Nat.min out (getn mx2 x))) as Hle. split; [split; [|lia]|split; [lia|]].
      - apply fold_min_ge; [lia|]. intros z Hz. apply in_map_iff in Hz. destruct Hz as [y [<- Hy]]. apply outs_of_In in Hy. auto.
      - intros y Hy. apply fold_min_in. apply in_map_iff. exists y. split; auto. apply outs_of_In. auto.
    Qed.

    (* ---- occurrences and used layers *)
    Variable occ : list (list nat).
    Hypothesis Hocc : (if cross then omap (fun x => if x =? 0 then Some [] else occured edges2 adv2 ml3 mx2 (outputs c) out x) (seq 0 (length ml2)) else Some []) = Some occ.
    Lemma occ_at x : cross = true -> 1 <= x < nv -> exists t, nth x occ [] = getn ml3 x :: t /\ StronglySorted lt (getn ml3 x :: t) /\
      forall i, In i (nth x occ []) <-> i = getn ml3 x \/ (exists y, In (x, y) edges2 /\ i = getn ml3 y - getn adv2 y) \/ (In x (outputs c) /\ i = out).
    Proof.
      intros Hc Hx. rewrite Hc in Hocc. pose proof len2. destruct (omap_at _ _ _ x x Hocc) as [t [H1 H2]]; [rewrite nth_error_seq by lia; auto|]. destruct (Nat.eqb_spec x 0); [lia|]. rewrite (nth_error_nth _ _ _ H1).
      unfold occured in H2. set (l := getn ml3 x :: _) in H2. destruct ((hd 0 (dedup (isort Nat.leb l)) =? getn ml3 x) && (last (dedup (isort Nat.leb l)) 0 =? getn mx2 x)) eqn:E; [|discriminate]. apply Some_inj in H2. subst t.
      apply andb_true_iff in E. destruct E as [E _]. apply Nat.eqb_eq in E.
      assert (Hin : forall i, In i (dedup (isort Nat.leb l)) <-> In i l). { intros i. rewrite dedup_In. split; apply Permutation_in; [|apply Permutation_sym]; apply isort_perm. }
      pose proof (dedup_sorted _ (isort_le l)) as Hs. destruct (dedup (isort Nat.leb l)) as [|a t] eqn:Ed; [exfalso; apply (proj2 (Hin (getn ml3 x))); left; auto|].
      cbn [hd] in E. subst a. exists t. split; auto. split; auto. intros i. rewrite Hin. unfold l. cbn [In]. rewrite in_app_iff, in_map_iff. split.
      - intros [<-|[[y [<- Hy]]|Hi]]; auto; [right; left; exists y; split; auto; apply outs_of_In; auto|]. destruct (memb x (outputs c)) eqn:Em; [|destruct Hi]. apply memb_spec in Em. destruct Hi as [<-|[]]. auto.
      - intros [->|[[y [Hy ->]]|[Hi ->]]]; auto; [right; left; exists y; split; auto; apply outs_of_In; auto|]. apply memb_spec in Hi. rewrite Hi. right; right. left; auto.
    Qed.
    Variable lcs : list (LC).
    Definition d_X : Ctx := {| x_c := c; x_kinds := kinds c; x_calls := calls_of c; x_starts := starts; x_deps := d_deps subs; x_min := ml3; x_max := mx2; x_occ := occ; x_out := out; x_used := d_used root c subs starts occ;
      x_cc := d_cc root c subs starts; x_lcs := lcs |}.
    Lemma in_use x y : In (x, y) edges2 -> x < nv -> in_layer cross d_X x (getn ml2 y - getn adv2 y) = true.
    Proof.
      intros H Hx. pose proof (use_range _ _ H Hx) as [U1 [U2 [U3 [U4 U5]]]]. unfold in_layer, d_X. cbn [x_occ x_min x_max]. destruct (Bool.bool_dec cross true) as [Ec|Ec]; [|apply not_true_is_false in Ec]; rewrite Ec.
      - apply memb_spec. destruct (occ_at x Ec ltac:(lia)) as [t [_ [_ H3]]]. apply H3. right; left. exists y. split; auto. rewrite ml3_nc; auto.
      - apply andb_true_iff. rewrite !Nat.leb_le. split; [apply ml3_facts; auto|apply mx2_use; auto].
    Qed.
    Lemma in_out x : In x (outputs c) -> 1 <= x < nv -> in_layer cross d_X x out = true.
    Proof.
      intros H Hx. unfold in_layer, d_X. cbn [x_occ x_min x_max]. destruct (Bool.bool_dec cross true) as [Ec|Ec]; [|apply not_true_is_false in Ec]; rewrite Ec.
      - apply memb_spec. destruct (occ_at x Ec ltac:(lia)) as [t [_ [_ H3]]]. apply H3. right; right. auto.
      - apply andb_true_iff. rewrite !Nat.leb_le. split; [apply ml3_facts; auto|]. unfold d_mx2. rewrite getn_map_seq by (pose proof len2; lia). apply memb_spec in H. rewrite H. auto.
    Qed.
    Lemma used_facts : (forall i, 1 <= i <= out -> getn (d_used root c subs starts occ) i <= i - 1) /\
      (forall a b, In (a, b) (flat_map pairs occ) -> b <= out -> getn (d_used root c subs starts occ) b <= a) /\
      (forall k Y j, nth_error subs k = Some Y -> j <= x_out Y -> getn (d_used root c subs starts occ) (j + getn starts k) <= getn (x_used Y) j + getn starts k).
    Proof.
      assert (L0 : length (0 :: seq 0 out) = S out) by (cbn; rewrite seq_length; auto).
      assert (U0 : d_used0 root c subs starts = fold_left (fun u (p : nat * Ctx) => fold_left (fun u j => upd u (j + fst p) (Nat.min (getn u (j + fst p)) (getn (x_used (snd p)) j + fst p))) (seq 0 (S (x_out (snd p)))) u) (combine starts subs) (0 :: seq 0 out)).
      { unfold d_used0. generalize (0 :: seq 0 out). induction (combine starts subs) as [|[st X] l IH]; intros u; cbn [fold_left]; auto. }
      destruct (min_fold2 (fun (p : nat * Ctx) j => j + fst p) (fun p j => getn (x_used (snd p)) j + fst p) (fun p => seq 0 (S (x_out (snd p)))) (combine starts subs) (0 :: seq 0 out)) as [A1 [A2 A3]]. cbv zeta in *. rewrite <- U0 in A1, A2, A3.
      destruct (min_fold (fun p : nat * nat => snd p) fst (flat_map pairs occ) (d_used0 root c subs starts)) as [B1 [B2 B3]]. cbv zeta in *. fold (d_used root c subs starts occ) in *.
      split; [|split].
      - intros i Hi. etransitivity; [apply B2|]. etransitivity; [apply A2|]. destruct i as [|i]; [lia|]. unfold getn. cbn [nth]. rewrite seq_nth; lia.
      - intros a b Hab Hb. apply (B3 (a, b) Hab). cbn [snd]. rewrite A1, L0. lia.
      - intros k Y j HY Hj. destruct (start_at _ _ HY) as [Hs _]. etransitivity; [apply B2|]. apply (A3 (getn starts k, Y) j).
        + eapply nth_error_In. apply combine_at; eauto.
        + cbn [snd]. apply in_seq. lia.
        + cbn [fst]. rewrite L0. pose proof (out_call _ _ HY). lia.
    Qed.
    Lemma cc_same i a : nth_error (d_cc root c subs starts) i = Some (Some a) <-> nth_error cc0 i = Some (Some a).
    Proof.
      destruct (cc_popped cc0 (d_out2 root c subs starts)) as [t [H1 _]]. fold (d_cc1 root c subs starts) in H1. rewrite H1, nth_error_none_tail. unfold d_cc. destruct (out =? length (d_cc1 root c subs starts)); [|reflexivity].
      apply (nth_error_none_tail _ 1).
    Qed.
    Lemma cc_at_same i : cc_at (d_cc root c subs starts) i = cc_at cc0 i.
    Proof. apply eq_true_iff_eq. rewrite !cc_at_iff. split; intros [a H]; exists a; apply cc_same; auto. Qed.
    (* nothing is added after the last layer of the root circuit *)
    Lemma root_out first : root = true -> find_first cc_nonempty (map d_raw (seq 0 (mo + 3))) = Some first -> out = mo + 1.
    Proof.
      intros Hr Hf. assert (Hlen : length cc0 = mo + 2).
      { unfold d_cc0. rewrite cc_num_len. fold d_M. destruct M_rel as [[[H|H] _]|[first' [_ [_ [_ HM]]]]]; [congruence|congruence|]. rewrite HM, map_length, seq_length. auto. }
      destruct (cc_popped cc0 (d_out2 root c subs starts)) as [t [H1 H2]]. fold (d_cc1 root c subs starts) in *. destruct (first_spec _ Hf) as [F1 _].
      assert (Hat : cc_at cc0 (mo + 1) = true) by (apply (cc0_root first); auto; lia). apply cc_at_iff in Hat. destruct Hat as [a Ha].
      assert (Hl1 : length (d_cc1 root c subs starts) = mo + 2).
      { rewrite H1 in Ha. apply nth_error_none_tail in Ha. apply nth_error_Some_lt in Ha. rewrite H1, app_length, repeat_length in Hlen. lia. }
      assert (Ho4 : d_out4 root c subs starts = mo + 1) by (unfold d_out4, d_out3; rewrite Hr in *; rewrite Hl1; lia).
      unfold d_out. rewrite Ho4. assert (Hp : existsb (d_partial root c subs starts) (seq 0 ns) = false); [|rewrite Hp; auto].
      apply not_true_iff_false. rewrite existsb_exists. intros [k [Hk Hp]]. apply in_seq in Hk. unfold d_partial in Hp. rewrite Ho4 in Hp. apply andb_true_iff in Hp. destruct Hp as [Hp P3]. apply andb_true_iff in Hp. destruct Hp as [P1 P2].
      destruct (outs_of edges2 (nv + k)) as [|y ys] eqn:Ey; [discriminate|]. cbn [forallb] in P1. apply andb_true_iff in P1. destruct P1 as [P1 _]. apply Nat.eqb_eq in P1.
      assert (He : In (nv + k, y) edges2) by (apply outs_of_In; rewrite Ey; left; auto). apply edges2_inv in He. destruct He as [He|[i [b [B1 [B2 ->]]]]].
      - pose proof (edge_range _ _ He) as [_ [R _]]. rewrite ml2_at in P1 by lia. pose proof (mo_ge y ltac:(lia)). lia.
      - destruct (cc0_inv _ _ B1) as [_ [_ [_ [ch [D1 [_ [_ D4]]]]]]]. rewrite D1 in B2. apply in_app_iff in B2. destruct B2 as [B2|B2]; [apply raw_fst in B2; destruct B2 as [B2 _]; apply con_range in B2; lia|].
        destruct (D4 _ B2) as [b' [D5 D6]]. apply cc_ml2 in D5. lia.
    Qed.
    (* ---- all of it *)
    Variable cs : list (nat * Circuit DI).
    Variable ctxs : list (nat * Ctx).
    Variable id : nat.
    Hypothesis Hid : lookup id cs = Some c.
    Hypothesis Hrid : root = (id =? 0).
    Hypothesis Hfin : forall k l, nth_error cl k = Some l -> cl_sub l <> 0 /\ exists Y l', nth_error subs k = Some Y /\ lookup (cl_sub l) ctxs = Some (with_lcs Y l').
    Hypothesis Hlcs : omap (lc_at cross d_X) (seq 0 (S out)) = Some lcs.
    Lemma sub_of k l Z : nth_error cl k = Some l -> lookup (cl_sub l) ctxs = Some Z -> exists Y, nth_error subs k = Some Y /\ x_out Z = x_out Y /\ x_cc Z = x_cc Y /\ x_used Z = x_used Y.
    Proof. intros Hl HZ. destruct (Hfin k l Hl) as [_ [Y [l' [H1 H2]]]]. rewrite H2 in HZ. injection HZ as <-. exists Y. auto. Qed.
    Lemma start_X k : start_of d_X k = getn starts k.
    Proof. reflexivity. Qed.
    Lemma end_X k Y : nth_error subs k = Some Y -> end_of d_X k = getn starts k + x_out Y.
    Proof. intros H. unfold end_of, d_X. cbn [x_starts x_deps]. f_equal. apply getn_nth. unfold d_deps. rewrite nth_error_map, H. auto. Qed.
    Lemma compute_ok : ctx_ok cross cs ctxs id d_X.
    Proof.
      assert (Hmin : forall x, 1 <= x < nv -> (forall co, nth_error kd x <> Some (OCoef co)) -> getn ml3 x = getn m x).
      { intros x Hx Hc. rewrite ml3_nc; auto; [apply ml2_at; lia|pose proof len2; lia]. }
      assert (HmX : forall x, getn (x_min d_X) x = getn ml3 x) by reflexivity. assert (Hnv : x_nv d_X = nv) by reflexivity.
      assert (Hsubk : forall k l, nth_error (x_calls d_X) k = Some l -> exists Y, nth_error subs k = Some Y).
      { intros k l Hk. destruct (Hfin k l Hk) as [_ [Y [l' [H1 _]]]]. eauto. }
      assert (Hexpr : forall x e, nth_error kd x = Some (OExpr e) -> S ni <= x < nv).
      { intros x e H. destruct (kd_tail _ _ H ltac:(congruence)) as [H1 _]. apply nth_error_Some_lt in H. fold (d_kd c) in H. fold (d_nv c) in H. lia. }
      constructor.
      - exact Hid.
      - reflexivity.
      - reflexivity.
      - intros k l Hk. destruct (Hfin k l Hk) as [H0 [Y [l' [H1 H2]]]]. split; auto. eexists. split; [exact H2|]. cbn [x_deps d_X with_lcs x_out]. apply getn_nth. unfold d_deps. rewrite nth_error_map, H1. auto.
      - apply out_ge.
      - intros x Hx. change (1 <= x <= ni) in Hx. pose proof nv_sum. rewrite HmX, Hmin; [|lia|rewrite kinds_head by lia; congruence]. rewrite m_noin by (apply noin_in; lia). rewrite (init_at _ _ (kinds_head c x ltac:(lia))). auto.
      - intros x e H. change (nth_error kd x = Some (OExpr e)) in H. pose proof (Hexpr _ _ H). rewrite HmX, Hmin by (auto; try lia; congruence).
        etransitivity; [|apply (proj1 (proj2 (relax_any _ _ _ _)))]. fold (d_init c). rewrite (init_at _ _ H). auto.
      - intros x co H. change (nth_error kd x = Some (OCoef co)) in H. destruct (kd_tail _ _ H ltac:(congruence)) as [H1 _]. assert (Hl : x < nv) by (apply nth_error_Some_lt in H; auto). rewrite HmX.
        destruct (ml3_facts x ltac:(lia)) as [H2 _]. rewrite ml2_at in H2 by lia. rewrite m_noin in H2 by (eapply noin_const; eauto). rewrite (init_at _ _ H) in H2. cbn [kind_min] in H2. lia.
      - intros x k H. change (nth_error kd x = Some (OSub k)) in H. destruct (kd_tail _ _ H ltac:(congruence)) as [H1 H2]. assert (Hl : x < nv) by (apply nth_error_Some_lt in H; auto). destruct (kd_cases x ltac:(lia)) as [C|[[e C]|[[co C]|[k' [l [C1 [C2 C3]]]]]]]; [lia|congruence|congruence|].
        assert (k' = k) by congruence. subst k'. destruct (Hsubk k l C2) as [Y HY]. rewrite HmX, Hmin by (try lia; congruence). rewrite (m_out _ _ _ _ C2 HY C3). rewrite (end_X _ _ HY). auto.
      - intros x Hx. rewrite HmX. apply ml3_facts. auto.
      - intros Hc x Hx. destruct (occ_at x Hc Hx) as [t [H1 [H2 _]]]. exists t. rewrite HmX. auto.
      - intros Hc x Hx. rewrite HmX. apply ml3_facts. auto.
      - intros x Hx. apply in_out; auto. pose proof (wf_out _ _ Hw) as Ho. rewrite Forall_forall in Ho. apply Ho in Hx. rewrite nv_sum. lia.
      - intros x e v H Hv. change (nth_error kd x = Some (OExpr e)) in H. destruct (expr_range _ _ _ H Hv) as [R1 R2]. pose proof (Hexpr _ _ H).
        assert (He : In (v, x) edges2) by (apply edges2_inv; left; eapply edge_expr; eauto). pose proof (in_use _ _ He ltac:(lia)) as Hi. rewrite adv2_at, (adv_at _ _ H) in Hi by lia. rewrite HmX, ml3_nc; [auto|pose proof len2; lia|congruence].
      - intros k l v Hk Hv. destruct (Hsubk k l Hk) as [Y HY]. assert (He : In (v, nv + k) edges2) by (apply edges2_inv; left; eapply edge_arg; eauto). pose proof (arg_range _ _ _ Hk Hv).
        pose proof (in_use _ _ He ltac:(lia)) as Hi. assert (k < ns) by (apply nth_error_Some_lt in HY; lia). rewrite ml2_at, adv2_at, (adv_call _ _ HY) in Hi by lia. destruct (start_at _ _ HY) as [_ Hs]. rewrite start_X. replace (getn starts k) with (getn m (nv + k) - (x_out Y - 1)) by lia. auto.
      - intros k l Hk. destruct (Hsubk k l Hk) as [Y HY]. rewrite (end_X _ _ HY). apply out_call. auto.
      - apply used_facts.
      - intros x a b Hx Hab Hb. apply used_facts; auto. change (In (a, b) (pairs (nth x occ []))) in Hab. apply in_flat_map. exists (nth x occ []). split; auto. destruct (Nat.lt_ge_cases x (length occ)); [apply nth_In; auto|]. rewrite nth_overflow in Hab by auto. destruct Hab.
      - intros k l Z j Hk HZ Hj. destruct (sub_of _ _ _ Hk HZ) as [Y [HY [Eo [_ Eu]]]]. rewrite Eu. rewrite start_X. apply used_facts; auto. lia.
      - cbn [x_lcs x_out d_X]. apply omap_length in Hlcs. rewrite seq_length in Hlcs. auto.
      - intros i C HC. cbn [x_lcs d_X] in HC. assert (Hi : i < S out). { apply nth_error_Some_lt in HC. apply omap_length in Hlcs. rewrite seq_length in Hlcs. lia. }
        destruct (omap_at _ _ _ i i Hlcs) as [C' [H1 H2]]; [rewrite nth_error_seq by auto; auto|]. assert (C' = C) by congruence. subst C'. unfold lc_at in H2.
        destruct (vars_at cross d_X i) as [vs|] eqn:Ev; [|discriminate]. cbn [obind] in H2. match type of H2 with (let* p := ?o in _) = _ => destruct o; [|discriminate] end. cbn [obind] in H2. apply Some_inj in H2. subst C. cbn [lc_vars lc_mid]. auto.
      - intros i a H. apply (cc_same i a) in H. destruct (cc0_inv _ _ H) as [C1 [C2 [_ [ch [C3 [C4 [C5 C6]]]]]]]. destruct (cc_ml2 _ _ H) as [D1 [D2 D3]]. split; [lia|]. split; [rewrite Hnv; lia|]. split.
        { rewrite C2. unfold d_raw, cc_raw. cbn [snd]. apply NoDup_filter, seq_NoDup. } split.
        { intros k Hk. rewrite C2 in Hk. apply raw_snd in Hk. destruct Hk as [K1 [Y [_ [K2 _]]]]. split; auto. }
        exists (fst (d_raw i)), ch. split; auto. split; [|split].
        + intros v Hv. assert (Hvc := Hv). apply raw_fst in Hvc. destruct Hvc as [V1 V2]. split; auto. pose proof (con_range _ V1).
          assert (He : In (v, cc_id a) edges2) by (apply edges2_inv; right; exists i, a; split; auto; split; auto; rewrite C3; apply in_app_iff; auto).
          pose proof (in_use _ _ He ltac:(lia)) as Hi. rewrite D1, D2 in Hi. auto.
        + destruct C4 as [C4|[v [C4 C7]]]; [auto|]. right. exists v. rewrite Hnv. auto.
        + rewrite C5. cbn [x_cc d_X]. rewrite cc_at_same. rewrite Hrid. rewrite Nat.eqb_eq. reflexivity.
      - intros i a v H Hv Hnvv. apply (cc_same i a) in H. destruct (cc0_inv _ _ H) as [C1 [C2 [_ [ch [C3 [C4 [C5 C6]]]]]]]. rewrite C3 in Hv. apply in_app_iff in Hv. destruct Hv as [Hv|Hv].
        + apply raw_fst in Hv. destruct Hv as [Hv _]. apply con_range in Hv. rewrite Hnv in Hnvv. lia.
        + destruct (C6 v Hv) as [a' [A1 A2]]. exists a'. split; auto. apply cc_same. auto.
      - intros x Hx. assert (Hr : In x (fst (d_raw (S (getn m x))))) by (apply raw_fst; auto). destruct (cc0_ex (S (getn m x)) (nonempty_fst _ _ Hr)) as [a [A1 [A2 _]]]. exists (S (getn m x)), a.
        split; [|split; [apply cc_same; auto|apply A2; auto]]. assert (Hat : cc_at cc0 (S (getn m x)) = true) by (apply cc_at_iff; eauto). apply out_cc in Hat. cbn [x_out d_X]. destruct root; lia.
      - intros k l Z j Hk HZ Hj. destruct (sub_of _ _ _ Hk HZ) as [Y [HY [Eo [Ec _]]]]. rewrite Ec in Hj. rewrite start_X. assert (Hr : In k (snd (d_raw (j + getn starts k + 1)))).
        { apply raw_snd. split; [apply nth_error_Some_lt in HY; lia|]. exists Y. split; auto. split; [lia|]. replace (j + getn starts k + 1 - 1 - getn starts k) with j by lia. auto. }
        destruct (cc0_ex _ (nonempty_snd _ _ Hr)) as [a [A1 [_ A2]]]. exists a. split; [|split; [apply cc_same; auto|rewrite A2; auto]]. assert (Hat : cc_at cc0 (j + getn starts k + 1) = true) by (apply cc_at_iff; eauto). apply out_cc in Hat. cbn [x_out d_X]. destruct root; lia.
      - intros H0 i Hi. cbn [x_cc d_X x_out] in *. rewrite cc_at_same in *. assert (Hr : root = true) by (rewrite Hrid, H0; auto). split; [pose proof (out_cc _ Hi) as Ho; rewrite Hr in Ho; rewrite Hr; auto|].
        intros Hlt. destruct M_rel as [[[M|M] [HM _]]|[first [_ [Hf _]]]]; [congruence| |].
        + exfalso. apply cc_at_iff in Hi. destruct Hi as [a Ha]. destruct (cc_num _ _ 0 _ _ Ha) as [p [r [P1 [P2 _]]]]. fold d_M in P1. rewrite HM, map_seq_at in P1. destruct (i <? mo + 3); [|discriminate]. apply Some_inj in P1. subst p. rewrite (M_none M i) in P2. discriminate.
        + rewrite (root_out first Hr Hf) in Hlt. apply (cc0_root first) in Hi; auto. apply (cc0_root first); auto. lia.
      - intros H0 i Hi. cbn [x_cc d_X x_out] in *. rewrite cc_at_same in Hi. assert (Hr : root = false) by (rewrite Hrid; apply Nat.eqb_neq; auto). pose proof (out_cc _ Hi) as Ho. rewrite Hr in Ho. rewrite Hr. lia.
    Qed.
    Lemma root_has : root = true -> snd (d_rh root c subs starts) = cc_at (x_cc d_X) (x_out d_X).
    Proof.
      intros Hr. cbn [x_cc d_X x_out]. rewrite cc_at_same. destruct M_rel as [[[M|M] [HM Hs]]|[first [_ [Hf [Hs _]]]]]; [congruence| |]; rewrite Hs; symmetry.
      - apply not_true_is_false. intros Hi. apply cc_at_iff in Hi. destruct Hi as [a Ha]. destruct (cc_num _ _ 0 _ _ Ha) as [p [r [P1 [P2 _]]]]. fold d_M in P1. rewrite HM, map_seq_at in P1. destruct (out <? mo + 3); [|discriminate]. apply Some_inj in P1. subst p. rewrite (M_none M) in P2. discriminate.
      - rewrite (root_out first Hr Hf). apply (cc0_root first); auto. destruct (first_spec _ Hf). lia.
    Qed.
  End One.

  (* ------------------------------------------------------------ all circuits *)
  Lemma calls_from_in (is : list (DInsn F)) : forall cur l, In l (calls_from is cur) -> exists n, In (DCall (cl_sub l) (cl_ins l) n) is.
  Proof.
    induction is as [|[e|id l0 n|co] is IH]; intros cur l H; cbn [calls_from] in H; [destruct H| | |].
    - destruct (IH _ _ H) as [n Hn]. exists n. right; auto.
    - destruct H as [<-|H]; [exists n; left; auto|]. destruct (IH _ _ H) as [n' Hn]. exists n'. right; auto.
    - destruct (IH _ _ H) as [n Hn]. exists n. right; auto.
  Qed.
  Lemma calls_of_in (c : Circuit DI) l : In l (calls_of c) -> In (cl_sub l) (calls c).
  Proof. intros H. destruct (calls_from_in _ _ _ H) as [n Hn]. apply (in_calls DI c (DCall (cl_sub l) (cl_ins l) n) (cl_sub l) (cl_ins l) n Hn). auto. Qed.
  Lemma ofold_inv {A B} (f : A -> B -> option A) (P : A -> Prop) l : forall a r, P a -> (forall a x a', In x l -> P a -> f a x = Some a' -> P a') -> ofold f l a = Some r -> P r.
  Proof.
    induction l as [|x l IH]; intros a r Ha Hf H; cbn [ofold] in H; [injection H as <-; auto|]. destruct (f a x) as [a'|] eqn:E; [|discriminate]. cbn [obind] in H.
    apply (IH a' r); auto; [apply (Hf a x); auto; left; auto|]. intros; eapply Hf; eauto. right; auto.
  Qed.
  Variable cs : list (nat * Circuit DI).
  Hypothesis Hwf : wf_circuits DI cs.
  Variable rank : nat -> nat.
  Hypothesis Hrank : ranked DI cs rank.
  Lemma topo_rank_le : forall fuel id ord ord', topo fuel cs id ord = Some ord' -> forall x, In x ord' -> In x ord \/ rank x <= rank id.
  Proof.
    induction fuel as [|fuel IH]; intros id ord ord' H x Hx; [discriminate|]. cbn [topo] in H. destruct (memb id ord); [injection H as <-; auto|].
    destruct (lookup id cs) as [c|] eqn:Ec; [|discriminate]. cbn [obind] in H. destruct (ofold (fun o l => topo fuel cs (cl_sub l) o) (calls_of c) ord) as [o|] eqn:Eo; [|discriminate]. cbn [obind] in H. injection H as <-.
    apply in_app_iff in Hx. destruct Hx as [Hx|[<-|[]]]; auto.
    assert (Hp : forall x, In x o -> In x ord \/ rank x <= rank id); [|auto].
    refine (ofold_inv _ (fun o => forall x, In x o -> In x ord \/ rank x <= rank id) _ _ _ _ _ Eo); [auto|]. intros a l a' Hl Ha Hf y Hy. destruct (IH _ _ _ Hf y Hy) as [Hy'|Hy']; auto. right.
    pose proof (Hrank id c _ Ec (calls_of_in c l Hl)). lia.
  Qed.
  Lemma topo_last : forall fuel ord, topo fuel cs 0 [] = Some ord -> exists o, ord = o ++ [0] /\ (forall x, In x o -> rank x < rank 0) /\ exists c, lookup 0 cs = Some c.
  Proof.
    intros [|fuel] ord H; [discriminate|]. cbn [topo memb] in H. destruct (lookup 0 cs) as [c|] eqn:Ec; [|discriminate]. cbn [obind existsb] in H. destruct (ofold (fun o l => topo fuel cs (cl_sub l) o) (calls_of c) []) as [o|] eqn:Eo; [|discriminate]. cbn [obind] in H. injection H as <-.
    exists o. split; auto. split; [|eauto]. refine (ofold_inv _ (fun o => forall x, In x o -> rank x < rank 0) _ _ _ _ _ Eo); [intros ? []|].
    intros a l a' Hl Ha Hf y Hy. destruct (topo_rank_le _ _ _ _ Hf y Hy) as [Hy'|Hy']; auto. pose proof (Hrank 0 c _ Ec (calls_of_in c l Hl)). lia.
  Qed.
  Definition entry_ok (l : list (nat * Ctx)) (k id : nat) (X : Ctx) : Prop := exists c h, lookup id cs = Some c /\ compute_layers cross (firstn k l) (id =? 0) c = Some (X, h).
  Lemma all_inv order : forall st r, ofold (fun st id => let* c := lookup id cs in let* r := compute_layers cross (fst st) (id =? 0) c in Some (fst st ++ [(id, fst r)], snd st || snd r)) order st = Some r ->
    (forall k id X, nth_error (fst st) k = Some (id, X) -> entry_ok (fst st) k id X) ->
    (forall k id X, nth_error (fst r) k = Some (id, X) -> entry_ok (fst r) k id X) /\ map fst (fst r) = map fst (fst st) ++ order.
  Proof.
    induction order as [|id order IH]; intros st r H Hst; cbn [ofold] in H.
    - injection H as <-. rewrite app_nil_r. auto.
    - destruct (lookup id cs) as [c|] eqn:Ec; [|discriminate]. cbn [obind] in H. destruct (compute_layers cross (fst st) (id =? 0) c) as [[X h]|] eqn:Ecl; [|discriminate]. cbn [obind] in H.
      apply IH in H; [|].
      + destruct H as [H1 H2]. split; auto. rewrite H2. cbn [fst]. rewrite map_app, <- app_assoc. auto.
      + cbn [fst]. intros k id' X' Hk. unfold entry_ok. destruct (Nat.lt_ge_cases k (length (fst st))) as [Hl|Hl].
        * rewrite nth_error_app1 in Hk by auto. destruct (Hst _ _ _ Hk) as [c' [h' [E1 E2]]]. exists c', h'. split; auto. rewrite firstn_app. replace (k - length (fst st)) with 0 by lia. cbn [firstn]. rewrite app_nil_r. auto.
        * rewrite nth_error_app2 in Hk by auto. destruct (k - length (fst st)) as [|q] eqn:Eq; [|destruct q; discriminate]. cbn in Hk. injection Hk as <- <-. exists c, h. split; auto. assert (k = length (fst st)) by lia. subst k. rewrite firstn_app, Nat.sub_diag, firstn_all. cbn [firstn]. rewrite app_nil_r. auto.
  Qed.
  Lemma lookup_prep (l : list (nat * Ctx)) : forall r, omap (fun p => let* X := prepare cross (snd p) in Some (fst p, X)) l = Some r ->
    forall id Y, lookup id l = Some Y -> exists Y', prepare cross Y = Some Y' /\ lookup id r = Some Y'.
  Proof.
    induction l as [|[i X] l IH]; intros r H id Y HY; [discriminate|]. cbn [omap fst snd] in H. destruct (prepare cross X) as [X'|] eqn:Ep; [|discriminate]. cbn [obind] in H. destruct (omap _ l) as [r'|] eqn:Er; [|discriminate]. cbn [obind] in H. injection H as <-.
    cbn [lookup] in *. destruct (i =? id); [injection HY as <-; eauto|]. eauto.
  Qed.
  Lemma lookup_firstn {A} (l : list (nat * A)) k id Y : lookup id (firstn k l) = Some Y -> lookup id l = Some Y.
  Proof. revert k. induction l as [|[i X] l IH]; intros [|k] H; cbn in *; try discriminate. destruct (i =? id); auto. eapply IH; eauto. Qed.
  Lemma firstn_in_lt {A} (l : list A) k x : In x (firstn k l) -> exists j, j < k /\ nth_error l j = Some x.
  Proof.
    intros H. apply In_nth_error in H. destruct H as [j Hj]. assert (Hl : j < length (firstn k l)) by (eapply nth_error_Some_lt; eauto). exists j. rewrite firstn_length in Hl. split; [lia|].
    rewrite <- (firstn_skipn k l). apply nth_error_app_l. auto.
  Qed.
  Lemma layers_ok fuel order ctxs0 has ctxs : topo fuel cs 0 [] = Some order -> all_layers cross cs order = Some (ctxs0, has) ->
    omap (fun p => let* X := prepare cross (snd p) in Some (fst p, X)) ctxs0 = Some ctxs ->
    (forall id X, lookup id ctxs = Some X -> ctx_ok cross cs ctxs id X) /\ forall X, lookup 0 ctxs = Some X -> has = cc_at (x_cc X) (x_out X).
  Proof.
    intros Ht Ha Hp. destruct (topo_last _ _ Ht) as [o [-> [Ho [c0 Hc0]]]]. unfold all_layers in Ha. pose proof (all_inv _ _ _ Ha ltac:(intros [|k] ? ? Hk; discriminate)) as [He Hk]. cbn [fst map app] in He, Hk.
    assert (Hrk : forall k id X, nth_error ctxs0 k = Some (id, X) -> rank id <= rank 0).
    { intros k id X Hn. apply nth_error_In in Hn. apply (in_map fst) in Hn. rewrite Hk in Hn. apply in_app_iff in Hn. cbn [fst] in Hn. destruct Hn as [Hn|[<-|[]]]; auto. apply Ho in Hn. lia. }
    assert (Hall : forall k id X0, nth_error ctxs0 k = Some (id, X0) -> exists X, prepare cross X0 = Some X /\ nth_error ctxs k = Some (id, X) /\ ctx_ok cross cs ctxs id X /\
      forall c h, lookup id cs = Some c -> compute_layers cross (firstn k ctxs0) (id =? 0) c = Some (X0, h) -> (id = 0 -> h = cc_at (x_cc X) (x_out X)) /\ (id <> 0 -> h = false)).
    { intros k. induction k as [k IH] using lt_wf_ind. intros id X0 Hn. destruct (He _ _ _ Hn) as [c [h [Hc Hcl]]]. destruct (compute_inv _ _ _ _ _ Hcl) as [subs [starts [occ [Hs [Hst [Hr [Hocc [Hhas HX0]]]]]]]].
      pose proof (wf_each _ _ Hwf _ _ Hc) as Hwc.
      destruct (omap_at _ _ _ _ _ Hp Hn) as [y [Hy1 Hy2]]. cbn [fst snd] in Hy2. destruct (prepare cross X0) as [X|] eqn:Ep; [|discriminate]. cbn [obind] in Hy2. injection Hy2 as <-. exists X. split; auto. split; auto.
      assert (Hsub : forall q l, nth_error (calls_of c) q = Some l -> cl_sub l <> 0 /\ exists Y Y', nth_error subs q = Some Y /\ prepare cross Y = Some Y' /\ lookup (cl_sub l) ctxs = Some Y' /\ ctx_ok cross cs ctxs (cl_sub l) Y').
      { intros q l Hl. destruct (omap_at _ _ _ _ _ Hs Hl) as [Y [HY1 HY2]]. assert (Hrl : rank (cl_sub l) < rank 0). { pose proof (Hrank _ _ _ Hc (calls_of_in c l (nth_error_In _ _ Hl))). pose proof (Hrk _ _ _ Hn). lia. }
        split; [intros E0; rewrite E0 in Hrl; lia|]. destruct (lookup_prep _ _ Hp _ _ (lookup_firstn _ _ _ _ HY2)) as [Y' [P1 P2]]. exists Y, Y'. split; auto. split; auto. split; auto.
        apply lookup_In in HY2. destruct (firstn_in_lt _ _ _ HY2) as [j [Hj1 Hj2]]. destruct (IH j Hj1 _ _ Hj2) as [Y'' [Q1 [_ [Q3 _]]]]. assert (Y'' = Y') by congruence. subst Y''. auto. }
      assert (Hwith : forall Y Y' : Ctx, prepare cross Y = Some Y' -> Y' = with_lcs Y (x_lcs Y')).
      { intros Y Y' H. unfold prepare in H. destruct (omap (lc_at cross Y) (seq 0 (S (x_out Y)))) as [l|]; [|discriminate]. injection H as <-. reflexivity. }
      assert (Hls : length subs = d_ns c) by (apply omap_length in Hs; auto).
      assert (Hin : forall Y, In Y subs -> exists Y' l, prepare cross Y = Some Y' /\ cl_sub l <> 0 /\ ctx_ok cross cs ctxs (cl_sub l) Y').
      { intros Y HY. apply In_nth_error in HY. destruct HY as [q HY]. destruct (nth_error_Some_ex (calls_of c) q) as [l Hl]; [apply nth_error_Some_lt in HY; rewrite Hls in HY; auto|].
        destruct (Hsub _ _ Hl) as [N [Y1 [Y' [A1 [A2 [A3 A4]]]]]]. assert (Y1 = Y) by congruence. subst Y1. exists Y', l. auto. }
      assert (Hdep : forall Y, In Y subs -> 1 <= x_out Y).
      { intros Y HY. destruct (Hin Y HY) as [Y' [l [A1 [A2 A3]]]]. pose proof (ok_out _ _ _ _ _ A3) as A4. rewrite (Hwith _ _ A1) in A4. auto. }
      assert (Hcci : forall Y j, In Y subs -> cc_at (x_cc Y) j = true -> j < x_out Y).
      { intros Y j HY Hj. destruct (Hin Y HY) as [Y' [l [A1 [A2 A3]]]]. pose proof (ok_cc_inner _ _ _ _ _ A3 A2 j) as A4. rewrite (Hwith _ _ A1) in A4. auto. }
      assert (Hfin : forall k l, nth_error (calls_of c) k = Some l -> cl_sub l <> 0 /\ exists Y l', nth_error subs k = Some Y /\ lookup (cl_sub l) ctxs = Some (with_lcs Y l')).
      { intros q l Hl. destruct (Hsub _ _ Hl) as [N [Y1 [Y' [A1 [A2 [A3 A4]]]]]]. split; auto. exists Y1, (x_lcs Y'). split; auto. rewrite <- (Hwith _ _ A2). auto. }
      assert (HX : X = d_X (id =? 0) c subs starts occ (x_lcs X)). { rewrite (Hwith _ _ Ep) at 1. subst X0. reflexivity. }
      assert (Hlcs : omap (lc_at cross (d_X (id =? 0) c subs starts occ (x_lcs X))) (seq 0 (S (d_out (id =? 0) c subs starts))) = Some (x_lcs X)).
      { unfold prepare in Ep. destruct (omap (lc_at cross X0) (seq 0 (S (x_out X0)))) as [l|] eqn:El; [|discriminate]. cbn [obind] in Ep. apply Some_inj in Ep. subst X. subst X0. exact El. }
      split.
      - rewrite HX. apply compute_ok; auto.
      - intros c' h' Hc' Hcl'. assert (c' = c) by congruence. subst c'. rewrite Hcl in Hcl'. injection Hcl' as <-. split.
        + intros ->. rewrite Hhas, HX. apply root_has; auto.
        + intros Hn0. rewrite Hhas. apply Nat.eqb_neq in Hn0. rewrite Hn0 in *. reflexivity. }
    assert (Hkeys : forall id X, lookup id ctxs = Some X -> exists k X0, nth_error ctxs0 k = Some (id, X0) /\ nth_error ctxs k = Some (id, X)).
    { intros id X HX. apply lookup_In, In_nth_error in HX. destruct HX as [k Hk']. destruct (nth_error_Some_ex ctxs0 k) as [[id0 X0] H0]; [apply nth_error_Some_lt in Hk'; apply omap_length in Hp; lia|].
      destruct (Hall _ _ _ H0) as [X' [_ [H1 _]]]. rewrite Hk' in H1. injection H1 as <- <-. eauto. }
    split.
    - intros id X HX. destruct (Hkeys _ _ HX) as [k [X0 [H0 H1]]]. destruct (Hall _ _ _ H0) as [X' [_ [H2 [H3 _]]]]. assert (X' = X) by congruence. subst. auto.
    - intros X HX. destruct (Hkeys _ _ HX) as [k [X0 [H0 H1]]]. destruct (Hall _ _ _ H0) as [X' [_ [H2 [_ H4]]]]. assert (X' = X) by congruence. subst X'.
      assert (Hkl : k = length o). { apply (map_nth_error fst) in H0. rewrite Hk in H0. cbn [fst] in H0. destruct (Nat.lt_ge_cases k (length o)) as [Hl|Hl]; [rewrite nth_error_app1 in H0 by auto; apply nth_error_In, Ho in H0; lia|]. rewrite nth_error_app2 in H0 by auto. destruct (k - length o) as [|[|q]] eqn:Eq; [lia|discriminate|discriminate]. }
      assert (Hcl0 : compute_layers cross (firstn k ctxs0) (0 =? 0) c0 = Some (X0, has)); [|destruct (H4 c0 has Hc0 Hcl0) as [H5 _]; auto].
      (* the last step *)
      assert (Hof : forall {A B} (f : A -> B -> option A) l x a r, ofold f (l ++ [x]) a = Some r -> exists a', ofold f l a = Some a' /\ f a' x = Some r).
      { clear. intros A B f l x. induction l as [|y l IH]; intros a r H; cbn [app ofold] in *; [exists a; split; auto; destruct (f a x); auto|]. destruct (f a y) as [a'|]; [|discriminate]. cbn [obind] in *. apply IH in H. auto. }
      destruct (Hof _ _ _ _ _ _ _ Ha) as [[c1 h1] [Ha1 Ha2]]. cbn [fst snd] in Ha2. rewrite Hc0 in Ha2. cbn [obind] in Ha2. destruct (compute_layers cross c1 (0 =? 0) c0) as [[X1 hh]|] eqn:Ecl; [|discriminate]. cbn [obind fst snd] in Ha2. injection Ha2 as Hx1 Hh1.
      pose proof (all_inv _ _ _ Ha1 ltac:(intros [|q] ? ? Hq; discriminate)) as [He1 Hk1]. cbn [fst map app] in He1, Hk1.
      assert (Hl1 : length c1 = length o) by (rewrite <- Hk1, map_length; auto).
      assert (Hf1 : firstn k ctxs0 = c1) by (rewrite <- Hx1, Hkl, <- Hl1, firstn_app, Nat.sub_diag, firstn_all; cbn [firstn]; apply app_nil_r).
      assert (X1 = X0). { rewrite <- Hx1, Hkl, <- Hl1, nth_error_app2, Nat.sub_diag in H0 by auto. cbn in H0. congruence. } subst X1. rewrite Hf1, Ecl. do 2 f_equal. rewrite <- Hh1.
      (* nothing earlier has constraints at the root *)
      assert (h1 = false); [|subst; auto].
      assert (Hpre : forall l a r, (forall x, In x l -> x <> 0) -> snd a = false -> ofold (fun st id => let* c := lookup id cs in let* r := compute_layers cross (fst st) (id =? 0) c in Some (fst st ++ [(id, fst r)], snd st || snd r)) l a = Some r -> snd r = false).
      { clear. induction l as [|x l IH]; intros a r Hl Hs H; cbn [ofold] in H; [injection H as <-; auto|]. destruct (lookup x cs) as [c|]; [|discriminate]. cbn [obind] in H. destruct (compute_layers cross (fst a) (x =? 0) c) as [[X h]|] eqn:Ecl; [|discriminate]. cbn [obind] in H.
        apply IH in H; auto; [intros y Hy; apply Hl; right; auto|]. cbn [snd]. rewrite Hs. cbn [orb]. destruct (compute_inv _ _ _ _ _ Ecl) as [subs [starts [occ [_ [_ [_ [_ [-> _]]]]]]]]. assert (Hx : (x =? 0) = false) by (apply Nat.eqb_neq, Hl; left; auto). rewrite Hx.
        reflexivity. }
      apply Hpre in Ha1; [exact Ha1|intros x Hx ->; apply Ho in Hx; lia|reflexivity].
  Qed.
End Sched.
