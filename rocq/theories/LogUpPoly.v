(* Roots of polynomials: for how many points an unbalanced lookup is accepted. *)
From Verif Require Import Prelude Field Expr Hints Ir IrInst ApiSpec Gadget LogUp LogUpFacts.
From Coq Require Import Permutation.
Open Scope nat_scope.

Section Poly.
  Context {F : Fld}.
  Local Open Scope fld_scope.
  Add Field FfP : (fth F).
  (* a polynomial with n coefficients *)
  Fixpoint poly (n : nat) (f : F -> F) : Prop :=
    match n with O => forall x, f x = 0 | S n => exists c g, poly n g /\ forall x, f x = c + x * g x end.
  Lemma poly_ext n : forall f g, poly n f -> (forall x, g x = f x) -> poly n g.
  Proof.
    destruct n as [|n]; cbn [poly]; intros f g H E.
    - intros x. rewrite E. auto.
    - destruct H as (c & h & P & H). exists c, h. split; auto. intros x. rewrite E. auto.
  Qed.
  Lemma poly_S n : forall f, poly n f -> poly (S n) f.
  Proof.
    induction n as [|n IH]; intros f H.
    - exists 0, (fun _ => 0). split; [cbn; auto|]. intros x. cbn in H. rewrite H. ring.
    - destruct H as (c & g & P & H). exists c, g. auto.
  Qed.
  Lemma poly_le n m f : (n <= m)%nat -> poly n f -> poly m f.
  Proof. intros L. induction L; auto. intros P. apply poly_S. auto. Qed.
  Lemma poly_add n : forall f g, poly n f -> poly n g -> poly n (fun x => f x + g x).
  Proof.
    induction n as [|n IH]; intros f g H1 H2.
    - cbn in *. intros x. rewrite H1, H2. ring.
    - destruct H1 as (c & f' & P & H1), H2 as (d & g' & Q & H2). exists (c + d), (fun x => f' x + g' x). split; [apply IH; auto|]. intros x. rewrite H1, H2. ring.
  Qed.
  Lemma poly_scale n : forall a f, poly n f -> poly n (fun x => a * f x).
  Proof.
    induction n as [|n IH]; intros a f H.
    - cbn in *. intros x. rewrite H. ring.
    - destruct H as (c & f' & P & H). exists (a * c), (fun x => a * f' x). split; [apply IH; auto|]. intros x. rewrite H. ring.
  Qed.
  Lemma poly_lin n f v : poly n f -> poly (S n) (fun x => (x - v) * f x).
  Proof.
    intros H. apply (poly_ext _ (fun x => x * f x + (- v) * f x)).
    - apply poly_add; [|apply poly_S, poly_scale; auto]. exists 0, f. split; auto. intros x. ring.
    - intros x. ring.
  Qed.
  Lemma poly_factor n : forall f r, poly (S n) f -> exists g, poly n g /\ forall x, f x = f r + (x - r) * g x.
  Proof.
    induction n as [|n IH]; intros f r (c & g & P & H).
    - exists (fun _ => 0). split; [cbn; auto|]. intros x. cbn in P. rewrite !H, !P. ring.
    - destruct (IH g r P) as (h & Q & Hh). exists (fun x => g r + x * h x). split; [exists (g r), h; auto|]. intros x. rewrite !H, (Hh x). ring.
  Qed.
  Lemma poly_roots n : forall f rs, poly n f -> NoDup rs -> (forall r, In r rs -> f r = 0) -> (n <= length rs)%nat -> forall x, f x = 0.
  Proof.
    induction n as [|n IH]; intros f rs P ND H L; [exact P|]. destruct rs as [|r rs]; cbn in L; [lia|]. inversion ND as [|r0 rs0 N1 N2]; subst.
    destruct (poly_factor n f r P) as (g & Q & Hg). assert (Z : f r = 0) by (apply H; left; auto).
    assert (G : forall x, g x = 0).
    { apply (IH g rs Q N2); [|lia]. intros s Hs. pose proof (Hg s) as E. rewrite Z, (H s) in E by (right; auto).
      assert (E' : (s - r) * g s = 0) by (transitivity (0 + (s - r) * g s); [ring|auto]). apply fmul_0 in E'. destruct E' as [E'|E']; auto. apply (proj1 (fsub_0 _ _ _)) in E'. exfalso. apply N1. rewrite <- E'. exact Hs. }
    intros x. rewrite Hg, Z, G. ring.
  Qed.
  Lemma poly_nonzero n f q rs : poly (S n) f -> f q <> 0 -> NoDup rs -> (forall r, In r rs -> f r = 0) -> (length rs <= n)%nat.
  Proof. intros P N ND H. destruct (le_lt_dec (length rs) n); auto. exfalso. apply N. eapply poly_roots; eauto. Qed.

  Lemma den_nil (a : F) : den a [] = 1. Proof. reflexivity. Qed.
  Lemma den_cons (a c v : F) l : den a ((c, v) :: l) = (a - v) * den a l. Proof. reflexivity. Qed.
  Lemma poly_den n f l : poly n f -> poly (n + length l)%nat (fun x => f x * den x l).
  Proof.
    revert n f. induction l as [|[c v] l IH]; intros n f P.
    - cbn [length]. rewrite Nat.add_0_r. eapply poly_ext; [exact P|]. intros x. rewrite den_nil. ring.
    - cbn [length]. replace (n + S (length l))%nat with (S n + length l)%nat by lia. eapply poly_ext; [apply (IH _ _ (poly_lin n f v P))|]. intros x. rewrite den_cons. ring.
  Qed.
  Lemma poly_num n f l : poly n f -> poly (n + length l)%nat (fun x => f x * num x l).
  Proof.
    revert n f. induction l as [|[c v] l IH]; intros n f P.
    - cbn [length num]. rewrite Nat.add_0_r. eapply poly_ext; [apply (poly_scale _ 0 f P)|]. intros x. cbv beta. ring.
    - cbn [length num]. apply (poly_ext _ (fun x => c * (f x * den x l) + ((x - v) * f x) * num x l)).
      + apply poly_add; [apply (poly_le (n + length l)); [lia|]; apply poly_scale, poly_den; auto|]. replace (n + S (length l))%nat with (S n + length l)%nat by lia. apply IH, poly_lin; auto.
      + intros x. ring.
  Qed.
  (* powers *)
  Definition fpow (x : F) (n : nat) : F := fprod F (repeat x n).
  Lemma fpow_S x n : fpow x (S n) = x * fpow x n. Proof. reflexivity. Qed.
  Lemma fpow_0 x n : fpow x n = 0 -> x = 0.
  Proof. induction n as [|n IH]; intros H; [exfalso; apply (f1_neq_f0 F); exact H|]. rewrite fpow_S in H. apply fmul_0 in H. tauto. Qed.
  Lemma den_rep a q m : den a (ones (repeat q m)) = fpow (a - q) m.
  Proof. induction m as [|m IH]; [reflexivity|]. cbn [repeat ones map]. unfold den in *. cbn [map fprod fold_right snd]. rewrite fpow_S. f_equal. exact IH. Qed.
  Lemma num_rep a q m : num a (ones (repeat q (S m))) = ofZ (Z.of_nat (S m)) * fpow (a - q) m.
  Proof.
    induction m as [|m IH].
    - cbn. rewrite ofZ_1. ring.
    - change (ones (repeat q (S (S m)))) with ((1, q) :: ones (repeat q (S m))). cbn [num]. rewrite IH, den_rep, (fpow_S _ m). rewrite (Nat2Z.inj_succ (S m)). unfold Z.succ. rewrite ofZ_add, ofZ_1. ring.
  Qed.
  Lemma den_0 (q : F) l : den q l = 0 -> In q (map snd l).
  Proof.
    induction l as [|[c v] l IH]; cbn [map snd In].
    - intros H. exfalso. apply (f1_neq_f0 F). exact H.
    - change (den q ((c, v) :: l)) with ((q - v) * den q l). intros H. apply fmul_0 in H. destruct H as [H|H]; [left; symmetry; apply (proj1 (fsub_0 _ _ _)); exact H|right; apply IH; exact H].
  Qed.
  Lemma snd_ones (qs : list F) : map snd (ones qs) = qs.
  Proof. unfold ones. rewrite map_map. apply map_id. Qed.
  Lemma split_occ (q : F) qs : exists os, Permutation qs (repeat q (count_occ (f_dec F) qs q) ++ os) /\ ~ In q os.
  Proof.
    induction qs as [|x qs (os & P & N)]; cbn [count_occ].
    - exists []. split; auto.
    - destruct (f_dec F x q) as [->|D].
      + exists os. split; auto. cbn. auto.
      + exists (x :: os). split; [|intros [->|H]; auto]. rewrite P at 1. apply Permutation_middle.
  Qed.
  (* a query that is not in the table: few points are accepted, whatever the counts *)
  Lemma few_accepted (T : list (F * F)) qs q rs : In q qs -> ~ In q (map snd T) -> (Z.of_nat (length qs) < fmod F)%Z ->
    NoDup rs -> (forall a, In a rs -> balanced a T qs = true) -> (length rs <= length T + length qs)%nat.
  Proof.
    intros Iq NT Lp ND H. destruct (split_occ q qs) as (os & P & NO). apply (count_occ_In (f_dec F)) in Iq.
    set (m := count_occ (f_dec F) qs q) in *. destruct m as [|m]; [lia|]. clear Iq.
    assert (Lq : length qs = (S m + length os)%nat) by (rewrite (Permutation_length P), app_length, repeat_length; reflexivity).
    set (Sf := fun a => num a T * ((a - q) * den a (ones os)) + (- den a T) * (ofZ (Z.of_nat (S m)) * den a (ones os) + (a - q) * num a (ones os))).
    assert (Fac : forall a, balanced a T qs = true -> a = q \/ Sf a = 0).
    { intros a B. unfold balanced in B. apply feqb_spec in B.
      assert (PP : Permutation (ones qs) (ones (repeat q (S m)) ++ ones os)) by (unfold ones; rewrite <- map_app; apply Permutation_map; exact P).
      destruct (num_perm a _ _ PP) as [E1 E2]. destruct (num_app a (ones (repeat q (S m))) (ones os)) as [E3 E4]. rewrite E1, E2, E3, E4, num_rep, den_rep, fpow_S in B.
      assert (Z : fpow (a - q) m * Sf a = 0).
      { unfold Sf. transitivity (num a T * ((a - q) * fpow (a - q) m * den a (ones os)) - den a T * (ofZ (Z.of_nat (S m)) * fpow (a - q) m * den a (ones os) + (a - q) * fpow (a - q) m * num a (ones os))); [ring|]. rewrite B. ring. }
      apply fmul_0 in Z. destruct Z as [Z|Z]; auto. left. apply (proj1 (fsub_0 _ _ _)). eapply fpow_0; eauto. }
    assert (Sq : Sf q <> 0).
    { unfold Sf. replace (num q T * ((q - q) * den q (ones os)) + - den q T * (ofZ (Z.of_nat (S m)) * den q (ones os) + (q - q) * num q (ones os))) with (- (den q T * (ofZ (Z.of_nat (S m)) * den q (ones os)))) by ring.
      intros Z. assert (Z' : den q T * (ofZ (Z.of_nat (S m)) * den q (ones os)) = 0) by (transitivity (- - (den q T * (ofZ (Z.of_nat (S m)) * den q (ones os)))); [ring|rewrite Z; ring]).
      apply fmul_0 in Z'. destruct Z' as [Z'|Z']; [apply NT, den_0; auto|]. apply fmul_0 in Z'. destruct Z' as [Z'|Z'].
      - rewrite <- ofZ_0 in Z'. apply ofZ_inj_small in Z'; lia.
      - apply den_0 in Z'. rewrite snd_ones in Z'. auto. }
    assert (PS : poly (S (S (length T + length os))) Sf).
    { unfold Sf. apply poly_add.
      - apply (poly_ext _ (fun x => ((((x - q) * 1) * den x (ones os)) * num x T))); [|intros x; ring].
        assert (P1 : poly 1 (fun _ : F => 1)) by (exists 1, (fun _ => 0); split; [cbn; auto|intros; ring]).
        pose proof (poly_num _ _ T (poly_den _ _ (ones os) (poly_lin _ _ q P1))) as Q. unfold ones in Q at 1. rewrite map_length in Q. eapply poly_le; [|exact Q]. lia.
      - assert (P1 : poly 1 (fun _ : F => - (1))) by (exists (- (1)), (fun _ => 0); split; [cbn; auto|intros; ring]).
        apply (poly_ext _ (fun x => ofZ (Z.of_nat (S m)) * (((- (1)) * den x T) * den x (ones os)) + ((((x - q) * (- (1))) * den x T) * num x (ones os)))); [|intros x; ring].
        apply poly_add.
        + apply poly_scale. pose proof (poly_den _ _ (ones os) (poly_den _ _ T P1)) as Q. unfold ones in Q at 1. rewrite map_length in Q. eapply poly_le; [|exact Q]. lia.
        + pose proof (poly_num _ _ (ones os) (poly_den _ _ T (poly_lin _ _ q P1))) as Q. unfold ones in Q at 1. rewrite map_length in Q. eapply poly_le; [|exact Q]. lia. }
    destruct (in_dec (f_dec F) q rs) as [Iq|Nq].
    - destruct m as [|m].
      + (* one query: q itself is not a root *)
        exfalso. specialize (H _ Iq). unfold balanced in H. apply feqb_spec in H. 
        assert (PP : Permutation (ones qs) (ones (repeat q 1) ++ ones os)) by (unfold ones; rewrite <- map_app; apply Permutation_map; exact P).
        destruct (num_perm q _ _ PP) as [E1 E2]. destruct (num_app q (ones (repeat q 1)) (ones os)) as [E3 E4]. rewrite E1, E2, E3, E4, num_rep, den_rep in H.
        apply Sq. unfold Sf. transitivity (num q T * (fpow (q - q) 1 * den q (ones os)) - den q T * (ofZ (Z.of_nat 1) * fpow (q - q) 0 * den q (ones os) + fpow (q - q) 1 * num q (ones os))); [|rewrite H; ring].
        rewrite fpow_S. change (fpow (q - q) 0) with (1 : F). ring.
      + apply in_split in Iq. destruct Iq as (r1 & r2 & ->). pose proof (NoDup_remove_1 _ _ _ ND) as ND'. pose proof (NoDup_remove_2 _ _ _ ND) as NI.
        assert (L : (length (r1 ++ r2) <= S (length T + length os))%nat).
        { eapply poly_nonzero; [exact PS|exact Sq|exact ND'|]. intros r Ir. destruct (Fac r) as [->|Z]; auto. apply H. apply in_app_or in Ir. apply in_or_app. cbn. tauto. contradiction. }
        rewrite app_length in *. cbn [length]. lia.
    - assert (L : (length rs <= S (length T + length os))%nat).
      { eapply poly_nonzero; [exact PS|exact Sq|exact ND|]. intros r Ir. destruct (Fac r) as [->|Z]; auto. contradiction. }
      lia.
  Qed.
  (* columns: coefficients under which no difference of rows vanishes *)
  Lemma nodup_map {A B} (f : A -> B) l : (forall x y, In x l -> In y l -> f x = f y -> x = y) -> NoDup l -> NoDup (map f l).
  Proof.
    intros H ND. induction ND as [|x l N ND IH]; cbn [map]; constructor.
    - intros I. apply in_map_iff in I. destruct I as (y & E & I). apply N. rewrite (H x y); cbn; auto.
    - apply IH. intros; apply H; cbn; auto.
  Qed.
  Lemma good_value (bad : list F) : (Z.of_nat (length bad) < fmod F)%Z -> exists r, ~ In r bad.
  Proof.
    intros L. set (all := map (fun i => ofZ (Z.of_nat i)) (seq 0 (S (length bad))) : list F).
    assert (ND : NoDup all).
    { unfold all. apply nodup_map; [|apply seq_NoDup]. intros i j Hi Hj E. apply in_seq in Hi, Hj. apply ofZ_inj_small in E; lia. }
    destruct (Exists_dec (fun r => ~ In r bad) all) as [X|X].
    - intros r. destruct (in_dec (f_dec F) r bad); tauto.
    - apply Exists_exists in X. destruct X as (r & _ & N). eauto.
    - exfalso. assert (I : incl all bad). { intros r Hr. destruct (in_dec (f_dec F) r bad) as [|n]; auto. exfalso. apply X, Exists_exists. eauto. }
      pose proof (NoDup_incl_length ND I) as L'. unfold all in L'. rewrite map_length, seq_length in L'. lia.
  Qed.
  Definition dot (rs row : list F) : F := fsum F (map (fun p => fst p * snd p) (combine row rs)).
  Lemma dot_cons r rs x row : dot (r :: rs) (x :: row) = x * r + dot rs row. Proof. reflexivity. Qed.
  Lemma good_coeffs : forall n (ds : list (F * list F)), (forall d, In d ds -> length (snd d) = n /\ (fst d <> 0 \/ exists x, In x (snd d) /\ x <> 0)) ->
    (Z.of_nat (length ds) < fmod F)%Z -> exists rs, length rs = n /\ forall d, In d ds -> fst d + dot rs (snd d) <> 0.
  Proof.
    induction n as [|n IH]; intros ds H L.
    - exists []. split; auto. intros d Hd. destruct (H d Hd) as [Ln Z]. destruct (snd d) as [|x t] eqn:E; [|discriminate]. destruct Z as [Z|(x & [] & _)]. cbn. intros Q. apply Z. rewrite <- Q. ring.
    - destruct (good_value (map (fun d => - fst d * finv (hd 0 (snd d))) ds)) as [r Hr]; [rewrite map_length; auto|].
      destruct (IH (map (fun d => (fst d + hd 0 (snd d) * r, tl (snd d))) ds)) as (rs & Lr & Hrs).
      + intros d' Hd. apply in_map_iff in Hd. destruct Hd as (d & <- & Hd). destruct (H d Hd) as [Ln Z]. cbn [fst snd]. destruct (snd d) as [|x t] eqn:E; [discriminate|]. cbn [tl hd]. cbn in Ln. split; [lia|].
        destruct (Exists_dec (fun x => x <> 0) t) as [X|X]; [intros y; destruct (f_dec F y 0); tauto| |].
        * apply Exists_exists in X. right. exact X.
        * left. intros Q. destruct (f_dec F x 0) as [->|Nx].
          { destruct Z as [Z|(y & [<-|Iy] & Ny)]; [apply Z; rewrite <- Q; ring|auto|]. apply X, Exists_exists. eauto. }
          apply Hr, in_map_iff. exists d. split; auto. rewrite E. cbn [hd].
          transitivity (finv x * x * r - (fst d + x * r) * finv x); [ring|]. rewrite Q, finv_l by auto. ring.
      + rewrite map_length. auto.
      + exists (r :: rs). split; [cbn; lia|]. intros d Hd. specialize (Hrs _ (in_map _ _ _ Hd)). cbn [fst snd] in Hrs. destruct (H d Hd) as [Ln _]. destruct (snd d) as [|x t] eqn:E; [discriminate|]. cbn [hd tl] in Hrs.
        intros Q. apply Hrs. rewrite <- Q. rewrite dot_cons. ring.
  Qed.
  Lemma comb_dot rs x row : comb rs (x :: row) = x + dot rs row.
  Proof. change (comb rs (x :: row)) with (x * 1 + dot rs row). ring. Qed.
  Lemma dot_sub : forall a b rs, length a = length b -> dot rs (map (fun p => fst p - snd p) (combine a b)) = dot rs a - dot rs b.
  Proof.
    induction a as [|x a IH]; intros [|y b] rs L; try discriminate; [cbn; ring|]. destruct rs as [|r rs]; [cbn; ring|]. cbn [combine map fst snd]. rewrite !dot_cons. rewrite IH by (cbn in L; lia). ring.
  Qed.
  Lemma row_diff : forall a b : list F, length a = length b -> a <> b -> exists x, In x (map (fun p => fst p - snd p) (combine a b)) /\ x <> 0.
  Proof.
    induction a as [|x a IH]; intros [|y b] L N; try discriminate; [congruence|]. cbn [combine map fst snd]. destruct (f_dec F x y) as [->|D].
    - destruct (IH b) as (z & I & Z); [cbn in L; lia|congruence|]. exists z. split; auto. right. auto.
    - exists (x - y). split; [left; auto|]. intros Q. apply D, fsub_0. auto.
  Qed.
  (* a row that differs from all rows of a table keeps doing so under some coefficients *)
  Lemma good_comb n (trows : list (list F)) q : length q = S n -> Forall (fun t => length t = S n) trows -> ~ In q trows -> (Z.of_nat (length trows) < fmod F)%Z ->
    exists rs, length rs = n /\ ~ In (comb rs q) (map (comb rs) trows).
  Proof.
    intros Lq Lt N L. destruct q as [|q0 q]; [discriminate|]. cbn in Lq.
    destruct (good_coeffs n (map (fun t => (hd 0 t - q0, map (fun p => fst p - snd p) (combine (tl t) q))) trows)) as (rs & Lr & H).
    - intros d Hd. apply in_map_iff in Hd. destruct Hd as (t & <- & Ht). rewrite Forall_forall in Lt. specialize (Lt t Ht). destruct t as [|t0 t]; [discriminate|]. cbn [hd tl fst snd]. cbn in Lt.
      rewrite map_length, combine_length. split; [lia|]. destruct (f_dec F t0 q0) as [->|D].
      + right. apply row_diff; [lia|]. intros ->. auto.
      + left. intros Q. apply D, fsub_0. auto.
    - rewrite map_length. auto.
    - exists rs. split; auto. intros I. apply in_map_iff in I. destruct I as (t & E & Ht). rewrite Forall_forall in Lt. specialize (Lt t Ht). destruct t as [|t0 t]; [discriminate|]. cbn in Lt.
      apply (H _ (in_map _ _ _ Ht)). cbn [hd tl fst snd]. rewrite dot_sub by lia. rewrite !comb_dot in E. transitivity ((t0 + dot rs t) - (q0 + dot rs q)); [ring|]. rewrite E. ring.
  Qed.
  (* right counts balance at every point *)
  Definition tab (o : nat) (c : nat -> F) (ts : list F) : list (F * F) := combine (map c (seq o (length ts))) ts.
  Lemma tab_snd : forall ts o c, map snd (tab o c ts) = ts.
  Proof. unfold tab. induction ts as [|t ts IH]; intros o c; cbn [length seq map combine snd]; auto. f_equal. apply IH. Qed.
  Lemma den_snd (a : F) l l' : map snd l = map snd l' -> den a l = den a l'.
  Proof. intros H. unfold den. rewrite <- (map_map snd (fun v => a - v) l), <- (map_map snd (fun v => a - v) l'), H. auto. Qed.
  Lemma tab_incr (a : F) : forall ts o c i t, nth_error ts i = Some t ->
    exists D, (a - t) * D = den a (tab o c ts) /\ num a (tab o (fun k => if Nat.eqb k (o + i)%nat then c k + 1 else c k) ts) = num a (tab o c ts) + D.
  Proof.
    induction ts as [|t0 ts IH]; intros o c i t H; [destruct i; discriminate|].
    destruct i as [|i]; cbn in H.
    - injection H as ->. exists (den a (tab (S o) c ts)). unfold tab. cbn [length seq map combine num]. rewrite Nat.add_0_r, Nat.eqb_refl. fold (tab (S o) c ts).
      assert (E : map (fun k => if Nat.eqb k o then c k + 1 else c k) (seq (S o) (length ts)) = map c (seq (S o) (length ts))).
      { apply map_ext_in. intros k Hk. apply in_seq in Hk. destruct (Nat.eqb_spec k o); [lia|auto]. }
      rewrite E. fold (tab (S o) c ts). split; [reflexivity|]. ring.
    - destruct (IH (S o) c i t H) as (D & H1 & H2). exists ((a - t0) * D). unfold tab in *. cbn [length seq map combine num]. unfold den in *. cbn [map fprod fold_right snd].
      replace (S o + i)%nat with (o + S i)%nat in H2 by lia. rewrite H2.
      destruct (Nat.eqb_spec o (o + S i)); [lia|]. 
      match goal with |- context [fprod F (map (fun p => a - snd p) (combine (map (fun k => if _ then _ else _) ?l) ts))] =>
        replace (fprod F (map (fun p => a - snd p) (combine (map (fun k => if Nat.eqb k (o + S i)%nat then c k + 1 else c k) l) ts))) with (fprod F (map (fun p => a - snd p) (combine (map c l) ts))) end.
      + fold (fprod F). split; [|ring]. change (fold_right fmul 1) with (fprod F). rewrite <- H1. ring.
      + apply (den_snd a). pose proof (tab_snd ts (S o) c) as T1. pose proof (tab_snd ts (S o) (fun k => if Nat.eqb k (o + S i)%nat then c k + 1 else c k)) as T2. unfold tab in *. congruence.
  Qed.
  Definition counts (n : nat) (at_ : list nat) : list F := map (fun i => ofZ (Z.of_nat (count_occ Nat.eq_dec at_ i))) (seq 0 n).
  Lemma num_zero (a : F) : forall ts o, num a (tab o (fun _ => ofZ (Z.of_nat 0)) ts) = 0.
  Proof.
    cbn [Z.of_nat]. intros ts. induction ts as [|t ts IH]; intros o; [reflexivity|]. change (tab o (fun _ : nat => ofZ 0 : F) (t :: ts)) with ((ofZ 0 : F, t) :: tab (S o) (fun _ => ofZ 0) ts).
    cbn [num]. rewrite IH, ofZ_0. ring.
  Qed.
  Lemma counts_balanced (a : F) ts : forall at_ qs, Forall2 (fun i q => nth_error ts i = Some q) at_ qs -> balanced a (combine (counts (length ts) at_) ts) qs = true.
  Proof.
    assert (H : forall at_ qs, Forall2 (fun i q => nth_error ts i = Some q) at_ qs ->
      num a (tab 0 (fun i => ofZ (Z.of_nat (count_occ Nat.eq_dec at_ i))) ts) * den a (ones qs) = den a (tab 0 (fun i => ofZ (Z.of_nat (count_occ Nat.eq_dec at_ i))) ts) * num a (ones qs)).
    { intros at_ qs A. induction A as [|i q at_ qs Hi A IH].
      - cbn [count_occ ones map num]. rewrite num_zero. ring.
      - set (c := fun k => ofZ (Z.of_nat (count_occ Nat.eq_dec at_ k)) : F) in *. destruct (tab_incr a ts 0 c i q Hi) as (D & H1 & H2).
        assert (E : tab 0 (fun k => ofZ (Z.of_nat (count_occ Nat.eq_dec (i :: at_) k)) : F) ts = tab 0 (fun k => if Nat.eqb k (0 + i) then c k + 1 else c k) ts).
        { unfold tab. f_equal. apply map_ext. intros k. cbn [count_occ Nat.add]. destruct (Nat.eq_dec i k) as [->|N].
          - rewrite Nat.eqb_refl, Nat2Z.inj_succ. unfold Z.succ. rewrite ofZ_add, ofZ_1. reflexivity.
          - destruct (Nat.eqb_spec k i); [congruence|reflexivity]. }
        rewrite E, H2. assert (ED : den a (tab 0 (fun k => if Nat.eqb k (0 + i) then c k + 1 else c k) ts) = den a (tab 0 c ts)) by (apply den_snd; rewrite !tab_snd; auto).
        rewrite ED. change (ones (q :: qs)) with ((1, q) :: ones qs). cbn [num]. unfold den at 1. cbn [map fprod fold_right snd]. change (fold_right fmul 1 (map (fun p => a - snd p) (ones qs))) with (den a (ones qs)).
        transitivity ((num a (tab 0 c ts) * den a (ones qs)) * (a - q) + ((a - q) * D) * den a (ones qs)); [ring|]. rewrite IH, H1. ring. }
    intros at_ qs A. unfold balanced. apply feqb_spec. exact (H at_ qs A).
  Qed.
  (* away from the values, [balanced] is equality of the sums of fractions *)
  Lemma num_frac (a : F) l : ~ In a (map snd l) -> den a l <> 0 /\ num a l = den a l * fsum F (map (fun p => fst p * finv (a - snd p)) l).
  Proof.
    intros N. split; [intros Z; apply N, den_0; auto|]. induction l as [|[c v] l IH]; [cbn; ring|]. cbn [map fsum fold_right fst snd num]. fold (fsum F). cbn in N.
    change (den a ((c, v) :: l)) with ((a - v) * den a l). rewrite IH by tauto. assert (Z : a - v <> 0) by (intros Z; apply N; left; symmetry; apply (proj1 (fsub_0 _ _ _)); auto).
    change (fold_right fadd 0) with (fsum F). transitivity (finv (a - v) * (a - v) * (c * den a l) + (a - v) * (den a l * fsum F (map (fun p => fst p * finv (a - snd p)) l))); [rewrite finv_l by auto; ring|ring].
  Qed.
  Lemma balanced_frac (a : F) T qs : ~ In a (map snd T) -> ~ In a qs ->
    (balanced a T qs = true <-> fsum F (map (fun p => fst p * finv (a - snd p)) T) = fsum F (map (fun q => finv (a - q)) qs)).
  Proof.
    intros N1 N2. destruct (num_frac a T N1) as [Z1 E1]. assert (N3 : ~ In a (map snd (ones qs))) by (rewrite snd_ones; auto). destruct (num_frac a (ones qs) N3) as [Z2 E2].
    unfold balanced. rewrite feqb_spec, E1, E2.
    replace (fsum F (map (fun p => fst p * finv (a - snd p)) (ones qs))) with (fsum F (map (fun q => finv (a - q)) qs)).
    2: { unfold ones. rewrite map_map. f_equal. apply map_ext. intros q. cbn [fst snd]. ring. }
    split; [|intros ->; ring]. intros H. apply (proj1 (fsub_0 _ _ _)). set (x := fsum F _) in *. set (y := fsum F (map (fun q => finv (a - q)) qs)) in *.
    assert (Q : (den a T * den a (ones qs)) * (x - y) = 0) by (transitivity (den a T * x * den a (ones qs) - den a T * (den a (ones qs) * y)); [ring|rewrite H; ring]).
    apply fmul_0 in Q. destruct Q as [Q|Q]; auto. apply fmul_0 in Q. destruct Q; contradiction.
  Qed.
End Poly.
