(* The placement groups of a layer: going through them never fails, and the layout of the first group holds every variable of the layer once. *)
From Verif Require Import Prelude Field Zp Sorting Expr Topo Ir IrInst InputMapping Layered SolveDuplicates LayeredFacts LayeredOpt LayeredOptFacts LayeredExpand LayeredCommon IrFacts Sim Layering LaySem LaySched LayInst LayLayout LayOwn LayTotA LayTotB LayMerge.
Open Scope nat_scope.

Lemma NoDup_flat_map {A B} (f : A -> list B) l : NoDup l -> (forall x, In x l -> NoDup (f x)) -> (forall x y z, In x l -> In y l -> In z (f x) -> In z (f y) -> x = y) -> NoDup (flat_map f l).
Proof.
  induction l as [|x l IH]; intros Hn H1 H2; cbn [flat_map]; [constructor|]. inversion Hn as [|? ? Hx Hn']; subst. apply NoDup_app_iff. split; [apply H1; left; auto|]. split; [apply IH; auto; [intros; apply H1; right; auto|intros a b z Ha Hb; apply H2; right; auto]|].
  intros z Hz Hz'. apply in_flat_map in Hz'. destruct Hz' as [y [Hy Hy']]. apply Hx. rewrite (H2 x y z); auto; [left; auto|right; auto].
Qed.
Lemma omap_map {A B} (f : A -> option B) (h : A -> B) l : (forall x, In x l -> f x = Some (h x)) -> omap f l = Some (map h l).
Proof. induction l as [|x l IH]; intros H; cbn [omap map]; auto. rewrite H by (left; auto). cbn [obind]. rewrite IH by (intros; apply H; right; auto). auto. Qed.
Lemma ofold_app {A B} (f : A -> B -> option A) l l' : forall a, ofold f (l ++ l') a = let* b := ofold f l a in ofold f l' b.
Proof. induction l as [|x l IH]; intros a; cbn [app ofold obind]; auto. destruct (f a x); cbn [obind]; auto. Qed.
Lemma flat_map_split {A B} (a b : A -> bool) (f : A -> list B) l : (forall x, In x l -> a x = true -> b x = true -> False) ->
  Permutation (flat_map (fun x => if a x || b x then f x else []) l) (flat_map (fun x => if a x then f x else []) l ++ flat_map (fun x => if b x then f x else []) l).
Proof.
  induction l as [|x l IH]; intros H; auto. cbn [flat_map]. specialize (IH (fun y Hy => H y (or_intror Hy))). pose proof (H x (or_introl eq_refl)) as Hx. destruct (a x), (b x); cbn [orb app]; try (exfalso; auto; fail).
  - rewrite IH, app_assoc. auto.
  - rewrite IH. rewrite !app_assoc. apply Permutation_app_tail. apply Permutation_app_comm.
  - auto.
Qed.
Lemma filter_split (f : nat -> nat) g l : Permutation (filter (fun i => g <=? f i) l) (filter (fun i => S g <=? f i) l ++ filter (fun i => f i =? g) l).
Proof.
  induction l as [|x l IH]; auto. cbn [filter]. destruct (Nat.leb_spec g (f x)), (Nat.leb_spec (S g) (f x)), (Nat.eqb_spec (f x) g); try lia; auto; cbn [app].
  - constructor. auto.
  - rewrite IH. apply Permutation_middle.
Qed.

Section Groups.
  Context {F : Fld}.
  Notation Ctx := (Ctx (F := F)).
  Variables (X : Ctx) (C : LC) (lays : list (nat * list (option nat))).
  Let vs := lc_vars C. Let par := lc_parent C. Let m := lc_placement C. Let n := length par.
  Hypothesis Hpl : pl_ok (x_calls X) vs (lc_prev C) m par.
  Hypothesis Hvs : NoDup vs.
  Hypothesis Hlk : map fst lays = lc_prev C.
  Hypothesis Hpn : NoDup (lc_prev C).
  Hypothesis Hlay : forall k p, In (k, p) lays -> exists l, nth_error (x_calls X) k = Some l /\ pow2b (length p) = true /\ NoDup (pc p) /\ (forall i, In i (pc p) <-> exists x, nth_error vs i = Some x /\ In x (cl_outs l)) /\ (forall x, In x (cl_outs l) -> In x vs).
  Hypothesis Hdis : forall k k' l l' x, nth_error (x_calls X) k = Some l -> nth_error (x_calls X) k' = Some l' -> In x (cl_outs l) -> In x (cl_outs l') -> k = k'.

  Definition grp (i : nat) : nat := match nth_error vs i with Some x => match lookup x m with Some g => g | None => 0 end | None => 0 end.
  Lemma grp_at i x : nth_error vs i = Some x -> lookup x m = Some (grp i) /\ grp i < n.
  Proof. intros H. unfold grp. rewrite H. destruct (po_some _ _ _ _ _ Hpl x (nth_error_In _ _ H)) as [g [-> Hg]]. auto. Qed.
  Definition inprev (x : nat) : bool := existsb (fun k => match nth_error (x_calls X) k with Some l => memb x (cl_outs l) | None => false end) (lc_prev C).
  Definition own (g : nat) : list nat := flat_map (fun p => if inprev (snd p) then [] else match lookup (snd p) m with Some gx => if gx =? g then [fst p] else [] | None => [] end) (combine (seq 0 (length vs)) vs).
  Definition sel (g : nat) (p : nat * list (option nat)) : list (list (option nat)) :=
    match nth_error (x_calls X) (fst p) with Some l => match cl_outs l with [] => [] | y :: _ => match lookup y m with Some gy => if gy =? g then [snd p] else [] | None => [] end end | None => [] end.
  Lemma sel_total g : omap (fun p => let* l := nth_error (x_calls X) (fst p) in
                                  match cl_outs l with
                                  | [] => Some []
                                  | y :: _ => let* gy := lookup y (lc_placement C) in Some (if gy =? g then [snd p] else [])
                                  end) lays = Some (map (sel g) lays).
  Proof.
    apply omap_map. intros [k p] Hin. destruct (Hlay k p Hin) as [l [A [_ [_ [_ B]]]]]. unfold sel. cbn [fst snd]. rewrite A. cbn [obind]. destruct (cl_outs l) as [|y t]; auto. destruct (po_some _ _ _ _ _ Hpl y (B y (or_introl eq_refl))) as [gy [E _]]. fold m. rewrite E. auto.
  Qed.
  Lemma sel_in g p i : In p lays -> (In i (concat (map pc (sel g p))) <-> In i (pc (snd p)) /\ grp i = g).
  Proof.
    destruct p as [k p]. intros Hin. destruct (Hlay k p Hin) as [l [A [_ [_ [B D]]]]]. assert (Hk : In k (lc_prev C)) by (rewrite <- Hlk; apply (in_map fst) in Hin; auto). unfold sel. cbn [fst snd]. rewrite A.
    assert (Hg : forall y t, cl_outs l = y :: t -> In i (pc p) -> lookup y m = Some (grp i)).
    { intros y t E Hi. apply B in Hi. destruct Hi as [x [H1 H2]]. destruct (grp_at i x H1) as [H3 _]. rewrite <- H3. apply (po_same _ _ _ _ _ Hpl k l); auto. rewrite E. left; auto. }
    destruct (cl_outs l) as [|y t] eqn:El.
    - split; [intros []|]. intros [H _]. apply B in H. destruct H as [x [_ []]].
    - specialize (Hg y t eq_refl). destruct (lookup y m) as [gy|] eqn:Ey.
      + destruct (Nat.eqb_spec gy g) as [E|E].
        * cbn [map concat]. rewrite app_nil_r. split; [intros H; split; auto; specialize (Hg H); congruence|tauto].
        * split; [intros []|]. intros [H1 H2]. specialize (Hg H1). congruence.
      + split; [intros []|]. intros [H1 _]. specialize (Hg H1). discriminate.
  Qed.
  Lemma own_total g : Permutation (concat (map pc (concat (map (sel g) lays))) ++ own g) (filter (fun i => grp i =? g) (seq 0 (length vs))).
  Proof.
    assert (E : concat (map pc (concat (map (sel g) lays))) = flat_map (fun p => concat (map pc (sel g p))) lays).
    { clear. induction lays as [|p l IH]; auto. cbn [map concat flat_map]. rewrite map_app, concat_app, IH. auto. }
    rewrite E. clear E. apply NoDup_Permutation.
    - apply NoDup_app_iff. split; [|split].
      + apply NoDup_flat_map.
        * apply (NoDup_map_inv fst). rewrite Hlk. auto.
        * intros [k p] Hin. destruct (Hlay k p Hin) as [l [A [_ [N _]]]]. unfold sel. cbn [fst snd]. rewrite A. destruct (cl_outs l) as [|y t]; [constructor|]. destruct (lookup y m) as [gy|]; [|constructor]. destruct (gy =? g); [|constructor]. cbn [map concat]. rewrite app_nil_r. auto.
        * intros [k p] [k' p'] i H1 H2 H3 H4. apply (sel_in g (k, p)) in H3; auto. apply (sel_in g (k', p')) in H4; auto. cbn [snd] in H3, H4. destruct H3 as [H3 _], H4 as [H4 _].
          destruct (Hlay k p H1) as [l [A1 [_ [_ [B1 _]]]]]. destruct (Hlay k' p' H2) as [l' [A2 [_ [_ [B2 _]]]]]. apply B1 in H3. apply B2 in H4. destruct H3 as [x [X1 X2]], H4 as [x' [X3 X4]]. assert (x' = x) by congruence. subst x'.
          assert (k = k') by eauto. subst k'. f_equal. assert (Hk : NoDup (keys lays)) by (unfold keys; rewrite Hlk; auto). apply (In_lookup _ _ _ Hk) in H1. apply (In_lookup _ _ _ Hk) in H2. congruence.
      + unfold own. apply NoDup_flat_map.
        * apply (NoDup_map_inv fst). rewrite map_fst_comb by (rewrite seq_length; auto). apply seq_NoDup.
        * intros p _. destruct (inprev (snd p)); [constructor|]. destruct (lookup (snd p) m) as [gx|]; [|constructor]. destruct (gx =? g); [|constructor]. constructor; [intros []|constructor].
        * intros [i x] [j y] z H1 H2 H3 H4. apply in_combine_seq in H1, H2. cbn [fst snd] in *. destruct (inprev x); [destruct H3|]. destruct (lookup x m) as [gx|]; [|destruct H3]. destruct (gx =? g); [|destruct H3]. destruct H3 as [H3|[]].
          destruct (inprev y); [destruct H4|]. destruct (lookup y m) as [gy|]; [|destruct H4]. destruct (gy =? g); [|destruct H4]. destruct H4 as [H4|[]]. subst i j. f_equal. destruct H1 as [_ H1], H2 as [_ H2]. congruence.
      + intros i H1 H2. apply in_flat_map in H1. destruct H1 as [[k p] [Hin H1]]. apply (sel_in g (k, p)) in H1; auto. destruct H1 as [H1 _]. cbn [snd] in H1. destruct (Hlay k p Hin) as [l [A [_ [_ [B _]]]]]. apply B in H1. destruct H1 as [x [X1 X2]].
        unfold own in H2. apply in_flat_map in H2. destruct H2 as [[j y] [H2 H3]]. apply in_combine_seq in H2. cbn [fst snd] in H3. destruct (inprev y) eqn:Ei; [destruct H3|]. destruct (lookup y m); [|destruct H3]. destruct (_ =? g); [|destruct H3]. destruct H3 as [H3|[]]. subst j. rewrite Nat.sub_0_r in H2. assert (y = x) by (destruct H2; congruence). subst y.
        apply not_true_iff_false in Ei. apply Ei. apply existsb_exists. exists k. split; [rewrite <- Hlk; apply (in_map fst) in Hin; auto|]. rewrite A. apply memb_spec. auto.
    - apply NoDup_filter, seq_NoDup.
    - intros i. rewrite in_app_iff, filter_In, in_seq, Nat.eqb_eq. split.
      + intros [H|H].
        * apply in_flat_map in H. destruct H as [[k p] [Hin H1]]. apply (sel_in g (k, p)) in H1; auto. destruct H1 as [H1 H2]. destruct (Hlay k p Hin) as [l [_ [_ [_ [B _]]]]]. apply B in H1. destruct H1 as [x [X1 _]]. apply nth_error_Some_lt in X1. split; auto. lia.
        * unfold own in H. apply in_flat_map in H. destruct H as [[j y] [H2 H3]]. apply in_combine_seq in H2. cbn [fst snd] in H3. destruct (inprev y); [destruct H3|]. destruct (lookup y m) as [gy|] eqn:Ey; [|destruct H3]. destruct (Nat.eqb_spec gy g) as [Eg|]; [|destruct H3]. destruct H3 as [H3|[]]. subst j. rewrite Nat.sub_0_r in H2.
          destruct H2 as [_ H2]. destruct (grp_at i y H2) as [H3 _]. apply nth_error_Some_lt in H2. split; [lia|congruence].
      + intros [Hi Hg]. destruct (nth_error_Some_ex vs i ltac:(lia)) as [x Hx]. destruct (grp_at i x Hx) as [Hm _]. destruct (inprev x) eqn:Ei.
        * left. unfold inprev in Ei. apply existsb_exists in Ei. destruct Ei as [k [Hk Ek]]. rewrite <- Hlk in Hk. apply in_map_iff in Hk. destruct Hk as [[k' p] [Ek' Hin]]. cbn in Ek'. subst k'. apply in_flat_map. exists (k, p). split; auto. apply sel_in; auto. split; auto. cbn [snd].
          destruct (Hlay k p Hin) as [l [A [_ [_ [B _]]]]]. rewrite A in Ek. apply memb_spec in Ek. apply B. eauto.
        * right. unfold own. apply in_flat_map. exists (i, x). split; [apply in_combine_seq; rewrite Nat.sub_0_r; split; [lia|auto]|]. cbn [fst snd]. rewrite Ei, Hm, Hg, Nat.eqb_refl. left; auto.
  Qed.
  Definition rpc (done : list (nat * list (option nat))) (j : nat) : list nat := match lookup j done with Some r => pc r | None => [] end.
  Definition roots (g : nat) (done : list (nat * list (option nat))) : list nat := flat_map (fun j => if (nth j par 0 <? g) || (j =? 0) then rpc done j else []) (seq g (n - g)).
  Definition kids (g : nat) (done : list (nat * list (option nat))) : list (list (option nat)) :=
    flat_map (fun j => match nth_error (lc_parent C) j with
                                    | Some p => if (p =? g) && negb (j =? 0) then match lookup j done with Some r => [r] | None => [] end else []
                                    | None => [] end) (seq 0 (length (lc_parent C))).
  Lemma par_lt j : j < n -> j <> 0 -> nth j par 0 < j.
  Proof. intros H1 H2. destruct (nth_error_Some_ex par j H1) as [p Hp]. rewrite (nth_error_nth _ _ 0 Hp). eapply po_par; eauto. Qed.
  Lemma kids_pc g done : g < n -> concat (map pc (kids g done)) = flat_map (fun j => if nth j par 0 =? g then rpc done j else []) (seq (S g) (n - S g)).
  Proof.
    intros Hg. unfold kids. fold par. fold n. assert (E : forall l, concat (map pc (flat_map (fun j => match nth_error par j with Some p => if (p =? g) && negb (j =? 0) then match lookup j done with Some r => [r] | None => [] end else [] | None => [] end) l)) =
      flat_map (fun j => match nth_error par j with Some p => if (p =? g) && negb (j =? 0) then rpc done j else [] | None => [] end) l).
    { induction l as [|j l IH]; auto. cbn [flat_map]. rewrite map_app, concat_app, IH. f_equal. destruct (nth_error par j) as [p|]; auto. destruct (_ && _); auto. unfold rpc. destruct (lookup j done); auto. cbn. apply app_nil_r. }
    rewrite E. replace n with (S g + (n - S g)) at 1 by lia. rewrite seq_app, flat_map_app. cbn [Nat.add].
    assert (E0 : forall j, In j (seq 0 (S g)) -> (match nth_error par j with Some p => if (p =? g) && negb (j =? 0) then rpc done j else [] | None => [] end) = []).
    { intros j Hj. apply in_seq in Hj. destruct (nth_error par j) as [p|] eqn:Ep; auto. destruct (Nat.eqb_spec j 0) as [->|Hj0]; [rewrite andb_false_r; auto|]. pose proof (po_par _ _ _ _ _ Hpl j p Ep Hj0). destruct (Nat.eqb_spec p g); auto. lia. }
    assert (E1 : forall l, (forall j, In j l -> (match nth_error par j with Some p => if (p =? g) && negb (j =? 0) then rpc done j else [] | None => [] end) = []) -> flat_map (fun j => match nth_error par j with Some p => if (p =? g) && negb (j =? 0) then rpc done j else [] | None => [] end) l = []).
    { induction l as [|j l IH]; intros H; auto. cbn [flat_map]. rewrite H by (left; auto). apply IH. intros; apply H; right; auto. }
    rewrite (E1 _ E0). cbn [app]. apply flat_map_ext_in. intros j Hj. apply in_seq in Hj. destruct (nth_error_Some_ex par j ltac:(unfold n in *; lia)) as [p Hp]. rewrite Hp, (nth_error_nth _ _ 0 Hp). destruct (Nat.eqb_spec j 0) as [|_]; [lia|]. rewrite andb_true_r. auto.
  Qed.
  Lemma groups_total : forall d g, d + g = n -> exists done, ofold (group1 X C lays) (rev (seq g d)) [] = Some done /\ (forall j, g <= j < n -> exists r, lookup j done = Some r /\ pow2b (length r) = true) /\
    Permutation (roots g done) (filter (fun i => g <=? grp i) (seq 0 (length vs))).
  Proof.
    induction d as [|d IH]; intros g Hd.
    - exists []. split; auto. split; [intros j Hj; lia|]. unfold roots. replace (n - g) with 0 by lia. cbn [seq flat_map].
      replace (filter (fun i => g <=? grp i) (seq 0 (length vs))) with (@nil nat); auto. symmetry. assert (H : forall l, (forall i, In i l -> i < length vs) -> filter (fun i => g <=? grp i) l = []).
      { induction l as [|i l IHl]; intros H; auto. cbn [filter]. destruct (nth_error_Some_ex vs i (H i (or_introl eq_refl))) as [x Hx]. destruct (grp_at i x Hx) as [_ Hg]. destruct (Nat.leb_spec g (grp i)); [lia|]. apply IHl. intros; apply H; right; auto. }
      apply H. intros i Hi. apply in_seq in Hi. lia.
    - destruct (IH (S g) ltac:(lia)) as [done [D1 [D2 D3]]]. cbn [seq rev]. rewrite ofold_app, D1. cbn [obind ofold]. unfold group1 at 1.
      change (flat_map _ (seq 0 (length (lc_parent C)))) with (kids g done). rewrite sel_total. cbn [obind].
      change (flat_map _ (combine (seq 0 (length (lc_vars C))) (lc_vars C))) with (own g).
      destruct (merge_total (kids g done ++ concat (map (sel g) lays)) (own g)) as [r [R1 [R2 R3]]].
      { intros p Hp. apply in_app_iff in Hp. destruct Hp as [Hp|Hp].
        - unfold kids in Hp. fold par in Hp. fold n in Hp. apply in_flat_map in Hp. destruct Hp as [j [Hj Hp]]. destruct (nth_error par j) as [q|] eqn:Eq; [|destruct Hp]. destruct (Nat.eqb_spec q g) as [E1|]; [|destruct Hp]. destruct (Nat.eqb_spec j 0) as [|E2]; [destruct Hp|]. cbn [andb negb] in Hp.
          destruct (lookup j done) as [r|] eqn:Er; [|destruct Hp]. destruct Hp as [Hp|[]]. subst r. pose proof (po_par _ _ _ _ _ Hpl j q Eq E2). apply in_seq in Hj. destruct (D2 j ltac:(lia)) as [r' [A B]]. congruence.
        - apply in_concat in Hp. destruct Hp as [s [Hs Hp]]. apply in_map_iff in Hs. destruct Hs as [[k q] [Hs Hin]]. subst s. destruct (Hlay k q Hin) as [l [A [B _]]]. unfold sel in Hp. cbn [fst snd] in Hp. rewrite A in Hp. destruct (cl_outs l) as [|y t]; [destruct Hp|]. destruct (lookup y m) as [gy|]; [|destruct Hp]. destruct (gy =? g); [|destruct Hp]. destruct Hp as [Hp|[]]. subst. auto. }
      rewrite R1. cbn [obind]. eexists. split; [reflexivity|]. split.
      + intros j Hj. cbn [lookup]. destruct (Nat.eqb_spec g j) as [E|E]; [eauto|]. apply D2. lia.
      + unfold roots. replace (n - g) with (S (n - S g)) by lia. cbn [seq flat_map].
        assert (Hg : (nth g par 0 <? g) || (g =? 0) = true). { destruct (Nat.eqb_spec g 0) as [|E]; [apply orb_true_r|]. pose proof (par_lt g ltac:(lia) E). rewrite (proj2 (Nat.ltb_lt _ _)); auto. }
        rewrite Hg. unfold rpc at 1. cbn [lookup]. rewrite Nat.eqb_refl. rewrite R3, map_app, concat_app, kids_pc by lia.
        rewrite (filter_split grp g), <- D3, <- (own_total g). rewrite <- !app_assoc. unfold roots at 1.
        assert (Et : flat_map (fun j => if (nth j par 0 <? g) || (j =? 0) then rpc ((g, r) :: done) j else []) (seq (S g) (n - S g)) = flat_map (fun j => if nth j par 0 <? g then rpc done j else []) (seq (S g) (n - S g))).
        { apply flat_map_ext_in. intros j Hj. apply in_seq in Hj. destruct (Nat.eqb_spec j 0) as [|_]; [lia|]. rewrite orb_false_r. unfold rpc. cbn [lookup]. destruct (Nat.eqb_spec g j); [lia|]. auto. }
        rewrite Et. clear Et.
        assert (Es : Permutation (flat_map (fun j => if (nth j par 0 <? S g) || (j =? 0) then rpc done j else []) (seq (S g) (n - S g)))
          (flat_map (fun j => if nth j par 0 =? g then rpc done j else []) (seq (S g) (n - S g)) ++ flat_map (fun j => if nth j par 0 <? g then rpc done j else []) (seq (S g) (n - S g)))).
        { rewrite <- flat_map_split.
          - apply Permutation_refl'. apply flat_map_ext_in. intros j Hj. apply in_seq in Hj. destruct (Nat.eqb_spec j 0) as [|_]; [lia|]. rewrite orb_false_r. destruct (Nat.ltb_spec (nth j par 0) (S g)), (Nat.eqb_spec (nth j par 0) g), (Nat.ltb_spec (nth j par 0) g); cbn [orb]; auto; lia.
          - intros j _. rewrite Nat.eqb_eq, Nat.ltb_lt. lia. }
        rewrite Es, <- app_assoc. apply Permutation_app_head. rewrite (app_assoc _ (own g)). apply Permutation_app_comm.
  Qed.
  Theorem dense_total : exists groups dense, ofold (group1 X C lays) (rev (seq 0 (length (lc_parent C)))) [] = Some groups /\ lookup 0 groups = Some dense /\ pow2b (length dense) = true /\ Permutation (pc dense) (seq 0 (length vs)).
  Proof.
    destruct (groups_total n 0 ltac:(lia)) as [done [D1 [D2 D3]]]. assert (Hn : 0 < n). { pose proof (po_ne _ _ _ _ _ Hpl) as H. unfold n. apply Nat.neq_0_lt_0. intros El. apply length_zero_iff_nil in El. contradiction. }
    destruct (D2 0 ltac:(lia)) as [r [R1 R2]]. exists done, r. split; auto. split; auto. split; auto.
    unfold roots in D3. rewrite Nat.sub_0_r in D3. assert (Hn' : exists n', n = S n') by (exists (n - 1); lia). destruct Hn' as [n' En]. rewrite En in D3. cbn [seq flat_map] in D3. rewrite orb_true_r in D3.
    assert (E : flat_map (fun j => if (nth j par 0 <? 0) || (j =? 0) then rpc done j else []) (seq 1 n') = []).
    { assert (G : forall b l, flat_map (fun j => if (nth j par 0 <? 0) || (j =? 0) then rpc done j else []) (seq (S b) l) = []); [|apply G]. intros b l. revert b. induction l as [|l IHl]; intros b; auto. cbn [seq flat_map]. rewrite IHl. auto. }
    rewrite E, app_nil_r in D3. unfold rpc in D3. rewrite R1 in D3. rewrite D3. clear. assert (G : forall l, filter (fun i => 0 <=? grp i) l = l) by (induction l as [|x l IH]; cbn; auto; f_equal; auto). rewrite G. auto.
  Qed.
End Groups.
