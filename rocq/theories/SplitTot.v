(* Totality of ir_split.rs: cutting a circuit whose layers are consistent does not panic, and the segments keep the layers. *)
From Verif Require Import Prelude Field Sorting Expr Topo Ir IrFacts IrInst Sim Builder BuilderFacts LaySched Layering IrSplit SplitCut SplitSegs.
Open Scope nat_scope.

Section Lay.
  Context {F : Fld}.
  Notation DI := (DestI F false).
  Notation Pool := (CPool (F := F)).
  (* the layers [ml] suit the instructions: [sc] holds the layers in which the calls start; no point of [at_] lies inside a call; [U x l] is what is
     known of a variable x that has to be there up to layer l *)
  Fixpoint lay (U : nat -> nat -> Prop) (ml at_ : list nat) (is : list (DInsn F)) (cur : nat) (sc : list nat) : Prop :=
    match is with
    | [] => sc = []
    | DConst _ :: is => getn ml (S cur) = 1 /\ lay U ml at_ is (S cur) sc
    | DVar e :: is => (forall x, In x (e_vars F e) -> 0 < x <= cur /\ getn ml x < getn ml (S cur) /\ U x (getn ml (S cur) - 1)) /\ 0 < getn ml (S cur) /\ lay U ml at_ is (S cur) sc
    | DCall _ l n :: is => exists s e sc', sc = s :: sc' /\ (forall x, In x l -> 0 < x <= cur /\ getn ml x <= s /\ U x s) /\ s < e /\ (forall a, In a at_ -> a <= s \/ e <= a) /\
        (forall k, k < n -> getn ml (S cur + k) = e) /\ lay U ml at_ is (cur + n) sc'
    end.
  Definition anyU (x l : nat) : Prop := True.

  Lemma nouts_cons (i : DInsn F) is : nouts DI (i :: is) = d_nout F i + nouts DI is.
  Proof. reflexivity. Qed.
  Lemma lay_app U ml at_ b scb a : forall cur sca, lay U ml at_ a cur sca -> lay U ml at_ b (cur + nouts DI a) scb -> lay U ml at_ (a ++ b) cur (sca ++ scb).
  Proof.
    induction a as [|i a IH]; intros cur sca Ha Hb.
    - cbn [lay] in Ha. subst sca. cbn [nouts app] in *. rewrite Nat.add_0_r in Hb. auto.
    - rewrite nouts_cons in Hb. destruct i as [e|id l n|k]; cbn [lay app d_nout] in *.
      + destruct Ha as [A1 [A2 A3]]. split; auto. split; auto. apply IH; auto. replace (S cur + nouts DI a) with (cur + (1 + nouts DI a)) by lia. auto.
      + destruct Ha as [s [en [sc' [-> [A1 [A2 [A3 [A4 A5]]]]]]]]. exists s, en, (sc' ++ scb). split; auto. split; auto. split; auto. split; auto. split; auto. apply IH; auto. replace (cur + n + nouts DI a) with (cur + (n + nouts DI a)) by lia. auto.
      + destruct Ha as [A1 A2]. split; auto. apply IH; auto. replace (S cur + nouts DI a) with (cur + (1 + nouts DI a)) by lia. auto.
  Qed.
  Lemma lay_ext U ml ml' at_ is : forall cur sc, (forall x, x <= cur + nouts DI is -> getn ml' x = getn ml x) -> lay U ml at_ is cur sc -> lay U ml' at_ is cur sc.
  Proof.
    induction is as [|i is IH]; intros cur sc He H; auto. rewrite nouts_cons in He. destruct i as [e|id l n|k]; cbn [lay d_nout] in *.
    - destruct H as [A1 [A2 A3]]. rewrite !He by lia. split; [|split; auto]; [|apply IH; auto; intros; apply He; lia]. intros x Hx. destruct (A1 x Hx) as [B1 [B2 B3]]. rewrite He by lia. auto.
    - destruct H as [s [en [sc' [-> [A1 [A2 [A3 [A4 A5]]]]]]]]. exists s, en, sc'. split; auto. split; [intros x Hx; destruct (A1 x Hx) as [B1 [B2 B3]]; rewrite He by lia; auto|]. split; auto. split; auto. split; [intros j Hj; rewrite He by lia; auto|]. apply IH; auto. intros; apply He; lia.
    - destruct H as [A1 A2]. rewrite He by lia. split; auto. apply IH; auto. intros; apply He; lia.
  Qed.
  Lemma lay_cuts U ml at_ at_' is : incl at_' at_ -> forall cur sc, lay U ml at_ is cur sc -> lay U ml at_' is cur sc.
  Proof.
    intros Hi. induction is as [|i is IH]; intros cur sc H; auto. destruct i as [e|id l n|k]; cbn [lay] in *.
    - destruct H as [A1 [A2 A3]]. auto.
    - destruct H as [s [en [sc' [-> [A1 [A2 [A3 [A4 A5]]]]]]]]. exists s, en, sc'. auto 10.
    - destruct H. auto.
  Qed.

  (* ------------------------------------------------------------ max_layers *)
  Lemma raise_spec xs l : forall mx, length (raise mx xs l) = length mx /\ (forall x, getn mx x <= getn (raise mx xs l) x) /\ (forall x, In x xs -> x < length mx -> l <= getn (raise mx xs l) x).
  Proof.
    unfold raise. induction xs as [|y xs IH]; intros mx; cbn [fold_left]; [split; auto; split; auto; intros x []|]. destruct (IH (upd mx y (Nat.max (getn mx y) l))) as [A1 [A2 A3]]. rewrite upd_length in A1, A3. split; auto.
    assert (Hy : forall x, getn mx x <= getn (upd mx y (Nat.max (getn mx y) l)) x). { intros x. rewrite getn_upd. destruct ((y =? x) && _) eqn:E; [|lia]. apply andb_true_iff in E. rewrite Nat.eqb_eq in E. destruct E as [-> _]. lia. }
    split; [intros x; etransitivity; [apply Hy|apply A2]|]. intros x [->|Hx] Hl; [|auto]. etransitivity; [|apply A2]. rewrite getn_upd, Nat.eqb_refl, (proj2 (Nat.ltb_lt _ _) Hl). cbn [andb]. lia.
  Qed.
  Lemma lay_U (U U' : nat -> nat -> Prop) ml at_ is : (forall x l, U x l -> U' x l) -> forall cur sc, lay U ml at_ is cur sc -> lay U' ml at_ is cur sc.
  Proof.
    intros Hi. induction is as [|i is IH]; intros cur sc H; auto. destruct i as [e|id l n|k]; cbn [lay] in *.
    - destruct H as [A1 [A2 A3]]. split; auto. intros x Hx. destruct (A1 x Hx) as [B1 [B2 B3]]. auto.
    - destruct H as [s [en [sc' [-> [A1 [A2 [A3 [A4 A5]]]]]]]]. exists s, en, sc'. split; auto. split; auto. intros x Hx. destruct (A1 x Hx) as [B1 [B2 B3]]. auto.
    - destruct H. auto.
  Qed.
  Lemma max_layers_total ml at_ is : forall cur sc mx, lay anyU ml at_ is cur sc -> cur + nouts DI is < length mx ->
    exists mx', max_layers is ml cur sc mx = Some mx' /\ length mx' = length mx /\ (forall x, getn mx x <= getn mx' x) /\ lay (fun x l => l <= getn mx' x) ml at_ is cur sc.
  Proof.
    induction is as [|i is IH]; intros cur sc mx H Hl.
    - cbn [lay] in H. subst sc. exists mx. cbn. auto.
    - rewrite nouts_cons in Hl. destruct i as [e|id l n|k]; cbn [lay max_layers d_nout] in *.
      + destruct H as [A1 [A2 A3]]. destruct (raise_spec (e_vars F e) (getn ml (S cur) - 1) mx) as [R1 [R2 R3]]. destruct (IH _ _ (raise mx (e_vars F e) (getn ml (S cur) - 1)) A3) as [mx' [B1 [B2 [B3 B4]]]]; [rewrite R1; lia|]. exists mx'. split; auto. split; [congruence|].
        split; [intros x; etransitivity; eauto|]. split; [|auto]. intros x Hx. destruct (A1 x Hx) as [C1 [C2 _]]. split; auto. split; auto. etransitivity; [|apply B3]. apply R3; auto. lia.
      + destruct H as [s [en [sc' [-> [A1 [A2 [A3 [A4 A5]]]]]]]]. destruct (raise_spec l s mx) as [R1 [R2 R3]]. destruct (IH _ _ (raise mx l s) A5) as [mx' [B1 [B2 [B3 B4]]]]; [rewrite R1; lia|]. exists mx'. split; auto. split; [congruence|].
        split; [intros x; etransitivity; eauto|]. exists s, en, sc'. split; auto. split; auto. intros x Hx. destruct (A1 x Hx) as [C1 [C2 _]]. split; auto. split; auto. etransitivity; [|apply B3]. apply R3; auto. lia.
      + destruct H as [A1 A2]. destruct (IH _ _ mx A2) as [mx' [B1 [B2 [B3 B4]]]]; [lia|]. exists mx'. auto.
  Qed.
  (* layers of computed variables *)
  Lemma lay_pos U ml at_ is : forall cur sc x, lay U ml at_ is cur sc -> cur < x <= cur + nouts DI is -> 0 < getn ml x.
  Proof.
    induction is as [|i is IH]; intros cur sc x H Hx; [cbn [nouts] in Hx; lia|]. rewrite nouts_cons in Hx. destruct i as [e|id l n|k]; cbn [lay d_nout] in *.
    - destruct H as [_ [A2 A3]]. destruct (Nat.eq_dec x (S cur)) as [->|Hn]; auto. apply (IH _ _ x A3). lia.
    - destruct H as [s [en [sc' [_ [_ [A2 [_ [A4 A5]]]]]]]]. destruct (Nat.le_gt_cases x (cur + n)) as [Hc|Hc]; [|apply (IH _ _ x A5); lia]. replace x with (S cur + (x - S cur)) by lia. rewrite A4 by lia. lia.
    - destruct H as [A1 A2]. destruct (Nat.eq_dec x (S cur)) as [->|Hn]; [lia|]. apply (IH _ _ x A2). lia.
  Qed.

  (* ------------------------------------------------------------ the instructions of one segment *)
  Section Seg.
    Variables (nin nv : nat) (ml mx at_ : list nat).
    Hypothesis Hin : forall j, 0 < j <= nin -> In (getn ml j) at_.
    Variables start stop : nat.
    Hypothesis Hstart : In start at_.
    Hypothesis Hstop : In stop at_.
    Hypothesis Hlt : start < stop.
    Hypothesis Hcons : forall a, In a at_ -> a <= start \/ stop <= a.
    Notation js := (seg_inputs nin nv start ml mx).
    Notation U := (fun x l => l <= getn mx x).
    Lemma in_seg_iff l : in_seg start stop l = true <-> start < l <= stop.
    Proof. unfold in_seg. rewrite andb_true_iff, Nat.ltb_lt, Nat.leb_le. tauto. Qed.
    (* a variable that is needed is an input of the segment *)
    Lemma js_need x : 0 < x <= nv - 2 -> getn ml x <= start -> start <= getn mx x -> In x js.
    Proof.
      intros Hx H1 H2. unfold seg_inputs. apply in_or_app. rewrite !filter_In, !in_seq. destruct (Nat.eq_dec (getn ml x) start) as [E|E].
      - destruct (Nat.le_gt_cases x nin) as [Hc|Hc]; [left; split; [lia|apply Nat.eqb_eq; auto]|]. right. split; [lia|]. rewrite E, Nat.eqb_refl, (proj2 (Nat.ltb_lt nin x) Hc), (proj2 (Nat.leb_le _ _) H2). rewrite orb_true_r. auto.
      - right. split; [lia|]. rewrite (proj2 (Nat.ltb_lt (getn ml x) start)) by lia. rewrite (proj2 (Nat.leb_le _ _) H2). auto.
    Qed.
    Lemma js_le x : In x js -> 0 < x /\ getn ml x <= start.
    Proof.
      unfold seg_inputs. rewrite in_app_iff, !filter_In, !in_seq. intros [[A B]|[A B]]; [apply Nat.eqb_eq in B; lia|]. apply andb_true_iff in B. destruct B as [B _]. apply orb_true_iff in B. destruct B as [B|B]; [apply Nat.ltb_lt in B; lia|]. apply andb_true_iff in B. destruct B as [B _]. apply Nat.eqb_eq in B. lia.
    Qed.
    Lemma sel_cases i cur is sc : lay U ml at_ (i :: is) cur sc -> 0 < d_nout F i -> sel ml start stop i cur = in_seg start stop (getn ml (S cur)).
    Proof.
      intros H Hn. destruct i as [e|id l n|k]; cbn [sel d_nout] in *; auto.
      - rewrite (proj2 (Nat.ltb_lt _ _) Hn). auto.
      - destruct H as [-> _]. unfold in_seg. destruct (Nat.eqb_spec start 0) as [->|Hz]; [destruct stop; [lia|reflexivity]|]. rewrite (proj2 (Nat.ltb_ge start 1)) by lia. auto.
    Qed.
    Lemma lay_same i cur is sc x : lay U ml at_ (i :: is) cur sc -> cur < x <= cur + d_nout F i -> getn ml x = getn ml (S cur).
    Proof.
      intros H Hx. destruct i as [e|id l n|k]; cbn [d_nout] in Hx; try (replace x with (S cur) by lia; auto).
      destruct H as [s [en [sc' [_ [_ [_ [_ [A4 _]]]]]]]]. replace x with (S cur + (x - S cur)) by lia. rewrite A4 by lia. specialize (A4 0 ltac:(lia)). rewrite Nat.add_0_r in A4. congruence.
    Qed.
    Lemma lay_tail i cur is sc : lay U ml at_ (i :: is) cur sc -> exists sc', lay U ml at_ is (cur + d_nout F i) sc'.
    Proof. destruct i as [e|id l n|k]; cbn [lay d_nout]; rewrite ?Nat.add_1_r; [intros [_ [_ H]]; eauto|intros [s [en [sc' [_ [_ [_ [_ [_ H]]]]]]]]; eauto|intros [_ H]; eauto]. Qed.
    Lemma lay_inputs i cur is sc x : lay U ml at_ (i :: is) cur sc -> sel ml start stop i cur = true -> cur + d_nout F i < nv -> In x (d_inputs F i) -> (forall y, In y js -> getn ml y <= start) ->
      0 < x <= cur /\ (In x js \/ (nin < x /\ start < getn ml x <= stop)).
    Proof.
      intros H Hs Hnv Hx _. assert (G : 0 < x <= cur /\ getn ml x < stop /\ start <= getn mx x /\ 0 < d_nout F i).
      { destruct i as [e|id l n|k]; cbn [lay sel d_inputs d_nout] in *; [| |destruct Hx].
        - destruct H as [A1 [A2 _]]. apply in_seg_iff in Hs. destruct (A1 x Hx) as [B1 [B2 B3]]. lia.
        - destruct H as [s [en [sc' [_ [A1 [A2 [A3 [A4 _]]]]]]]]. apply andb_true_iff in Hs. destruct Hs as [Hn Hs]. apply Nat.ltb_lt in Hn. apply in_seg_iff in Hs. specialize (A4 0 Hn). rewrite Nat.add_0_r in A4. rewrite A4 in Hs. destruct (A1 x Hx) as [B1 [B2 B3]]. specialize (A3 start Hstart). lia. }
      destruct G as [G1 [G2 [G3 G4]]]. split; auto. destruct (Nat.le_gt_cases (getn ml x) start) as [Hc|Hc]; [left; apply js_need; auto; lia|]. right. split; [|lia]. destruct (Nat.le_gt_cases x nin) as [Hn|Hn]; auto. destruct (Hcons _ (Hin x ltac:(lia))); lia.
    Qed.
    Lemma seg_total is : forall cur lmax loc sc, lay U ml at_ is cur sc -> nv = S (cur + nouts DI is) -> length loc = nv -> nin <= cur ->
      (forall x, In x js -> getn loc x <> 0) -> (forall x, nin < x <= cur -> start < getn ml x <= stop -> getn loc x <> 0) ->
      exists is' loc', seg_insns ml start stop is cur lmax loc = Some (is', loc') /\ length loc' = nv /\ (forall x, In x js -> getn loc' x <> 0) /\ (forall x, nin < x < nv -> start < getn ml x <= stop -> getn loc' x <> 0).
    Proof.
      induction is as [|i is IH]; intros cur lmax loc sc H Hnv Hl Hc Hj Hq.
      - exists [], loc. cbn. split; auto. split; auto. split; auto. cbn [nouts] in Hnv. intros x Hx. apply Hq. lia.
      - rewrite nouts_cons in Hnv. rewrite seg_cons. destruct (lay_tail _ _ _ _ H) as [sc' Ht]. destruct (sel ml start stop i cur) eqn:Es.
        + assert (Ha : all_local loc (d_inputs F i) = true).
          { apply forallb_forall. intros x Hx. apply negb_true_iff, Nat.eqb_neq. destruct (lay_inputs i cur is sc x H Es) as [A [B|[B1 B2]]]; auto; [lia|intros y Hy; apply js_le; auto|]. apply Hq; auto. lia. }
          rewrite Ha. cbn [guard obind]. destruct (setloc_spec (d_nout F i) loc cur lmax) as [S1 S2]; [lia|].
          destruct (IH (cur + d_nout F i) (lmax + d_nout F i) (setloc loc cur lmax (d_nout F i)) sc' Ht) as [is' [loc' [B1 [B2 [B3 B4]]]]]; try lia.
          * intros x Hx. rewrite S2. destruct (_ && _) eqn:E; auto. apply andb_true_iff in E. rewrite Nat.ltb_lt, Nat.leb_le in E. lia.
          * intros x Hx Hm. rewrite S2. destruct (_ && _) eqn:E; [apply andb_true_iff in E; rewrite Nat.ltb_lt, Nat.leb_le in E; lia|]. apply andb_false_iff in E. rewrite Nat.ltb_ge, Nat.leb_gt in E. apply Hq; auto. lia.
          * rewrite B1. cbn [obind fst snd]. eauto 10.
        + apply (IH (cur + d_nout F i) lmax loc sc' Ht); auto; try lia. intros x Hx Hm. destruct (Nat.le_gt_cases x cur) as [Hxc|Hxc]; [apply Hq; auto; lia|].
          exfalso. rewrite (sel_cases i cur is sc H) in Es by lia. rewrite (lay_same i cur is sc x H) in Hm by lia. apply in_seg_iff in Hm. congruence.
    Qed.
    Lemma lay_sel i c : forall is cur sc, lay U ml at_ is cur sc -> In (i, c) (poss is cur) -> sel ml start stop i c = true -> forall x, c < x <= c + d_nout F i -> start < getn ml x <= stop.
    Proof.
      induction is as [|j is IH]; intros cur sc H Hi Hs x Hx; [destruct Hi|]. cbn [poss] in Hi. destruct Hi as [E|Hi]; [injection E as -> ->|destruct (lay_tail _ _ _ _ H) as [sc' Ht]; eapply IH; eauto].
      rewrite (lay_same i c is sc x H) by lia. rewrite (sel_cases i c is sc H) in Hs by lia. apply in_seg_iff. auto.
    Qed.
    Lemma set_locals_ne x : In x js -> x < nv -> getn (set_locals nv js) x <> 0.
    Proof.
      unfold set_locals. generalize js at 1 2 3. intros l Hx Hv.
      assert (G : forall (l : list nat) k loc, length loc = nv -> (In x l \/ getn loc x <> 0) -> getn (fold_left (fun loc p => upd loc (fst p) (snd p)) (combine l (seq (S k) (length l))) loc) x <> 0).
      { clear - Hv. induction l as [|y l IH]; intros k loc Hl [H|H]; cbn [length seq combine fold_left fst snd]; auto; try contradiction; apply IH; rewrite ?upd_length; auto.
        - destruct H as [->|H]; auto. right. rewrite getn_upd, Nat.eqb_refl, (proj2 (Nat.ltb_lt _ _)) by lia. cbn; lia.
        - right. rewrite getn_upd. destruct (_ && _); auto. }
      apply (G l 0); auto. apply repeat_length.
    Qed.
    Lemma seg_total0 is sc : lay U ml at_ is nin sc -> nv = S (nin + nouts DI is) ->
      exists is' loc', seg_insns ml start stop is nin (length js) (set_locals nv js) = Some (is', loc') /\ length loc' = nv /\
        forall x, 0 < x < nv -> (getn loc' x <> 0 <-> In x js \/ (nin < x /\ start < getn ml x <= stop)).
    Proof.
      intros H Hnv. assert (Hjr : forall x, In x js -> x < nv). { intros x. unfold seg_inputs. rewrite in_app_iff, !filter_In, !in_seq. lia. }
      destruct (seg_total is nin (length js) (set_locals nv js) sc H Hnv (set_locals_len _ _) (Nat.le_refl _)) as [is' [loc' [A [B [C D]]]]]; [intros x Hx; apply set_locals_ne; auto|intros; lia|].
      exists is', loc'. split; auto. split; auto. intros x Hx. split.
      - intros Hn. destruct (seg_loc ml start stop is nin _ _ _ _ A) as [_ [_ [K _]]]; [rewrite set_locals_len; lia|]. destruct (K x) as [E|[i [c [K1 [K2 K3]]]]].
        + left. rewrite E in Hn. destruct (set_locals_spec nv js x Hn) as [k [_ Hk]]. eapply nth_error_In; eauto.
        + right. destruct (poss_range is nin i c K1). split; [lia|]. eapply lay_sel; eauto.
      - intros [Hj|[Hj1 Hj2]]; auto. apply D; auto. lia.
    Qed.
  End Seg.
End Lay.
