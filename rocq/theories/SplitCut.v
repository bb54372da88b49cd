(* Facts about ir_split.rs: cutting a circuit into segments keeps what it computes. *)
From Verif Require Import Prelude Field Sorting Expr Topo Ir IrFacts IrInst Sim Builder BuilderFacts LaySched Layering IrSplit.
Open Scope nat_scope.

Section Cut.
  Context {F : Fld}.
  Notation DI := (DestI F false).
  Let L : IRC_laws DI := DestL F false.

  (* ------------------------------------------------------------ the pool *)
  Lemma list_eqb_spec {A} (eqb : A -> A -> bool) : (forall x y, eqb x y = true <-> x = y) -> forall a b, list_eqb eqb a b = true <-> a = b.
  Proof.
    intros H. induction a as [|x a IH]; intros [|y b]; cbn; try (split; congruence). rewrite andb_true_iff, H, IH. split; [intros [-> ->]; auto|intros E; inversion E; auto].
  Qed.
  Lemma coef_eqb_spec (a b : Coef F) : coef_eqb a b = true <-> a = b.
  Proof. destruct a, b; cbn; try (split; congruence). rewrite feqb_spec. split; congruence. rewrite Nat.eqb_eq. split; congruence. Qed.
  Lemma dinsn_eqb_spec (a b : DInsn F) : dinsn_eqb a b = true <-> a = b.
  Proof.
    destruct a, b; cbn; try (split; congruence).
    - rewrite e_eqb_spec. split; congruence.
    - rewrite !andb_true_iff, !Nat.eqb_eq, (list_eqb_spec Nat.eqb Nat.eqb_eq). split; [intros [[-> ->] ->]; auto|intros E; inversion E; auto].
    - rewrite coef_eqb_spec. split; congruence.
  Qed.
  Lemma circuit_eqb_eq (a b : Circuit DI) : circuit_eqb a b = true -> a = b.
  Proof.
    unfold circuit_eqb. rewrite !andb_true_iff, Nat.eqb_eq. intros [[[H1 H2] H3] H4]. apply (list_eqb_spec _ dinsn_eqb_spec) in H1. apply (list_eqb_spec _ Nat.eqb_eq) in H2, H3.
    destruct a, b; cbn in *. subst. auto.
  Qed.
  Lemma pool_find_spec c : forall (p : CPool (F := F)) k r, pool_find p c k = Some r -> k <= r /\ nth_error p (r - k) = Some c.
  Proof.
    induction p as [|d p IH]; intros k r H; [discriminate|]. cbn [pool_find] in H. destruct (circuit_eqb d c) eqn:Ec.
    - inversion H; subst. apply circuit_eqb_eq in Ec. subst. rewrite Nat.sub_diag. auto.
    - apply IH in H. destruct H as [H1 H2]. split; [lia|]. replace (r - k) with (S (r - S k)) by lia. auto.
  Qed.
  Lemma cpool_add_spec (p : CPool (F := F)) c id p' : cpool_add p c = (id, p') -> (exists ext, p' = p ++ ext) /\ cpool_get p' id = Some c /\ (p' = p \/ (p' = p ++ [c] /\ id = S (length p))).
  Proof.
    unfold cpool_add. destruct (pool_find p c 1) as [k|] eqn:Ef; intros H; inversion H; subst.
    - apply pool_find_spec in Ef. destruct Ef as [H1 H2]. split; [exists []; rewrite app_nil_r; auto|]. split; auto. destruct id; [lia|]. cbn. rewrite <- H2. f_equal. lia.
    - split; [eauto|]. split; auto. cbn. rewrite nth_error_app2, Nat.sub_diag; auto.
  Qed.
  Lemma cpool_get_app (p ext : CPool (F := F)) id c : cpool_get p id = Some c -> cpool_get (p ++ ext) id = Some c.
  Proof. destruct id; cbn; [discriminate|]. apply nth_error_app_l. Qed.

  (* ------------------------------------------------------------ instructions with the number of variables before them *)
  Fixpoint poss (is : list (DInsn F)) (cur : nat) : list (DInsn F * nat) :=
    match is with [] => [] | i :: is => (i, cur) :: poss is (cur + d_nout F i) end.
  Lemma poss_range is : forall cur i c, In (i, c) (poss is cur) -> cur <= c /\ c + d_nout F i <= cur + nouts DI is.
  Proof.
    induction is as [|j is IH]; intros cur i c H; cbn [poss] in H; [destruct H|]. cbn [nouts]. destruct H as [H|H].
    - inversion H; subst. change (@i_nout F DI i) with (d_nout F i). lia.
    - apply IH in H. change (@i_nout F DI j) with (d_nout F j). lia.
  Qed.
  Lemma poss_disj is : forall cur i c i' c' j, In (i, c) (poss is cur) -> In (i', c') (poss is cur) -> c < j <= c + d_nout F i -> c' < j <= c' + d_nout F i' -> i = i' /\ c = c'.
  Proof.
    induction is as [|k is IH]; intros cur i c i' c' j H H' R R'; cbn [poss] in H, H'; [destruct H|]. destruct H as [H|H], H' as [H'|H'].
    - inversion H; inversion H'; subst; auto.
    - inversion H; subst. apply poss_range in H'. lia.
    - inversion H'; subst. apply poss_range in H. lia.
    - eapply IH; eauto.
  Qed.
  Lemma poss_app a : forall b cur, poss (a ++ b) cur = poss a cur ++ poss b (cur + nouts DI a).
  Proof.
    induction a as [|i a IH]; intros b cur; cbn [app poss nouts]; [rewrite Nat.add_0_r; auto|]. rewrite IH. change (@i_nout F DI i) with (d_nout F i). rewrite Nat.add_assoc. auto.
  Qed.
  Lemma poss_In is : forall cur i c, In (i, c) (poss is cur) -> In i is.
  Proof. induction is as [|k is IH]; intros cur i c H; cbn [poss] in H; [destruct H|]. destruct H as [H|H]; [inversion H; left; auto|right; eapply IH; eauto]. Qed.
  Lemma poss_wf is : forall cur i c, wf_insns DI is cur -> In (i, c) (poss is cur) -> Forall (fun x => 0 < x <= c) (d_inputs F i).
  Proof.
    induction is as [|k is IH]; intros cur i c W H; cbn [poss] in H; [destruct H|]. destruct W as [W1 W2]. destruct H as [H|H]; [inversion H; subst; auto|eapply IH; eauto].
  Qed.
  Lemma poss_cover is : forall cur j, cur < j <= cur + nouts DI is -> exists i c, In (i, c) (poss is cur) /\ c < j <= c + d_nout F i.
  Proof.
    induction is as [|k is IH]; intros cur j H; cbn [nouts poss] in *; [lia|]. change (@i_nout F DI k) with (d_nout F k) in H. destruct (Nat.le_gt_cases j (cur + d_nout F k)).
    - exists k, cur. split; [left; auto|lia].
    - destruct (IH (cur + d_nout F k) j) as [i [c [H1 H2]]]; [lia|]. exists i, c. split; auto. right; auto.
  Qed.

  Variable E : Env F.
  Variable cs : list (nat * Circuit DI).

  (* the values v are an outcome of instruction i *)
  Definition istep (v : nat -> F) (i : DInsn F) (c : nat) : Prop :=
    match i with
    | DCall id l n => run DI E cs id (map v l) (map v (seq (S c) n)) true
    | _ => d_sem F E i v [v (S c)]
    end.
  Lemma istep_ext (v v' : nat -> F) i c : (forall x, In x (d_inputs F i) -> v x = v' x) -> (forall j, c < j <= c + d_nout F i -> v j = v' j) -> istep v i c -> istep v' i c.
  Proof.
    intros H1 H2. destruct i as [e|id l n|k]; cbn [istep d_inputs d_nout] in *.
    - intros [u [Hu He]]. exists u. split; [rewrite <- H2 by lia; auto|]. eapply expr_sem_ext; eauto.
    - intros H. replace (map v' l) with (map v l) by (apply map_ext_in; auto). replace (map v' (seq (S c) n)) with (map v (seq (S c) n)); auto. apply map_ext_in. intros j Hj. apply in_seq in Hj. apply H2. lia.
    - intros H. rewrite <- H2 by lia. auto.
  Qed.
  Hypothesis Hncon : forall id c, lookup id cs = Some c -> constraints c = [].
  Lemma run_true id ins outs b : run DI E cs id ins outs b -> b = true.
  Proof.
    intros H. refine (run_mut _ E cs (fun is vals vals' b _ => b = true) (fun id ins outs b _ => b = true) _ _ _ _ id ins outs b H); intros; subst; auto.
    match goal with Hc : lookup _ cs = Some _ |- _ => rewrite (Hncon _ _ Hc) end. cbn [forallb]. auto.
  Qed.
  Lemma exec_true is vals vals' b : exec DI E cs is vals vals' b -> b = true.
  Proof.
    induction 1 as [|i is vals outs vals' b Ec Hi Hs Hx IH|i is id l n vals outs b1 vals' b2 Ec Hi Hr Hx IH]; auto. subst. apply run_true in Hr. subst. auto.
  Qed.
  Lemma nth_seq_map (v : nat -> F) c n k : k < n -> nth k (map v (seq c n)) f0 = v (c + k).
  Proof. intros H. rewrite (nth_indep _ f0 (v 0)) by (rewrite map_length, seq_length; auto). rewrite map_nth, seq_nth; auto. Qed.
  Lemma outs_eq (v : nat -> F) c n (outs : list F) : length outs = n -> (forall k, k < n -> nth k outs f0 = v (S c + k)) -> outs = map v (seq (S c) n).
  Proof.
    intros Hl H. apply (nth_ext _ _ f0 f0); [rewrite map_length, seq_length; auto|]. intros k Hk. rewrite nth_seq_map by lia. apply H. lia.
  Qed.
  (* from an execution to its final values *)
  Lemma step_istep (i : DInsn F) vals outs b v c : step DI E cs i vals outs b -> call_wf DI cs i -> length vals = S c -> (forall x, In x (d_inputs F i) -> x <= c -> v x = getv vals x) -> (forall k, k < d_nout F i -> v (S c + k) = nth k outs f0) -> istep v i c /\ length outs = d_nout F i.
  Proof.
    intros H Hw Hl Hv Ho. pose proof (step_len DI L _ _ _ _ _ _ Hw H) as Hlen. change (@i_nout F DI i) with (d_nout F i) in Hlen. split; auto.
    assert (Eo : outs = map v (seq (S c) (d_nout F i))) by (apply outs_eq; auto; intros; rewrite Ho; auto).
    unfold step in H. destruct i as [e|id l n|k]; cbn [i_call DestI d_call i_inputs d_inputs i_sem d_nout istep] in *.
    - destruct H as [Hi [[u [-> He]] _]]. inversion Eo. exists u. split; [f_equal; auto|]. eapply expr_sem_ext; [|exact He]. intros x Hx. symmetry. apply Hv; auto. rewrite Forall_forall in Hi. specialize (Hi x Hx). unfold inb in Hi. lia.
    - destruct H as [Hi Hr]. pose proof (run_true _ _ _ _ Hr) as ->. rewrite <- Eo. replace (map v l) with (map (getv vals) l); auto. apply map_ext_in. intros x Hx. symmetry. apply Hv; auto. rewrite Forall_forall in Hi. specialize (Hi x Hx). unfold inb in Hi. lia.
    - destruct H as [_ [H _]]. cbn [seq map] in Eo. rewrite <- Eo. auto.
  Qed.
  Lemma istep_step (i : DInsn F) vals v c : istep v i c -> length vals = S c -> Forall (fun x => 0 < x <= c) (d_inputs F i) -> (forall x, In x (d_inputs F i) -> v x = getv vals x) -> step DI E cs i vals (map v (seq (S c) (d_nout F i))) true.
  Proof.
    intros H Hl Hi Hv. assert (Hin : Forall (inb vals) (d_inputs F i)) by (eapply Forall_impl; [|exact Hi]; unfold inb; cbn; intros; lia).
    unfold step. destruct i as [e|id l n|k]; cbn [i_call DestI d_call i_inputs d_inputs i_sem d_nout istep] in *.
    - split; auto. split; auto. destruct H as [u [Hu He]]. exists u. cbn [seq map]. split; auto. eapply expr_sem_ext; eauto.
    - split; auto. replace (map (getv vals) l) with (map v l); auto. apply map_ext_in. auto.
    - split; auto.
  Qed.
  Lemma exec_istep is : forall cur vals vals' b, exec DI E cs is vals vals' b -> Forall (call_wf DI cs) is -> length vals = S cur -> forall i c, In (i, c) (poss is cur) -> istep (getv vals') i c.
  Proof.
    induction is as [|k is IH]; intros cur vals vals' b H Hw Hl i c Hi; [destruct Hi|]. apply exec_cons in H. destruct H as [outs [b1 [b2 [H1 [H2 _]]]]]. inversion Hw as [|? ? Hw1 Hw2]; subst.
    pose proof (step_len DI L _ _ _ _ _ _ Hw1 H1) as Hlo. change (@i_nout F DI k) with (d_nout F k) in Hlo. destruct (exec_prefix DI _ _ _ _ _ _ H2) as [ext ->]. cbn [poss] in Hi. destruct Hi as [Hi|Hi].
    - inversion Hi; subst i c. eapply (step_istep k vals outs b1); eauto.
      + intros x _ Hx. rewrite <- app_assoc. apply getv_app_l. lia.
      + intros j Hj. rewrite <- app_assoc. rewrite getv_app_r by lia. replace (S cur + j - length vals) with j by lia. rewrite getv_app_l by lia. reflexivity.
    - eapply (IH (cur + d_nout F k) (vals ++ outs)); eauto. rewrite app_length. lia.
  Qed.
  Lemma istep_exec is : forall cur vals v, wf_insns DI is cur -> length vals = S cur -> (forall j, j <= cur -> getv vals j = v j) -> (forall i c, In (i, c) (poss is cur) -> istep v i c) ->
    exec DI E cs is vals (vals ++ map v (seq (S cur) (nouts DI is))) true.
  Proof.
    induction is as [|k is IH]; intros cur vals v W Hl Hv Hs; cbn [nouts]; [cbn; rewrite app_nil_r; constructor|]. destruct W as [W1 W2]. apply exec_cons. exists (map v (seq (S cur) (d_nout F k))), true, true. split.
    - apply istep_step; auto; [apply Hs; left; auto|]. intros x Hx. symmetry. apply Hv. rewrite Forall_forall in W1. specialize (W1 x Hx). lia.
    - split; auto. change (@i_nout F DI k) with (d_nout F k) in *. rewrite seq_app, map_app, app_assoc. replace (S cur + d_nout F k) with (S (cur + d_nout F k)) by lia. apply IH; auto.
      + rewrite app_length, map_length, seq_length. lia.
      + intros j Hj. destruct (Nat.le_gt_cases j cur); [rewrite getv_app_l by lia; apply Hv; lia|]. rewrite getv_app_r by lia. unfold getv. rewrite nth_seq_map by lia. f_equal. lia.
      + intros i c Hi. apply Hs. right; auto.
  Qed.

  (* ------------------------------------------------------------ the instructions of one segment *)
  Section Insns.
    Variable ml : list nat.
    Variable start stop : nat.
    Definition sel (i : DInsn F) (c : nat) : bool :=
      match i with
      | DConst _ => start =? 0
      | DVar _ => in_seg start stop (getn ml (S c))
      | DCall _ _ n => (0 <? n) && in_seg start stop (getn ml (S c))
      end.
    Definition setloc (loc : list nat) (cur lmax n : nat) : list nat := fold_left (fun loc k => upd loc (S cur + k) (S lmax + k)) (seq 0 n) loc.
    Lemma getn_upd (l : list nat) i j v : getn (upd l i v) j = if (i =? j) && (j <? length l) then v else getn l j.
    Proof.
      unfold getn. rewrite nth_upd. destruct (Nat.eqb_spec i j) as [->|]; cbn [andb]; auto.
    Qed.
    Lemma setloc_spec n : forall loc cur lmax, cur + n < length loc -> length (setloc loc cur lmax n) = length loc /\ forall j, getn (setloc loc cur lmax n) j = if (cur <? j) && (j <=? cur + n) then lmax + (j - cur) else getn loc j.
    Proof.
      unfold setloc. induction n as [|n IH]; intros loc cur lmax H.
      - cbn [seq fold_left]. split; auto. intros j. destruct (Nat.ltb_spec cur j); cbn [andb]; auto. rewrite (proj2 (Nat.leb_gt _ _)) by lia. auto.
      - rewrite seq_S, fold_left_app. cbn [fold_left]. destruct (IH loc cur lmax) as [H1 H2]; [lia|]. split; [rewrite upd_length; auto|]. intros j. rewrite getn_upd, H1, H2. destruct (Nat.eqb_spec (S cur + (0 + n)) j) as [<-|Hj].
        + rewrite (proj2 (Nat.ltb_lt _ _)) by lia. rewrite (proj2 (Nat.ltb_lt cur _)) by lia. rewrite (proj2 (Nat.leb_le (S cur + (0 + n)) (cur + S n))) by lia. cbn [andb]. lia.
        + cbn [andb]. destruct (Nat.ltb_spec cur j); cbn [andb]; auto. destruct (Nat.leb_spec j (cur + n)), (Nat.leb_spec j (cur + S n)); auto; lia.
    Qed.
    Lemma seg_cons i is cur lmax loc : seg_insns ml start stop (i :: is) cur lmax loc =
      if sel i cur then
        let* _ := guard (all_local loc (d_inputs F i)) in
        let* r := seg_insns ml start stop is (cur + d_nout F i) (lmax + d_nout F i) (setloc loc cur lmax (d_nout F i)) in
        Some (d_replace F (getn loc) i :: fst r, snd r)
      else seg_insns ml start stop is (cur + d_nout F i) lmax loc.
    Proof.
      destruct i as [e|id l n|k]; cbn [seg_insns sel d_inputs d_nout d_replace]; auto.
      - rewrite !Nat.add_1_r. unfold setloc. cbn [seq fold_left]. rewrite !Nat.add_0_r. auto.
      - rewrite !Nat.add_1_r. unfold setloc. cbn [seq fold_left]. rewrite !Nat.add_0_r. auto.
    Qed.
    Lemma seg_inv i is cur lmax loc is' loc' : seg_insns ml start stop (i :: is) cur lmax loc = Some (is', loc') ->
      (sel i cur = true /\ (forall x, In x (d_inputs F i) -> getn loc x <> 0) /\ exists r, is' = d_replace F (getn loc) i :: r /\ seg_insns ml start stop is (cur + d_nout F i) (lmax + d_nout F i) (setloc loc cur lmax (d_nout F i)) = Some (r, loc'))
      \/ (sel i cur = false /\ seg_insns ml start stop is (cur + d_nout F i) lmax loc = Some (is', loc')).
    Proof.
      rewrite seg_cons. destruct (sel i cur); auto. intros H. left. split; auto. destruct (all_local loc (d_inputs F i)) eqn:Ea; [|discriminate]. cbn [guard obind] in H.
      split. { intros x Hx Hz. unfold all_local in Ea. rewrite forallb_forall in Ea. specialize (Ea x Hx). rewrite Hz in Ea. discriminate. }
      destruct (seg_insns _ _ _ _ _ _ _) as [[r lo]|] eqn:Er; [|discriminate]. cbn [obind fst snd] in H. inversion H; subst. eauto.
    Qed.
    (* where the local ids come from *)
    Lemma seg_loc (is : list (DInsn F)) : forall cur lmax loc is' loc', seg_insns ml start stop is cur lmax loc = Some (is', loc') -> cur + nouts DI is < length loc ->
      length loc' = length loc /\ (forall j, j <= cur -> getn loc' j = getn loc j) /\
      (forall j, getn loc' j = getn loc j \/ exists i c, In (i, c) (poss is cur) /\ sel i c = true /\ c < j <= c + d_nout F i) /\
      (forall j, getn loc' j <> 0 -> getn loc' j = getn loc j \/ getn loc' j <= lmax + nouts DI is') /\
      (forall i c j, In (i, c) (poss is cur) -> sel i c = true -> c < j <= c + d_nout F i -> getn loc' j <> 0).
    Proof.
      induction is as [|k is IH]; intros cur lmax loc is' loc' H Hlen.
      - cbn [seg_insns] in H. inversion H; subst. repeat split; auto.
      - cbn [nouts] in Hlen. change (@i_nout F DI k) with (d_nout F k) in Hlen. apply seg_inv in H. destruct H as [[Hs [_ [r [-> H]]]]|[Hs H]].
        + destruct (setloc_spec (d_nout F k) loc cur lmax) as [S1 S2]; [lia|]. apply IH in H; [|rewrite S1; lia]. destruct H as [H1 [H2 [H3 [H4 H5]]]]. split; [congruence|]. split.
          { intros j Hj. rewrite H2 by lia. rewrite S2, (proj2 (Nat.ltb_ge cur j)) by lia. auto. }
          split. { intros j. destruct (H3 j) as [Hj|[i [c [Hi Hr]]]]; [|right; exists i, c; split; [right|]; auto]. rewrite Hj, S2. destruct (Nat.ltb_spec cur j); cbn [andb]; auto. destruct (Nat.leb_spec j (cur + d_nout F k)); auto. right. exists k, cur. split; [left; auto|]. split; auto. }
          split. { intros j Hj. cbn [nouts]. replace (@i_nout F DI (d_replace F (getn loc) k)) with (d_nout F k) by (destruct k; auto). destruct (H4 j Hj) as [Hj2|Hj2]; [|right; lia]. rewrite Hj2, S2. destruct (Nat.ltb_spec cur j); cbn [andb]; auto. destruct (Nat.leb_spec j (cur + d_nout F k)); auto. right. lia. }
          intros i c j Hi Hsel Hj. cbn [poss] in Hi. destruct Hi as [Hi|Hi]; [|eapply H5; eauto]. inversion Hi; subst i c. rewrite H2 by lia. rewrite S2. rewrite (proj2 (Nat.ltb_lt _ _)), (proj2 (Nat.leb_le _ _)) by lia. cbn [andb]. lia.
        + apply IH in H; [|lia]. destruct H as [H1 [H2 [H3 [H4 H5]]]]. split; [congruence|]. split; [intros j Hj; apply H2; lia|]. split; [intros j; destruct (H3 j) as [Hj|[i [c [Hi Hr]]]]; [auto|right; exists i, c; split; [right|]; auto]|]. split; auto.
          intros i c j Hi Hsel Hj. cbn [poss] in Hi. destruct Hi as [Hi|Hi]; [inversion Hi; subst; congruence|eapply H5; eauto].
    Qed.
    Lemma seg_wf (is : list (DInsn F)) : forall cur lmax loc is' loc', seg_insns ml start stop is cur lmax loc = Some (is', loc') -> cur + nouts DI is < length loc -> (forall j, getn loc j <= lmax) -> wf_insns DI is' lmax /\ (forall j, getn loc' j <= lmax + nouts DI is').
    Proof.
      induction is as [|k is IH]; intros cur lmax loc is' loc' H Hlen Hr.
      - cbn [seg_insns] in H. inversion H; subst. split; [constructor|]. intros j. cbn [nouts]. rewrite Nat.add_0_r. auto.
      - cbn [nouts] in Hlen. change (@i_nout F DI k) with (d_nout F k) in Hlen. apply seg_inv in H. destruct H as [[Hs [Hloc [r [-> H]]]]|[Hs H]].
        + destruct (setloc_spec (d_nout F k) loc cur lmax) as [S1 S2]; [lia|]. apply IH in H; [|rewrite S1; lia|].
          * destruct H as [H1 H2]. cbn [wf_insns nouts]. replace (@i_nout F DI (d_replace F (getn loc) k)) with (d_nout F k) by (destruct k; auto). split; [split; auto|intros j; specialize (H2 j); lia].
            change (@i_inputs F DI (d_replace F (getn loc) k)) with (d_inputs F (d_replace F (getn loc) k)). pose proof (l_repl_inputs DI L (getn loc) k) as Hri. cbn [i_inputs i_replace DestI] in Hri. rewrite Hri. apply Forall_forall. intros x Hx. apply in_map_iff in Hx. destruct Hx as [y [<- Hy]]. specialize (Hloc y Hy). specialize (Hr y). lia.
          * intros j. rewrite S2. destruct ((cur <? j) && (j <=? cur + d_nout F k)) eqn:Ej; [|specialize (Hr j); lia]. apply andb_true_iff in Ej. rewrite Nat.ltb_lt, Nat.leb_le in Ej. lia.
        + apply IH in H; auto. lia.
    Qed.
    Lemma seg_calls (P : nat -> nat -> nat -> Prop) (is : list (DInsn F)) : forall cur lmax loc is' loc', seg_insns ml start stop is cur lmax loc = Some (is', loc') ->
      (forall id l n, In (DCall id l n) is -> P id (length l) n) -> forall id l n, In (DCall id l n) is' -> P id (length l) n.
    Proof.
      induction is as [|k is IH]; intros cur lmax loc is' loc' H HP id l n Hi.
      - cbn [seg_insns] in H. inversion H; subst. destruct Hi.
      - assert (HP' : forall id l n, In (DCall id l n) is -> P id (length l) n) by (intros; apply HP; right; auto). apply seg_inv in H. destruct H as [[Hs [Hloc [r [-> H]]]]|[Hs H]]; [|eapply IH; eauto].
        destruct Hi as [Hi|Hi]; [|eapply IH; eauto]. destruct k as [e|id' l' n'|k]; cbn [d_replace] in Hi; try discriminate. inversion Hi; subst. rewrite map_length. apply HP. left. auto.
    Qed.
    (* from the values of the circuit to a run of the segment *)
    Lemma seg_fwd (is : list (DInsn F)) : forall cur lmax loc is' loc' (lvals : list F) v, seg_insns ml start stop is cur lmax loc = Some (is', loc') -> cur + nouts DI is < length loc ->
      length lvals = S lmax -> (forall j, getn loc j <> 0 -> getn loc j <= lmax /\ getv lvals (getn loc j) = v j) -> (forall i c, In (i, c) (poss is cur) -> istep v i c) ->
      exists lvals', exec DI E cs is' lvals lvals' true /\ forall j, getn loc' j <> 0 -> getn loc' j < length lvals' /\ getv lvals' (getn loc' j) = v j.
    Proof.
      induction is as [|k is IH]; intros cur lmax loc is' loc' lvals v H Hlen Hl Hv Hs.
      - cbn [seg_insns] in H. inversion H; subst. exists lvals. split; [constructor|]. intros j Hj. destruct (Hv j Hj). split; [lia|auto].
      - cbn [nouts] in Hlen. change (@i_nout F DI k) with (d_nout F k) in Hlen. assert (Hs' : forall i c, In (i, c) (poss is (cur + d_nout F k)) -> istep v i c) by (intros; apply Hs; right; auto). apply seg_inv in H. destruct H as [[Hsel [Hloc [r [-> H]]]]|[Hsel H]].
        + destruct (setloc_spec (d_nout F k) loc cur lmax) as [S1 S2]; [lia|]. destruct (IH _ _ _ _ _ (lvals ++ map v (seq (S cur) (d_nout F k))) v H) as [lvals' [H1 H2]]; auto; [rewrite S1; lia|rewrite app_length, map_length, seq_length; lia| |].
          * intros j. rewrite S2. destruct ((cur <? j) && (j <=? cur + d_nout F k)) eqn:Ej.
            -- apply andb_true_iff in Ej. rewrite Nat.ltb_lt, Nat.leb_le in Ej. intros _. split; [lia|]. rewrite getv_app_r by lia. unfold getv. rewrite nth_seq_map by lia. f_equal. lia.
            -- intros Hj. destruct (Hv j Hj). split; [lia|]. rewrite getv_app_l by lia. auto.
          * exists lvals'. split; auto. apply exec_cons. exists (map v (seq (S cur) (d_nout F k))), true, true. split; [|auto].
            assert (Hk : istep v k cur) by (apply Hs; left; auto). assert (Hx : forall x, In x (d_inputs F k) -> getn loc x < length lvals /\ v x = getv lvals (getn loc x)) by (intros x Hx; destruct (Hv x (Hloc x Hx)); split; [lia|auto]).
            unfold step. destruct k as [e|id l n|k]; cbn [i_call DestI d_call i_inputs d_inputs i_sem d_nout istep d_replace d_sem] in *.
            -- split; [|split; auto]. { rewrite e_replace_vars. apply Forall_forall. intros y Hy. apply in_map_iff in Hy. destruct Hy as [x [<- Hxx]]. apply Hx; auto. }
               destruct Hk as [u [Hu He]]. exists u. cbn [seq map]. split; auto. apply expr_sem_replace. eapply expr_sem_ext; [|exact He]. intros x Hxx. apply Hx; auto.
            -- split. { apply Forall_forall. intros y Hy. apply in_map_iff in Hy. destruct Hy as [x [<- Hxx]]. apply Hx; auto. }
               rewrite map_map. replace (map (fun x => getv lvals (getn loc x)) l) with (map v l); auto. apply map_ext_in. intros x Hxx. apply Hx; auto.
            -- split; [constructor|]. split; auto.
        + apply (IH _ _ _ _ _ lvals v H); auto. lia.
    Qed.
    (* from a run of the segment to values of the circuit *)
    Lemma seg_bwd (is : list (DInsn F)) : forall cur lmax loc is' loc' (lvals lvals' : list F) b, seg_insns ml start stop is cur lmax loc = Some (is', loc') -> cur + nouts DI is < length loc ->
      exec DI E cs is' lvals lvals' b -> Forall (call_wf DI cs) is' -> wf_insns DI is cur -> length lvals = S lmax -> (forall j, getn loc j <= lmax) ->
      forall v, (forall j, getn loc' j <> 0 -> v j = getv lvals' (getn loc' j)) -> forall i c, In (i, c) (poss is cur) -> sel i c = true -> istep v i c /\ forall x, In x (d_inputs F i) -> getn loc' x <> 0.
    Proof.
      induction is as [|k is IH]; intros cur lmax loc is' loc' lvals lvals' b H Hlen Hx Hw W Hl Hr v Hv i c Hi Hsel; [destruct Hi|].
      pose proof (seg_loc _ _ _ _ _ _ H Hlen) as [_ [Hpre _]]. cbn [nouts] in Hlen. change (@i_nout F DI k) with (d_nout F k) in Hlen. destruct W as [W1 W2]. apply seg_inv in H. destruct H as [[Hs [Hloc [r [-> H]]]]|[Hs H]].
      - destruct (setloc_spec (d_nout F k) loc cur lmax) as [S1 S2]; [lia|]. inversion Hw as [|? ? Hw1 Hw2]; subst. apply exec_cons in Hx. destruct Hx as [outs [b1 [b2 [X1 [X2 _]]]]].
        pose proof (step_len DI L _ _ _ _ _ _ Hw1 X1) as Hlo. replace (@i_nout F DI (d_replace F (getn loc) k)) with (d_nout F k) in Hlo by (destruct k; auto).
        assert (Hl2 : length (lvals ++ outs) = S (lmax + d_nout F k)) by (rewrite app_length; lia). assert (Hr2 : forall j, getn (setloc loc cur lmax (d_nout F k)) j <= lmax + d_nout F k).
        { intros j. rewrite S2. destruct ((cur <? j) && (j <=? cur + d_nout F k)) eqn:Ej; [|specialize (Hr j); lia]. apply andb_true_iff in Ej. rewrite Nat.ltb_lt, Nat.leb_le in Ej. lia. }
        cbn [poss] in Hi. destruct Hi as [Hi|Hi]; [|eapply (IH _ _ _ _ _ (lvals ++ outs) lvals'); eauto; rewrite S1; lia].
        inversion Hi; subst i c. rewrite Forall_forall in W1. assert (Hl' : forall x, In x (d_inputs F k) -> getn loc' x = getn loc x) by (intros x Hxx; apply Hpre; apply (W1 x Hxx)). split; [|intros x Hxx; rewrite Hl'; auto].
        destruct (exec_prefix DI _ _ _ _ _ _ X2) as [ext Eext].
        assert (Hin : forall x, In x (d_inputs F k) -> v x = getv lvals (getn loc x)).
        { intros x Hxx. rewrite Hv by (rewrite Hl'; auto). rewrite Hl' by auto. rewrite Eext, <- app_assoc. apply getv_app_l. specialize (Hr x). lia. }
        assert (Ho : outs = map v (seq (S cur) (d_nout F k))).
        { apply outs_eq; auto. intros j Hj. assert (El : getn loc' (S cur + j) = lmax + S j).
          { pose proof (seg_loc _ _ _ _ _ _ H ltac:(rewrite S1; lia)) as [_ [Hp2 _]]. rewrite Hp2 by lia. rewrite S2, (proj2 (Nat.ltb_lt _ _)), (proj2 (Nat.leb_le _ _)) by lia. cbn [andb]. lia. }
          rewrite Hv by lia. rewrite El, Eext. rewrite getv_app_l by lia. rewrite getv_app_r by lia. unfold getv. f_equal. lia. }
        unfold step in X1. destruct k as [e|id l n|k]; cbn [i_call DestI d_call i_inputs d_inputs i_sem d_nout istep d_replace d_sem] in *.
        + destruct X1 as [_ [[u [Eu He]] _]]. rewrite Ho in Eu. exists u. split; auto. eapply expr_sem_ext; [|apply (proj1 (expr_sem_replace F E (getn loc) (getv lvals) e u)); exact He]. intros x Hxx. symmetry. auto.
        + destruct X1 as [_ X1]. pose proof (run_true _ _ _ _ X1) as ->. rewrite <- Ho. rewrite map_map in X1. replace (map v l) with (map (fun x => getv lvals (getn loc x)) l); auto. apply map_ext_in. intros x Hxx. symmetry. auto.
        + destruct X1 as [_ [X1 _]]. cbn [seq map] in Ho. rewrite <- Ho. auto.
      - cbn [poss] in Hi. destruct Hi as [Hi|Hi]; [inversion Hi; subst; congruence|]. eapply (IH _ _ _ _ _ lvals lvals'); eauto. lia.
    Qed.
  End Insns.
End Cut.
