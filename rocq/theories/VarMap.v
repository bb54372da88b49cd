(* Variable renamings: a pass that translates a circuit keeps a vector vm with the new variable of every old variable. *)
From Verif Require Import Prelude Field Expr Topo Ir IrFacts Sim RemoveUnreachable ReassignDup.

Section VarMap.
  Context {F : Fld}.
  Notation getv := (getv (F := F)).

  (* vm sends the variables of [vals] to variables of [vals'] with the same values *)
  Definition rel (vm : list nat) (vals vals' : list F) : Prop :=
    length vm = length vals /\ forall x, x < length vals -> vmap vm x < length vals' /\ getv vals' (vmap vm x) = getv vals x.
  (* vm sends exactly variable 0 to 0, stays within [n] *)
  Definition vpos (vm : list nat) (n : nat) : Prop := vmap vm 0 = 0 /\ forall x, 0 < x < length vm -> 0 < vmap vm x <= n.

  Lemma rel_len vm vals vals' : rel vm vals vals' -> length vm = length vals. Proof. intros [H _]; auto. Qed.
  Lemma rel_get vm vals vals' x : rel vm vals vals' -> x < length vals -> getv vals' (vmap vm x) = getv vals x.
  Proof. intros [_ H] Hx. apply H; auto. Qed.
  Lemma rel_inb vm vals vals' x : rel vm vals vals' -> x < length vals -> inb vals' (vmap vm x).
  Proof. intros [_ H] Hx. apply H; auto. Qed.
  Lemma rel_more vm vals vals' o : rel vm vals vals' -> rel vm vals (vals' ++ o).
  Proof. intros [H1 H2]. split; auto. intros x Hx. destruct (H2 x Hx) as [H3 H4]. rewrite app_length. split; [lia|]. rewrite getv_app_l; auto. Qed.
  Lemma rel_app vm vals vals' e outs : rel vm vals vals' -> length e = length outs ->
    (forall j, j < length outs -> nth j e 0 < length vals' /\ getv vals' (nth j e 0) = nth j outs f0) ->
    rel (vm ++ e) (vals ++ outs) vals'.
  Proof.
    intros [H1 H2] He Hj. split; [rewrite !app_length; lia|]. intros x Hx. rewrite app_length in Hx.
    destruct (Nat.lt_ge_cases x (length vals)) as [Hlt|Hge].
    - rewrite vmap_app_l by lia. rewrite getv_app_l by lia. apply H2; auto.
    - rewrite vmap_app_r by lia. rewrite getv_app_r by lia. unfold Ir.getv at 2. rewrite H1. apply Hj. lia.
  Qed.
  (* new results appended on both sides *)
  Lemma rel_seq vm vals vals' outs n : rel vm vals vals' -> length vals' = S n -> rel (vm ++ seq (S n) (length outs)) (vals ++ outs) (vals' ++ outs).
  Proof.
    intros H Hn. apply rel_app; [apply rel_more; auto|apply seq_length|]. intros j Hj. rewrite seq_nth by auto. rewrite app_length.
    split; [lia|]. rewrite getv_app_r by lia. unfold Ir.getv. f_equal. lia.
  Qed.
  Lemma rel_map vm vals vals' l : rel vm vals vals' -> Forall (fun x => x < length vals) l -> map (getv vals') (map (vmap vm) l) = map (getv vals) l.
  Proof. intros H Hl. rewrite map_map. apply map_ext_in. intros x Hx. rewrite Forall_forall in Hl. apply rel_get; auto. Qed.
  Lemma rel_inb_l vm vals vals' l : rel vm vals vals' -> Forall (fun x => x < length vals) l -> Forall (inb vals') (map (vmap vm) l).
  Proof. intros H Hl. apply Forall_forall. intros y Hy. apply in_map_iff in Hy. destruct Hy as [x [<- Hx]]. rewrite Forall_forall in Hl. eapply rel_inb; eauto. Qed.
  Lemma rel_id (vals : list F) : rel (seq 0 (length vals)) vals vals.
  Proof. split; [apply seq_length|]. intros x Hx. unfold vmap. rewrite seq_nth by auto. auto. Qed.
  Lemma rel_id' n (vals : list F) : length vals = n -> rel (seq 0 n) vals vals. Proof. intros <-. apply rel_id. Qed.

  Lemma vpos_app vm n e m : vpos vm n -> n <= m -> 0 < length vm -> Forall (fun y => 0 < y <= m) e -> vpos (vm ++ e) m.
  Proof.
    intros [H0 H] Hnm Hl He. split; [rewrite vmap_app_l; auto|]. intros x Hx. rewrite app_length in Hx. destruct (Nat.lt_ge_cases x (length vm)).
    - rewrite vmap_app_l by auto. specialize (H x ltac:(lia)). lia.
    - rewrite vmap_app_r by auto. rewrite Forall_forall in He. apply He. apply nth_In. lia.
  Qed.
End VarMap.
Section VarMap2.
  Lemma vpos_id n : vpos (seq 0 (S n)) n.
  Proof. split; [reflexivity|]. intros x Hx. rewrite seq_length in Hx. unfold vmap. rewrite seq_nth; lia. Qed.
  Lemma Forall_seq (P : nat -> Prop) a n : (forall y, a <= y < a + n -> P y) -> Forall P (seq a n).
  Proof. intros H. apply Forall_forall. intros y Hy. apply in_seq in Hy. apply H. lia. Qed.
  Lemma vpos_map vm n l : vpos vm n -> Forall (fun x => 0 < x < length vm) l -> Forall (fun y => 0 < y <= n) (map (vmap vm) l).
  Proof. intros [_ H] Hl. apply Forall_forall. intros y Hy. apply in_map_iff in Hy. destruct Hy as [x [<- Hx]]. rewrite Forall_forall in Hl. auto. Qed.
End VarMap2.
