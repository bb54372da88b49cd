(* C38, C41: zkcuda/shape.rs.  The specification ([flat], [inside], [transposed], [steps], [legal], [padded], [bitread]) is at the head of ShapeFacts.v. *)
From Verif Require Import Prelude Topo InputMapping Shapes ShapeFacts.
From Coq Require Import Permutation.
Open Scope nat_scope.

(* C38: a history of reshapes and transposes permutes a vector as the operations do one after the other, and knows the current shape *)
Theorem C38_history_permutation {T} s (v : list T) ops s' w : length v = prod s -> 0 < prod s -> steps (s, v) ops (s', w) ->
  exists h, history s ops = Some h /\ h_shape h = Some s' /\ permute_vec h v = Some w.
Proof. apply history_spec. Qed.
(* the specification is total and single-valued on legal operations *)
Theorem C38_operations_well_defined {T} s (v : list T) ops : length v = prod s -> 0 < prod s -> legal s ops -> exists t, steps (s, v) ops t /\ forall t', steps (s, v) ops t' -> t' = t.
Proof.
  intros Hl H0 H. destruct (steps_total ops s v Hl H0 H) as [t Ht]. exists t. split; auto. intros t' Ht'. symmetry. eapply steps_unique; eauto.
Qed.
(* a reshape to another number of elements, and a transpose with another number of axes, panic *)
Theorem C38_illegal_operations_rejected h s : prod s <> h_len h -> h_reshape h s = None.
Proof. apply reshape_checked. Qed.
Lemma history_axes ops : forall h h', (forall pre e a, h_entries h = pre ++ [e] -> e_axes e = Some a -> length a = length (e_shape e)) ->
  ofold h_op ops h = Some h' -> forall pre e a, h_entries h' = pre ++ [e] -> e_axes e = Some a -> length a = length (e_shape e).
Proof.
  induction ops as [|o ops IH]; intros h h' Hi H; cbn [ofold] in H; [injection H as <-; auto|]. apply obind_some in H. destruct H as [h1 [H1 H]]. apply (IH h1 h'); auto.
  intros pre e a He Ha. destruct o as [s|axes]; cbn [h_op] in H1.
  - unfold h_reshape in H1. apply obind_some in H1. destruct H1 as [_ [_ H1]]. apply obind_some in H1. destruct H1 as [p [_ H1]]. injection H1 as <-. cbn [h_entries] in He.
    destruct (e_axes (snd p)); apply app_inj_tail in He; destruct He as [_ <-]; discriminate.
  - unfold h_transpose in H1. apply obind_some in H1. destruct H1 as [[pre' e'] [Hs H1]]. cbn [fst snd] in H1. apply obind_some in H1. destruct H1 as [[] [Hg H1]].
    apply obind_some in H1. destruct H1 as [new [Hn H1]]. injection H1 as <-. cbn [h_entries] in He. apply app_inj_tail in He. destruct He as [_ <-]. cbn in *. injection Ha as <-.
    unfold guard in Hg. destruct (length axes =? length (e_shape e')) eqn:E; [|discriminate]. apply Nat.eqb_eq in E. rewrite <- E. destruct (e_axes e'); [apply (omap_length _ _ _ Hn)|congruence].
Qed.
Theorem C38_illegal_axes_rejected s0 ops h axes s : history s0 ops = Some h -> h_shape h = Some s -> length axes <> length s -> h_transpose h axes = None.
Proof.
  intros Hh Hs Hl. unfold h_transpose, h_shape in *. destruct (split_last (h_entries h)) as [[pre e]|] eqn:E; [|auto]. cbn [obind fst snd] in *.
  destruct (length axes =? length (e_shape e)) eqn:El; [|auto]. exfalso. apply Nat.eqb_eq in El. apply Hl. rewrite El.
  assert (He : h_entries h = pre ++ [e]).
  { unfold split_last in E. destruct (rev (h_entries h)) as [|x r] eqn:Er; [discriminate|]. injection E as <- <-. rewrite <- (rev_involutive (h_entries h)), Er. auto. }
  unfold transposed_shape in Hs. destruct (e_axes e) as [a|] eqn:Ea; [|congruence]. rewrite (omap_length _ _ _ Hs). symmetry. eapply (history_axes ops (h_new s0) h); eauto.
  intros pre' e' a' Hx Hy. cbn in Hx. apply (app_inj_tail [] pre') in Hx. destruct Hx as [_ <-]. discriminate.
Qed.
(* padding: every coordinate is read from the nearest one inside *)
Theorem C38_padding {T} s (v : list T) : Forall (lt 0) s -> length v = prod s -> exists w, padding s v = Some w /\ padded s v w.
Proof. intros. apply padding_spec; auto. Qed.
Theorem C38_padding_single_valued {T} s (v w w' : list T) : padded s v w -> padded s v w' -> w = w'.
Proof. apply padded_unique. Qed.
(* the mapping sends every element to its place in the padded vector, and applying it puts it there *)
Theorem C38_padded_mapping s : Forall (lt 0) s -> let m := shape_padded_mapping s in
  next_size m = prod (map next_power_of_two s) /\ length (mapping m) = prod s /\
  forall i, inside s i -> nth_error (mapping m) (flat s i) = Some (flat (map next_power_of_two s) i).
Proof. apply mapping_spec. Qed.
Theorem C38_mapping_agrees_with_padding {T} s (v w : list T) : Forall (lt 0) s -> length v = prod s -> padding s v = Some w ->
  forall k p, nth_error (mapping (shape_padded_mapping s)) k = Some p -> nth_error w p = nth_error v k.
Proof.
  intros Hp Hl Hw k p Hk. destruct (mapping_spec s Hp) as [_ [M2 M3]]. destruct (padding_spec s v Hp Hl) as [w' [E [_ Hpd]]]. rewrite Hw in E. injection E as <-.
  pose proof (nth_error_Some_lt _ _ _ Hk) as Hlt. rewrite M2 in Hlt. destruct (flat_onto s k Hlt) as [i [Hi <-]]. rewrite M3 in Hk by auto. injection Hk as <-.
  assert (Hii : inside (map next_power_of_two s) i).
  { clear -Hi. induction Hi as [|x d i s Hx Hi IH]; cbn [map]; constructor; auto. pose proof (npo2_ge d). lia. }
  rewrite Hpd by auto. f_equal. f_equal. clear -Hi. induction Hi as [|x d i s Hx Hi IH]; cbn [clamp combine map fst snd]; auto. f_equal; [lia|exact IH].
Qed.
(* an empty tensor cannot be transposed: the table of indices has an entry although there are no elements (shape.rs:406-409) *)
Theorem C38_empty_refuted : exists s axes, Permutation axes (seq 0 (length s)) /\ transposed s axes (@nil nat) [] /\
  exists h, history s [Transpose axes] = Some h /\ permute_vec h (@nil nat) = None.
Proof.
  exists [0; 2], [1; 0]. split; [apply perm_swap|]. split.
  - split; auto. intros i Hi. rewrite !(proj2 (nth_error_None _ _)); auto; cbn; lia.
  - eexists. split; [reflexivity|]. reflexivity.
Qed.
Example C38_instance : let h := history [2; 3; 2] [Transpose [2; 0; 1]; Reshape [2; 3; 2]; Transpose [2; 0; 1]] in
  (let* h := h in permute_vec h (seq 1 12)) = Some [1; 5; 9; 2; 6; 10; 3; 7; 11; 4; 8; 12] /\
  legal [2; 3; 2] [Transpose [2; 0; 1]; Reshape [2; 3; 2]; Transpose [2; 0; 1]] /\ 0 < prod [2; 3; 2] /\ length (seq 1 12) = prod [2; 3; 2].
Proof.
  split; [reflexivity|]. split; [|split; cbn; lia]. assert (P : Permutation [2; 0; 1] [0; 1; 2]) by (apply (Permutation_cons_app [0; 1] [] 2); auto).
  cbn. split; auto.
Qed.
Example C38_padding_instance : padding [3; 2; 3] (seq 1 18) = Some [1;2;3;3;4;5;6;6;7;8;9;9;10;11;12;12;13;14;15;15;16;17;18;18;13;14;15;15;16;17;18;18].
Proof. reflexivity. Qed.

(* C41: moving data to its final order in the padded vector is a permutation of address bits *)
Theorem C41_bit_order {T} s0 ops h (v : list T) s w sp sp' order : steps (s0, v) ops (s, w) -> length v = prod s0 -> 0 < prod s0 -> history s0 ops = Some h ->
  prod sp = prod s0 -> bit_order h sp = Some (sp', order) ->
  exists P Q, padding sp v = Some P /\ padding sp' w = Some Q /\ length Q = length P /\ length P = 2 ^ length order /\
    forall n, n < length P -> nth_error Q n = nth_error P (bitread order n).
Proof. apply bit_order_spec. Qed.
Example C41_instance : (let* h := history [125; 125] [Transpose [1; 0]] in bit_order h [5; 5; 5; 25; 5]) = Some ([25; 5; 5; 5; 5], [8; 9; 10; 11; 12; 13; 14; 15; 16; 0; 1; 2; 3; 4; 5; 6; 7]).
Proof. reflexivity. Qed.
Print Assumptions C38_history_permutation. Print Assumptions C38_padding. Print Assumptions C38_mapping_agrees_with_padding. Print Assumptions C41_bit_order.
