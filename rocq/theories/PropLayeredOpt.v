(* Property theorems C21: the optimisations of layered circuits (circuit/layered/opt.rs, compile/mod.rs:258-286). *)
From Verif Require Import InputMapping IrInst Layering LayFit.
From Verif Require Import Prelude Field Zp Expr Topo Ir UnionFind Sorting Layered LayeredFacts LayeredOpt LayeredOptFacts LayeredOptSim LayeredExpand LayeredExpandAll LayeredCommon SolveDuplicates PropIr PropLayered.

(* c and c' cannot be told apart: the same inputs are accepted, and for every input, every choice of random values, of public
   inputs and of custom gates, the same outputs and the same answer to "are the outputs that must vanish zero" can be had. *)
Definition same_layered {F} (c c' : LCircuit F) : Prop :=
  input_size c' = input_size c /\ l_pub c' = l_pub c /\ l_actual c' = l_actual c /\ l_zeroes c' = l_zeroes c /\ last_size c' = last_size c /\
  forall (E : Env F) ins outs sat, lrun E c ins outs sat <-> lrun E c' ins outs sat.
(* no child of a segment is listed with no place at all *)
Definition children_placed {F} (c : LCircuit F) : Prop := forall s ch, In s (l_segs c) -> In ch (s_children s) -> snd ch <> [].
(* fully expanded, no segment has twice the very same gate (same inputs, same output wire, same coefficient) with a random or
   public input coefficient; gates with constant coefficients may repeat *)
Definition varying_gates_distinct {F} (c : LCircuit F) : Prop := forall id, (id < length (l_segs c))%nat ->
  NoDup (filter (fun g => match g_coef g with CConst _ => false | _ => true end) (flat (length (l_segs c)) (l_segs c) id)).
(* no segment has two gates with constant coefficients that have the same inputs and the same output *)
Definition constant_gates_merged {F} (c : LCircuit F) : Prop := forall s g h l1 l2 l3, In s (l_segs c) -> seg_gates s = l1 ++ g :: l2 ++ h :: l3 ->
  g_in g = g_in h -> g_out g = g_out h -> match g_coef g, g_coef h with CConst _, CConst _ => False | _, _ => True end.

Section Loop.
  Context {F : Fld} {MD : Mode}.
  Lemma loop_ok (c c1 : LCircuit F) : Step3Loop c c1 -> good c -> cdist c -> good c1 /\ cdist c1 /\ lequiv c c1.
  Proof.
    induction 1 as [c|c c1 c2 c3 edges E1 He E2 H IH]; intros Hg Hd.
    - split; auto. split; auto. destruct (local_pass_ok (fun s => s) c) as [A _]; [|apply Hg|].
      + intros s. split; auto. split; auto. split; [apply Permutation_refl|]. intros _. apply fe_refl.
      + rewrite map_id in A. destruct c. exact A.
    - destruct (expand_small_spec c Hg) as [c1' [A1 [A2 [A3 A4]]]]. assert (c1' = c1) by congruence. subst c1'. specialize (A4 Hd).
      assert (X : good c2 /\ cdist c2 /\ lequiv c1 c2).
      { destruct (length (l_segs c1) <=? 100).
        - destruct (find_common_spec c1 edges A2 A4 He) as [c2' [B1 [B2 [B3 B4]]]]. assert (c2' = c2) by congruence. subst. auto.
        - injection E2 as <-. split; auto. split; auto. destruct (local_pass_ok (fun s => s) c1) as [A _]; [|apply A2|].
          + intros s. split; auto. split; auto. split; [apply Permutation_refl|]. intros _. apply fe_refl.
          + rewrite map_id in A. destruct c1. exact A. }
      destruct X as [X1 [X2 X3]]. destruct (IH X1 X2) as [Y1 [Y2 Y3]]. split; auto. split; auto. eapply lequiv_trans; [exact A3|]. eapply lequiv_trans; eauto.
  Qed.
End Loop.
#[local] Instance any_coins : Mode := false.
Section P.
  Context {F : Fld}.
  Notation LCircuit := (LCircuit F).
  Lemma nconst_match (g : UG F) : nconst g = match g_coef g with CConst _ => false | _ => true end.
  Proof. unfold nconst. destruct (g_coef g); auto. Qed.
  Lemma good_iff (c : LCircuit) : good c <-> l_validate c = true /\ children_placed c /\ varying_gates_distinct c.
  Proof.
    unfold good, nonempty, children_placed, nodupf, varying_gates_distinct, fl. split; intros [H1 [H2 H3]]; (split; [auto|split; [auto|]]); intros id Hid; specialize (H3 id Hid).
    - erewrite filter_ext; [exact H3|]. intros g. symmetry. apply nconst_match.
    - erewrite filter_ext; [exact H3|]. intros g. apply nconst_match.
  Qed.
  Lemma nodup_keys (gs : list (UG F)) : (forall g h l1 l2 l3, gs = l1 ++ g :: l2 ++ h :: l3 -> g_in g = g_in h -> g_out g = g_out h -> match g_coef g, g_coef h with CConst _, CConst _ => False | _, _ => True end) -> cdistinct gs.
  Proof.
    unfold cdistinct. induction gs as [|g gs IH]; intros H; [constructor|]. cbn [filter]. destruct (cst g) eqn:Ec.
    - cbn [map]. constructor.
      + intros Hin. apply in_map_iff in Hin. destruct Hin as [h [Hk Hh]]. apply filter_In in Hh. destruct Hh as [Hh Hc]. apply in_split in Hh. destruct Hh as [l2 [l3 ->]].
        specialize (H g h [] l2 l3 eq_refl). destruct g as [ki oi ci], h as [kj oj cj]. cbn [g_in g_out g_coef] in *. unfold cst in *. cbn [g_coef] in *. destruct ci, cj; try discriminate. unfold ug_key in Hk. cbn [g_in g_out g_coef] in Hk. apply kind_key_inj in Hk. destruct Hk as [A B]. injection B as B. apply H; auto.
      + apply IH. intros g' h l1 l2 l3 E. apply (H g' h (g :: l1) l2 l3). rewrite E. auto.
    - apply IH. intros g' h l1 l2 l3 E. apply (H g' h (g :: l1) l2 l3). rewrite E. auto.
  Qed.
  Lemma cdist_of (c : LCircuit) : constant_gates_merged c -> cdist c.
  Proof. intros H s Hs. apply nodup_keys. intros g h l1 l2 l3. apply (H s); auto. Qed.
  Lemma same_of (c c' : LCircuit) : l_validate c = true -> lequiv c c' -> same_layered c c'.
  Proof. intros Hv H. assert (H0 := H). destruct H0 as [A [B [C _]]]. split; [apply lequiv_input; auto|]. split; auto. split; auto. split; auto. split; [apply lequiv_last; auto; intros X; unfold l_validate in Hv; rewrite X, andb_false_r in Hv; discriminate|]. intros E ins outs sat. apply lequiv_run; auto. intros X. discriminate X. Qed.
End P.

(* ======================= C21 ======================= *)
Theorem C21_dedup_gates_preserves : forall F (c : LCircuit F), l_validate c = true ->
  same_layered c (l_dedup c) /\ l_validate (l_dedup c) = true /\ constant_gates_merged (l_dedup c).
Proof.
  intros F c Hv. destruct (local_pass_ok seg_dedup c dedup_local Hv) as [A [B _]]. split; [apply same_of; [auto|exact A]|]. split; [exact B|].
  intros s g h l1 l2 l3 Hs E K O. cbn in Hs. apply in_map_iff in Hs. destruct Hs as [s0 [<- _]]. assert (D := seg_dedup_distinct s0). unfold cdistinct in D. rewrite E in D.
  destruct (g_coef g) as [x| |] eqn:E1; auto. destruct (g_coef h) as [y| |] eqn:E2; auto.
  assert (C1 : cst g = true) by (unfold cst; rewrite E1; auto). assert (C2 : cst h = true) by (unfold cst; rewrite E2; auto).
  rewrite filter_app in D. cbn [filter] in D. rewrite C1 in D. rewrite filter_app in D. cbn [filter] in D. rewrite C2 in D. rewrite map_app in D. cbn [map] in D. rewrite map_app in D. cbn [map] in D. apply NoDup_remove_2 in D. apply D.
  apply in_or_app. right. apply in_or_app. right. left. unfold ug_key. rewrite K, O, E1, E2. auto.
Qed.
Print Assumptions C21_dedup_gates_preserves.

Theorem C21_expand_small_segments_preserves : forall F (c : LCircuit F), l_validate c = true -> children_placed c -> varying_gates_distinct c ->
  exists c', expand_small_segments c = Some c' /\ same_layered c c' /\ l_validate c' = true /\ children_placed c' /\ varying_gates_distinct c'.
Proof.
  intros F c H1 H2 H3. destruct (expand_small_spec c) as [c' [A [B [C _]]]]; [apply good_iff; auto|]. exists c'. split; auto. split; [apply same_of; auto|]. apply good_iff; auto.
Qed.
Print Assumptions C21_expand_small_segments_preserves.

Theorem C21_find_common_parts_preserves : forall F (c : LCircuit F) edges, l_validate c = true -> children_placed c -> varying_gates_distinct c -> constant_gates_merged c ->
  (* whatever pairs of segments the random sampling of gates suggests to merge *)
  Forall (fun e => fst e < length (l_segs c) /\ snd e < length (l_segs c))%nat edges ->
  exists c', find_common_parts edges c = Some c' /\ same_layered c c' /\ l_validate c' = true /\ children_placed c' /\ varying_gates_distinct c'.
Proof.
  intros F c edges H1 H2 H3 H4 H5. destruct (find_common_spec c edges) as [c' [A [B [C _]]]]; auto; [apply good_iff; auto|apply cdist_of; auto|]. exists c'. split; auto. split; [apply same_of; auto|]. apply good_iff; auto.
Qed.
Print Assumptions C21_find_common_parts_preserves.

(* All the optimisations as the compiler runs them, at every level. *)
Theorem C21_all_layered_optimisations_preserve : forall F lvl (c c' : LCircuit F), l_validate c = true -> children_placed c -> varying_gates_distinct c ->
  Step3 lvl c c' -> same_layered c c' /\ l_validate c' = true.
Proof.
  intros F lvl c c' H1 H2 H3 [_ [c1 [L [V ->]]]]. assert (G : good c) by (apply good_iff; auto).
  destruct (local_pass_ok seg_dedup c dedup_local H1) as [D1 [D2 _]]. assert (D3 := local_pass_good seg_dedup c dedup_local G).
  destruct (local_pass_ok seg_sort c1 sort_local V) as [S1 [S2 _]]. split; auto. apply same_of; auto. eapply lequiv_trans; [|exact S1].
  destruct (3 <=? lvl).
  - eapply lequiv_trans; [exact D1|]. apply (loop_ok _ _ L D3). intros s Hs. cbn in Hs. apply in_map_iff in Hs. destruct Hs as [s0 [<- _]]. apply seg_dedup_distinct.
  - subst c1. destruct (1 <=? lvl); [exact D1|]. destruct (local_pass_ok (fun s => s) c) as [A _]; auto.
    + intros s. split; auto. split; auto. split; [apply Permutation_refl|]. intros _. apply fe_refl.
    + rewrite map_id in A. destruct c. exact A.
Qed.
Print Assumptions C21_all_layered_optimisations_preserve.
(* The circuits the compiler builds may hold the same gate with a random coefficient twice (a constraint listed twice), and find_common_parts
   then keeps one of them.  When a random coefficient may be any element of the field this changes nothing: the sum of two is any element. *)
Definition same_when_drawn {F} (c c' : LCircuit F) : Prop :=
  input_size c' = input_size c /\ l_pub c' = l_pub c /\ l_actual c' = l_actual c /\ l_zeroes c' = l_zeroes c /\ last_size c' = last_size c /\
  forall (E : Env F) ins outs sat, (forall r, e_rnd E r) -> lrun E c ins outs sat <-> lrun E c' ins outs sat.
(* fully expanded, no segment has twice the very same gate with a public input as coefficient *)
Definition public_gates_distinct {F} (c : LCircuit F) : Prop := forall id, (id < length (l_segs c))%nat ->
  NoDup (filter (fun g => match g_coef g with CPub _ => true | _ => false end) (flat (length (l_segs c)) (l_segs c) id)).
Lemma varying_public {F} (c : LCircuit F) : varying_gates_distinct c -> public_gates_distinct c.
Proof.
  intros H id Hid. specialize (H id Hid). apply (NoDup_filter (fun g => match g_coef g with CPub _ => true | _ => false end)) in H. rewrite filter_comm in H.
  match type of H with NoDup ?x => match goal with |- NoDup ?y => replace y with x; [exact H|apply filter_ext; intros g; destruct (g_coef g); auto] end end.
Qed.
Section Drawn.
  Context {F : Fld}.
  Definition all_coins : Mode := true.
  Lemma good_drawn (c : LCircuit F) : good (MD := all_coins) c <-> l_validate c = true /\ children_placed c /\ public_gates_distinct c.
  Proof.
    unfold good, nonempty, children_placed, nodupf, public_gates_distinct, fl. split; intros [H1 [H2 H3]]; (split; [auto|split; [auto|]]); intros id Hid; specialize (H3 id Hid).
    - erewrite filter_ext; [exact H3|]. intros g. unfold nconst. destruct (g_coef g); auto.
    - erewrite filter_ext; [exact H3|]. intros g. unfold nconst. destruct (g_coef g); auto.
  Qed.
  Lemma drawn_of (c c' : LCircuit F) : l_validate c = true -> lequiv (MD := all_coins) c c' -> same_when_drawn c c'.
  Proof. intros Hv H. assert (H0 := H). destruct H0 as [A [B [C _]]]. split; [apply (lequiv_input (MD := all_coins)); auto|]. split; auto. split; auto. split; auto. split; [apply (lequiv_last (MD := all_coins)); auto; intros X; unfold l_validate in Hv; rewrite X, andb_false_r in Hv; discriminate|]. intros E ins outs sat Hr. apply (lequiv_run (MD := all_coins)); auto. intros _. exact Hr. Qed.
End Drawn.
Theorem C21_all_layered_optimisations_preserve_drawn : forall F lvl (c c' : LCircuit F), l_validate c = true -> children_placed c -> public_gates_distinct c ->
  Step3 lvl c c' -> same_when_drawn c c' /\ l_validate c' = true.
Proof.
  intros F lvl c c' H1 H2 H3 [_ [c1 [L [V ->]]]]. assert (G : good (MD := all_coins) c) by (apply good_drawn; auto).
  destruct (local_pass_ok (MD := all_coins) seg_dedup c dedup_local H1) as [D1 [D2 _]]. assert (D3 := local_pass_good (MD := all_coins) seg_dedup c dedup_local G).
  destruct (local_pass_ok (MD := all_coins) seg_sort c1 sort_local V) as [S1 [S2 _]]. split; auto. apply drawn_of; auto. eapply lequiv_trans; [|exact S1].
  destruct (3 <=? lvl).
  - eapply lequiv_trans; [exact D1|]. apply (loop_ok _ _ L D3). intros s Hs. cbn in Hs. apply in_map_iff in Hs. destruct Hs as [s0 [<- _]]. apply seg_dedup_distinct.
  - subst c1. destruct (1 <=? lvl); [exact D1|]. destruct (local_pass_ok (MD := all_coins) (fun s => s) c) as [A _]; auto.
    + intros s. split; auto. split; auto. split; [apply Permutation_refl|]. intros _. apply fe_refl.
    + rewrite map_id in A. destruct c. exact A.
Qed.
Print Assumptions C21_all_layered_optimisations_preserve_drawn.
(* Every circuit the layering pass builds qualifies, so at every level the optimised circuit is the same when all coins are possible. *)
Theorem C21_layered_circuits_qualify : forall F cross EMPTY reorder (rc : RootCircuit (DestI F true)) (lc : LCircuit F) im, NoDup (keys (circuits rc)) -> validate _ rc = true ->
  layer_compile cross EMPTY reorder rc = Some (lc, im) -> children_placed lc /\ public_gates_distinct lc.
Proof. intros F cross EMPTY reorder rc lc im Hk Hv H. exact (layer_fit cross EMPTY reorder rc lc im Hk Hv H). Qed.
Print Assumptions C21_layered_circuits_qualify.
(* The loop never gets stuck: whatever was done so far, both steps of another round succeed, and so does the validation after the loop. *)
Theorem C21_loop_never_fails : forall F (c c1 : LCircuit F), l_validate c = true -> children_placed c -> public_gates_distinct c ->
  Step3Loop (l_dedup c) c1 -> l_validate c1 = true /\ exists c2, expand_small_segments c1 = Some c2 /\
    forall edges, Forall (fun e => fst e < length (l_segs c2) /\ snd e < length (l_segs c2))%nat edges -> exists c3, find_common_parts edges c2 = Some c3.
Proof.
  intros F c c1 H1 H2 H3 L. assert (G : good (MD := all_coins) c) by (apply good_drawn; auto). assert (D3 := local_pass_good (MD := all_coins) seg_dedup c dedup_local G).
  destruct (loop_ok (MD := all_coins) _ _ L D3) as [A [B _]]; [intros s Hs; cbn in Hs; apply in_map_iff in Hs; destruct Hs as [s0 [<- _]]; apply seg_dedup_distinct|]. split; [apply A|].
  destruct (expand_small_spec (MD := all_coins) c1 A) as [c2 [X1 [X2 [_ X3]]]]. exists c2. split; auto. intros edges He. destruct (find_common_spec (MD := all_coins) c2 edges X2 (X3 B) He) as [c3 [Y _]]. eauto.
Qed.
Print Assumptions C21_loop_never_fails.
(* Without random coefficients, the evaluator itself gives the same answer before and after. *)
Theorem C21_same_evaluation : forall F (c c' : LCircuit F) pub gate rnd ins, same_layered c c' -> l_validate c = true -> l_validate c' = true ->
  (l_zeroes c <= l_actual c <= last_size c)%nat -> (forall i, pub_used c i \/ pub_used c' i -> pub i <> None) ->
  (forall s g, In s (l_segs c) -> In g (seg_gates s) -> g_coef g <> CRandom) ->
  input_size c = Some (length ins) -> eval_scalar pub gate rnd c ins = eval_scalar pub gate rnd c' ins.
Proof.
  intros F c c' pub gate rnd ins [S1 [S2 [S3 [S4 [Hl S5]]]]] V V' Hz Hp Hr Hi.
  destruct (C20_validated_layered_in_bounds F c pub gate rnd ins V Hz) as [[o [s [A1 [_ A2]]]] _]; auto.
  destruct (C20_validated_layered_in_bounds F c' pub gate rnd ins V') as [[o' [s' [B1 [_ B2]]]] _]; auto; [lia|congruence|]. rewrite A1, B1. apply S5 in B2.
  destruct (lrun_det (lenv pub gate rnd) c ins o s o' s') as [-> ->]; auto. intros f id g Hg. right. revert Hg. apply (flat_coefs (fun k => k <> CRandom)). intros i sg g' Hs. apply Hr. eapply nth_error_In; eauto.
Qed.
Print Assumptions C21_same_evaluation.

(* An instance: the circuit of C20 is small; here segments 0 and 1 share ten gates, segment 2 is small enough to be expanded. *)
Definition c21_gates (n : nat) : list (Gate F7 Inp) := map (fun i => gt7 (w0 i) 0 (Z.of_nat (i mod 6) + 1)) (seq 0 n).
Definition c21_seg (n : nat) (chs : list (nat * list Alloc)) (x : Z) : Segment F7 :=
  {| s_ins := [16]; s_outs := 16; s_children := chs; s_muls := [gt7 (w0 0, w0 1) 0 x; gt7 (w0 0, w0 1) 0 3]; s_adds := c21_gates n; s_consts := map (fun o => {| g_in := tt; g_out := o; g_coef := CPub 0 |}) (seq 0 16); s_customs := [] |}.
Definition c21_c : LCircuit F7 := {| l_pub := 1; l_actual := 2; l_zeroes := 1;
  l_segs := [c20_seg0; c21_seg 12 [(0%nat, [{| a_in := [2]; a_out := 3 |}])] 2; c21_seg 13 [(0%nat, [{| a_in := [4]; a_out := 1 |}])] 5]; l_layers := [1; 2] |}.
Example C21_instance : l_validate c21_c = true /\ children_placed c21_c /\ varying_gates_distinct c21_c /\
  exists c1 c2, expand_small_segments (l_dedup c21_c) = Some c1 /\ find_common_parts [(0, 1)] c1 = Some c2 /\ Step3 3 c21_c (sort_everything c2) /\
    (length (l_segs c1), length (l_segs c2)) = (2, 3)%nat.
Proof.
  assert (P : children_placed c21_c). { intros s ch Hs Hc. cbn in Hs. destruct Hs as [<-|[<-|[<-|[]]]]; cbn in Hc; try contradiction; destruct Hc as [<-|[]]; discriminate. }
  assert (Q : varying_gates_distinct c21_c).
  { intros id Hid. change (length (l_segs c21_c)) with 3%nat in *.
    assert (K : forall l : list (UG F7), NoDup (map (fun g => g_out g) l) -> NoDup l) by (intros l; apply NoDup_map_inv).
    apply K. apply nodupb_iff. destruct id as [|[|[|id]]]; [| | |lia]; vm_compute; reflexivity. }
  assert (V : l_validate c21_c = true) by (vm_compute; reflexivity). split; auto. split; auto. split; auto.
  destruct (C21_dedup_gates_preserves F7 c21_c V) as [_ [V1 _]].
  assert (E1 : exists c1, expand_small_segments (l_dedup c21_c) = Some c1 /\ length (l_segs c1) = 2%nat).
  { assert (X : option_map (fun c => length (l_segs c)) (expand_small_segments (l_dedup c21_c)) = Some 2%nat) by (vm_compute; reflexivity).
    destruct (expand_small_segments (l_dedup c21_c)) as [c1|]; [|discriminate]. exists c1. split; auto. cbn [option_map] in X. congruence. }
  destruct E1 as [c1 [E1 L1]]. destruct (C21_loop_never_fails F7 c21_c (l_dedup c21_c) V P (varying_public _ Q) (S3Stop _)) as [_ [c1' [E1' N]]]. assert (c1' = c1) by congruence. subst c1'.
  destruct (N [(0, 1)]) as [c2 E2]; [repeat constructor; cbn; lia|]. exists c1, c2. split; auto. split; auto.
  assert (SL : Step3Loop (l_dedup c21_c) c2).
  { eapply (S3Iter _ c1 c2 c2 [(0, 1)]); auto; [repeat constructor; cbn; lia| |apply S3Stop]. rewrite L1. exact E2. }
  split.
  - split; auto. exists c2. split; [exact SL|]. split; auto. eapply (C21_loop_never_fails F7 c21_c c2); auto. apply varying_public; auto.
  - rewrite L1. f_equal. assert (X : option_map (fun c => length (l_segs c)) (let* c1 := expand_small_segments (l_dedup c21_c) in find_common_parts [(0, 1)] c1) = Some 3%nat) by (vm_compute; reflexivity).
    rewrite E1 in X. cbn [obind] in X. rewrite E2 in X. cbn in X. congruence.
Qed.

(* find_common_parts keeps one copy only of two identical gates with a public input as coefficient: the sum changes. *)
Definition c21_dup : Segment F7 := {| s_ins := [1]; s_outs := 1; s_children := []; s_muls := []; s_adds := [];
  s_consts := map (fun i => {| g_in := tt; g_out := 0%nat; g_coef := CPub i |}) (0%nat :: seq 0 10); s_customs := [] |}.
Theorem C21_find_common_parts_repeated_gate_refuted : exists (c c' : LCircuit F7) pub ins, l_validate c = true /\ children_placed c /\ constant_gates_merged c /\
  find_common_parts [(0, 1)] c = Some c' /\ eval_scalar pub (fun _ _ => fz 0) (fun _ => fz 0) c ins <> eval_scalar pub (fun _ _ => fz 0) (fun _ => fz 0) c' ins.
Proof.
  set (c := {| l_pub := 10; l_actual := 1; l_zeroes := 0; l_segs := [c21_dup; c21_dup]; l_layers := [0; 1] |} : LCircuit F7).
  destruct (find_common_parts [(0, 1)] c) as [c'|] eqn:E.
  - exists c, c', (fun i => Some (fz 1)), [fz 0]. split; [vm_compute; reflexivity|]. split; [|split].
    + intros s ch Hs Hc. destruct Hs as [<-|[<-|[]]]; destruct Hc.
    + intros s g h l1 l2 l3 Hs Hg _ _. assert (Hin : In g (seg_gates s)) by (rewrite Hg; apply in_or_app; right; left; auto). assert (X : exists i, g_coef g = CPub i).
      { destruct Hs as [<-|[<-|[]]]; cbn in Hin; repeat (destruct Hin as [<-|Hin]; [eexists; reflexivity|]); destruct Hin. } destruct X as [i ->]. auto.
    + split; auto. intros H.
      assert (X : option_map (fun p => zs (fst p)) (eval_scalar (fun i => Some (fz 1)) (fun _ _ => fz 0) (fun _ => fz 0) c [fz 0]) = Some [4%Z]) by (vm_compute; reflexivity).
      assert (Y : option_map (fun p => zs (fst p)) (let* c' := find_common_parts [(0, 1)] c in eval_scalar (fun i => Some (fz 1)) (fun _ _ => fz 0) (fun _ => fz 0) c' [fz 0]) = Some [3%Z]) by (vm_compute; reflexivity).
      rewrite E in Y. cbn [obind] in Y. rewrite <- H, X in Y. discriminate.
  - exfalso. apply (f_equal (fun o => match o with Some _ => true | None => false end)) in E. vm_compute in E. discriminate.
Qed.
Print Assumptions C21_find_common_parts_repeated_gate_refuted.
(* A child listed with no place is accepted by validate, but expanding then leaves a reference to a segment that does not exist. *)
Theorem C21_expand_unplaced_child_refuted : exists c : LCircuit F7, l_validate c = true /\ varying_gates_distinct c /\ expand_small_segments c = None.
Proof.
  exists {| l_pub := 0; l_actual := 1; l_zeroes := 0; l_segs := [c20_seg0; {| s_ins := [2]; s_outs := 1; s_children := [(0, [])]; s_muls := []; s_adds := [gt7 (w0 1) 0 2]; s_consts := []; s_customs := [] |}]; l_layers := [1] |}.
  split; [vm_compute; reflexivity|]. split.
  2: { match goal with |- ?t = None => assert (X : match t with Some _ => true | None => false end = false) by (vm_compute; reflexivity); destruct t; [discriminate|auto] end. }
  intros id Hid. cbn [l_segs length] in Hid. apply (NoDup_map_inv (fun g => g_out g)). apply nodupb_iff. destruct id as [|[|id]]; [| |lia]; vm_compute; reflexivity.
Qed.
Print Assumptions C21_expand_unplaced_child_refuted.
