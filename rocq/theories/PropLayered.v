(* Property theorems C20, C26 (layered part), C21, C35. *)
From Verif Require Import Prelude Field Zp Expr Topo Ir Layered LayeredFacts PropIr.

(* ======================= C20 ======================= *)
(* the public inputs a circuit mentions *)
Definition pub_used {F} (c : LCircuit F) (i : nat) : Prop := exists s g, In s (l_segs c) /\ In g (seg_gates s) /\ g_coef g = CPub i.

Theorem C20_validated_layered_in_bounds : forall F (c : LCircuit F) pub gate rnd ins,
  l_validate c = true ->
  (* what validate does not look at: the declared output counts fit the last layer, and the public inputs are supplied *)
  (l_zeroes c <= l_actual c <= last_size c)%nat -> (forall i, pub_used c i -> pub i <> None) ->
  input_size c = Some (length ins) ->
  (* the evaluation (None stands for any out-of-bounds access) gives exactly the declared outputs, *)
  (exists outs sat, eval_scalar pub gate rnd c ins = Some (outs, sat) /\ length outs = (l_actual c - l_zeroes c)%nat /\
     (* which are those the gates define: every wire is the sum of its gates *)
     lrun (lenv pub gate rnd) c ins outs sat) /\
  (* and all sizes are powers of two *)
  (forall s, In s (l_segs c) -> (exists k, s_outs s = 2 ^ k)%nat /\ Forall (fun n => exists k, n = 2 ^ k)%nat (s_ins s)).
Proof.
  intros F c pub gate rnd ins Hv Hz Hp Hi. split.
  - destruct (eval_scalar_spec pub gate rnd c ins Hv) as [outs [sat [A [B C]]]]; eauto.
    intros id s g Hs Hg i Hc. apply Hp. exists s, g. split; [eapply nth_error_In; eauto|auto].
  - intros s Hs. unfold l_validate in Hv. rewrite !andb_true_iff in Hv. destruct Hv as [[Hv _] _]. apply In_nth_error in Hs. destruct Hs as [i Hi2].
    pose proof (segs_ok_nth _ _ _ _ _ _ Hv Hi2) as H. unfold seg_ok in H. rewrite !andb_true_iff in H. destruct H as [[[[H1 _] H2] _] _]. split; [apply pow2b_spec; auto|].
    rewrite forallb_forall in H1. apply Forall_forall. intros n Hn. apply pow2b_spec. auto.
Qed.
Print Assumptions C20_validated_layered_in_bounds.

(* A wire that some gate of layer number [length before] reads, [il w] layers back, is a circuit input or is written by a gate of the layer it comes from. *)
Theorem C20_reads_are_written : forall F (c : LCircuit F), l_validate c = true ->
  forall before id after g w, l_layers c = before ++ id :: after ->
  In g (flat (length (l_segs c)) (l_segs c) id) -> In w (k_ins (g_in g)) ->
  (il w <= length before)%nat /\
  (il w < length before -> exists src g', nth_error (rev before) (il w) = Some src /\ In g' (flat (length (l_segs c)) (l_segs c) src) /\ g_out g' = io w)%nat.
Proof.
  intros F c Hv before id after g w He Hg Hw. pose proof (validate_wf_segs c Hv) as W. unfold l_validate in Hv. rewrite !andb_true_iff in Hv. destruct Hv as [[_ _] Hv].
  destruct (l_layers c) as [|x l] eqn:El; [discriminate|]. destruct (seg_of c x) as [s|]; [|discriminate]. destruct (s_ins s) as [|n ns]; [discriminate|]. apply andb_true_iff in Hv. destruct Hv as [V1 V2].
  assert (Hle : (il w <= length before)%nat).
  { rewrite He in V1. assert (Hlen : length [n] = 1%nat) by auto. revert V1 Hlen. generalize [n]. 
    assert (G : forall before sizes k, sizes_ok c (before ++ id :: after) sizes = true -> length sizes = k -> (il w < length before + k)%nat).
    { clear -Hg Hw W. induction before as [|y before IH]; intros sizes k H Hk; cbn [app sizes_ok] in H.
      - unfold seg_of in H. destruct (nth_error (l_segs c) id) as [s|] eqn:Es; [|discriminate]. rewrite !andb_true_iff in H. destruct H as [[H _] _]. apply Nat.leb_le in H.
        pose proof (flat_inb _ W (length (l_segs c)) id s Es) as Hf. rewrite Forall_forall in Hf. destruct (Hf g Hg) as [G1 _]. rewrite Forall_forall in G1. destruct (G1 w Hw) as [m [Hm _]].
        apply nth_error_Some_lt in Hm. cbn. lia.
      - destruct (seg_of c y) as [s|]; [|discriminate]. rewrite !andb_true_iff in H. destruct H as [_ H]. specialize (IH _ (S k) H). cbn [length] in *. specialize (IH ltac:(lia)). lia. }
    intros sizes V1 Hlen. specialize (G before sizes 1%nat V1 Hlen). lia. }
  split; auto. intros Hlt. pose proof (masks_ok_spec c W _ [] V2 before id after He g w Hg Hw) as H. rewrite app_nil_r in H.
  destruct (nth_error (rev before) (il w)) as [src|] eqn:E; [|apply nth_error_None in E; rewrite rev_length in E; lia]. destruct H as [g' [H1 H2]]. exists src, g'. auto.
Qed.
Print Assumptions C20_reads_are_written.

Definition gt7 {A} (a : A) (o : nat) (c : Z) : Gate F7 A := {| g_in := a; g_out := o; g_coef := CConst (fz c) |}.
Definition w0 (o : nat) : Inp := mkInp 0 o.
(* two layers of width 4; both use segment 0 twice; the second layer also reads the circuit input across a layer *)
Definition c20_seg0 : Segment F7 := {| s_ins := [2]; s_outs := 1; s_children := []; s_muls := [gt7 (w0 0, w0 1) 0 3]; s_adds := [gt7 (w0 1) 0 2]; s_consts := []; s_customs := [] |}.
Definition c20_seg1 : Segment F7 := {| s_ins := [4]; s_outs := 4; s_children := [(0, [{| a_in := [0]; a_out := 1 |}; {| a_in := [2]; a_out := 3 |}])]; s_muls := [];
  s_adds := [gt7 (w0 3) 0 1]; s_consts := [gt7 tt 2 5]; s_customs := [] |}.
Definition c20_seg2 : Segment F7 := {| s_ins := [4; 4]; s_outs := 2; s_children := [(0, [{| a_in := [2]; a_out := 0 |}])]; s_muls := [gt7 (w0 1, mkInp 1 1) 1 1];
  s_adds := []; s_consts := [ {| g_in := tt; g_out := 1; g_coef := CPub 0 |} ]; s_customs := [] |}.
Definition c20_c : LCircuit F7 := {| l_pub := 1; l_actual := 2; l_zeroes := 1; l_segs := [c20_seg0; c20_seg1; c20_seg2]; l_layers := [1; 2] |}.
Definition pub7 (i : nat) : option F7 := nth_error [fz 4] i.
Example C20_instance : l_validate c20_c = true /\ (l_zeroes c20_c <= l_actual c20_c <= last_size c20_c)%nat /\ (forall i, pub_used c20_c i -> pub7 i <> None) /\
  input_size c20_c = Some 4 /\
  option_map (fun p => (zs (fst p), snd p)) (eval_scalar pub7 (fun _ _ => fz 0) (fun _ => fz 0) c20_c [fz 1; fz 2; fz 4; fz 4]) = Some ([3%Z], true).
Proof.
  split; [vm_compute; reflexivity|]. split; [vm_compute; lia|]. split; [|split; vm_compute; reflexivity].
  intros i [s [g [Hs [Hg Hc]]]]. cbn in Hs. destruct Hs as [<-|[<-|[<-|[]]]]; cbn in Hg; repeat (destruct Hg as [<-|Hg]; [cbn in Hc; try discriminate; injection Hc as <-; cbn; discriminate|]); contradiction.
Qed.
(* validate accepts a circuit that declares more outputs than its last layer has; evaluating it panics for every input *)
Theorem C20_output_counts_unchecked_refuted : exists c : LCircuit F7, l_validate c = true /\
  forall pub gate rnd ins, input_size c = Some (length ins) -> eval_scalar pub gate rnd c ins = None.
Proof.
  exists {| l_pub := 0; l_actual := 3; l_zeroes := 0; l_segs := [ {| s_ins := [1]; s_outs := 1; s_children := []; s_muls := []; s_adds := []; s_consts := []; s_customs := [] |} ]; l_layers := [0] |}.
  split; [vm_compute; reflexivity|]. intros pub gate rnd ins Hi. cbn in Hi. injection Hi as Hi. destruct ins as [|x [|y ins]]; try discriminate. reflexivity.
Qed.

(* ======================= C26, layered evaluation ======================= *)
Theorem C26_layered_is_lanewise : forall F P pub gate rnd (c : LCircuit F) ins j, (j < P)%nat ->
  Forall (fun v => length v = P) ins -> (forall i v, pub i = Some v -> length v = P) -> (forall k, length (rnd k) = P) ->
  let lane := fun v : list F => nth j v f0 in
  match eval_simd P pub gate rnd c ins with
  | Some (outs, sat) =>
      eval_scalar (fun i => option_map lane (pub i)) gate (fun k => lane (rnd k)) c (map lane ins) = Some (map lane outs, nth j sat false) /\
      length sat = P /\ Forall (fun v => length v = P) outs
  | None => eval_scalar (fun i => option_map lane (pub i)) gate (fun k => lane (rnd k)) c (map lane ins) = None
  end.
Proof. intros F P pub gate rnd c ins j Hj Hi Hp Hr. exact (eval_simd_lanes P pub gate rnd c ins j Hj Hi Hp Hr). Qed.
Print Assumptions C26_layered_is_lanewise.
Example C26_layered_instance :
  option_map (fun p => (map zs (fst p), snd p)) (eval_simd 2 (fun i => nth_error [[fz 4; fz 1]] i) (fun _ _ => fz 0) (fun _ => [fz 0; fz 0]) c20_c
    [[fz 1; fz 5]; [fz 2; fz 0]; [fz 4; fz 1]; [fz 4; fz 6]]) = Some ([[3; 1]]%Z, [true; false]).
Proof. vm_compute. reflexivity. Qed.
