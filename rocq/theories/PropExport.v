(* Property theorem C35. *)
From Verif Require Import Prelude Field Zp Expr Topo Ir Layered LayeredFacts Export PropIr PropLayered.
Local Open Scope nat_scope.

(* NormalInputType circuits have one input layer per segment; the prover's custom gates have one input *)
Definition is_normal {F} (c : LCircuit F) : Prop := forall s, In s (l_segs c) -> normal_seg s.
Definition custom_gates_unary {F} (c : LCircuit F) : Prop := forall s g, In s (l_segs c) -> In g (s_customs s) -> length (snd (g_in g)) = 1.

(* the run of C20/C21 is the one compared here, with the layers made visible *)
Lemma lrun_all_lrun {F} E (c : LCircuit F) ins outs sat : lrun E c ins outs sat <-> exists all, lrun_all E c ins all outs sat.
Proof. unfold lrun, lrun_all. split; [intros [cur [out H]]; eauto|intros [cur [out H]]; eauto]. Qed.

(* Exporting a validated circuit of single-layer wiring succeeds; for every environment (public inputs, custom gates, random
   coefficients) and every input, the values of all layers, the outputs and the verdict are the same ones on both sides. *)
Theorem C35_export_normal : forall F (c : LCircuit F), l_validate c = true -> is_normal c -> custom_gates_unary c ->
  exists x, export_normal c = Some x /\ xc_pub x = l_pub c /\
    forall E ins all outs sat, xrun E x ins all outs sat <-> lrun_all E c ins all outs sat.
Proof.
  intros F c Hv Hn Hu.
  assert (Hseg : forall s, In s (l_segs c) -> exists x, ex_seg s = Some x /\ vrel s (view_x x)).
  { intros s Hs. apply ex_seg_rel; auto.
    - apply Forall_forall. intros g Hg. apply (Hu s g); auto.
    - unfold l_validate in Hv. rewrite !andb_true_iff in Hv. destruct Hv as [[Hv _] _]. apply In_nth_error in Hs. destruct Hs as [i Hi].
      pose proof (segs_ok_nth _ _ _ _ _ _ Hv Hi) as H. unfold seg_ok in H. rewrite !andb_true_iff in H. tauto.
    - unfold l_validate in Hv. rewrite !andb_true_iff in Hv. destruct Hv as [[Hv _] _]. apply In_nth_error in Hs. destruct Hs as [i Hi].
      pose proof (segs_ok_nth _ _ _ _ _ _ Hv Hi) as H. unfold seg_ok in H. rewrite !andb_true_iff in H. tauto. }
  destruct (omap_F2 ex_seg (fun s x => vrel s (view_x x)) (l_segs c) Hseg) as [xs [E1 E2]]. unfold export_normal. rewrite E1. cbn [obind].
  eexists. split; [reflexivity|]. split; [reflexivity|]. intros E ins all outs sat. unfold xrun. cbn [xc_segs xc_layers xc_zeros xc_outs]. apply vrun_iff. apply F2_vmap. auto.
Qed.
Print Assumptions C35_export_normal.

(* Cross-layer circuits: the export succeeds exactly when its assertions hold, and then keeps every layer's values. *)
Definition cross_exportable {F} (c : LCircuit F) : Prop := forall s, In s (l_segs c) ->
  s_customs s = [] /\ (forall g, In g (s_muls s) -> il (fst (g_in g)) = 0 /\ il (snd (g_in g)) = 0) /\
  (forall g, In g (s_adds s) -> il (g_in g) = 0 \/ exists k, g_coef g = CConst k).
Theorem C35_export_cross : forall F (c : LCircuit F), l_validate c = true ->
  (cross_exportable c <-> exists x, export_cross c = Some x) /\
  forall x, export_cross c = Some x -> cc_pub x = l_pub c /\
    forall E ins all outs sat, crun E x ins all outs sat <-> lrun_all E c ins all outs sat.
Proof.
  intros F c Hv.
  assert (Hne : forall s, In s (l_segs c) -> s_ins s <> []).
  { intros s Hs. unfold l_validate in Hv. rewrite !andb_true_iff in Hv. destruct Hv as [[Hv _] _]. apply In_nth_error in Hs. destruct Hs as [i Hi].
    pose proof (segs_ok_nth _ _ _ _ _ _ Hv Hi) as H. unfold seg_ok in H. rewrite !andb_true_iff in H. destruct H as [[[[_ H] _] _] _]. intros E. rewrite E in H. discriminate. }
  split; [split|].
  - intros Hc. unfold export_cross. destruct (omap_F2 ex_cseg (fun _ _ => True) (l_segs c)) as [xs [E1 _]].
    + intros s Hs. destruct (Hc s Hs) as [H1 [H2 H3]]. unfold ex_cseg.
      assert (Ha : exists r, split_adds (s_adds s) = Some r).
      { revert H3. generalize (s_adds s). clear. induction l as [|g l IH]; intros H; cbn [split_adds]; [eauto|]. destruct IH as [r ->]; [intros; apply H; right; auto|]. cbn [obind].
        destruct (Nat.eqb_spec (il (g_in g)) 0); [eauto|]. destruct (H g (or_introl eq_refl)) as [?|[k ->]]; [contradiction|]. cbn. eauto. }
      destruct Ha as [r ->]. cbn [obind]. rewrite H1. cbn [length Nat.eqb].
      destruct (omap_F2 simple_mul (fun _ _ => True) (s_muls s)) as [ms [-> _]]; [|cbn [obind]; eauto].
      intros g Hg. destruct (H2 g Hg) as [E1 E2]. unfold simple_mul. rewrite E1, E2. cbn. eauto.
    + rewrite E1. cbn [obind]. eauto.
  - intros [x Hx] s Hs. unfold export_cross in Hx. destruct (omap ex_cseg (l_segs c)) as [xs|] eqn:E; [|discriminate].
    assert (Hex : exists y, ex_cseg s = Some y).
    { clear -E Hs. revert xs E. induction (l_segs c) as [|s0 l IH]; [destruct Hs|]. intros xs E. cbn [omap] in E. destruct (ex_cseg s0) as [y|] eqn:E0; [|discriminate]. cbn [obind] in E.
      destruct (omap ex_cseg l) as [t|] eqn:Et; [|discriminate]. destruct Hs as [<-|Hs]; eauto. }
    destruct Hex as [y Hy]. unfold ex_cseg in Hy. destruct (split_adds (s_adds s)) as [ar|] eqn:Ea; [|discriminate]. cbn [obind] in Hy.
    destruct (Nat.eqb_spec (length (s_customs s)) 0) as [E0|]; [|discriminate]. destruct (omap simple_mul (s_muls s)) as [ms|] eqn:Em; [|discriminate]. split; [destruct (s_customs s); [auto|discriminate]|]. split.
    + intros g Hg. clear -Em Hg. revert ms Em. induction (s_muls s) as [|g0 l IH]; [destruct Hg|]. intros ms Em. cbn [omap] in Em. destruct (simple_mul g0) as [y|] eqn:E0; [|discriminate]. cbn [obind] in Em.
      destruct (omap simple_mul l) as [t|] eqn:Et; [|discriminate]. destruct Hg as [<-|Hg]; [|eauto]. unfold simple_mul in E0. destruct (Nat.eqb_spec (il (fst (g_in g0))) 0); [|discriminate]. destruct (Nat.eqb_spec (il (snd (g_in g0))) 0); [|discriminate]. auto.
    + intros g Hg. clear -Ea Hg. revert ar Ea. induction (s_adds s) as [|g0 l IH]; [destruct Hg|]. intros ar Ea. cbn [split_adds] in Ea. destruct (split_adds l) as [r|] eqn:Er; [|discriminate]. cbn [obind] in Ea.
      destruct Hg as [<-|Hg]; [|eauto]. destruct (Nat.eqb_spec (il (g_in g0)) 0); [auto|]. destruct (g_coef g0); cbn in Ea; try discriminate. eauto.
  - intros x Hx. unfold export_cross in Hx. destruct (omap ex_cseg (l_segs c)) as [xs|] eqn:E; [|discriminate]. cbn [obind] in Hx. injection Hx as <-. cbn [cc_pub]. split; auto.
    intros E0 ins all outs sat. unfold crun. cbn [cc_segs cc_layers cc_zeros cc_outs]. apply vrun_iff. apply F2_vmap.
    apply (omap_F2_inv ex_cseg); auto. intros s y Hs Hy. apply ex_cseg_rel; auto.
Qed.
Print Assumptions C35_export_cross.

(* Only the first input of a custom gate is exported (export.rs:41), although custom gates may have several: the exported
   circuit then computes something else.  The gate here adds its inputs. *)
Definition c35_custom : LCircuit F7 := {| l_pub := 0; l_actual := 1; l_zeroes := 0; l_layers := [0];
  l_segs := [ {| s_ins := [2]; s_outs := 1; s_children := []; s_muls := []; s_adds := []; s_consts := []; s_customs := [gt7 (5, [w0 0; w0 1]) 0 1] |} ] |}.
Definition e_sum : Env F7 := lenv (fun _ => None) (fun _ l => fsum F7 l) (fun _ => fz 0).
Theorem C35_custom_gate_inputs_dropped_refuted : l_validate c35_custom = true /\ is_normal c35_custom /\
  exists x, export_normal c35_custom = Some x /\
    (exists all outs, lrun_all e_sum c35_custom [fz 1; fz 2] all outs true /\ zs outs = [3%Z]) /\
    (exists all outs, xrun e_sum x [fz 1; fz 2] all outs true /\ zs outs = [1%Z]).
Proof.
  split; [vm_compute; reflexivity|]. split.
  { intros s [<-|[]]. split; [reflexivity|]. split; [constructor|]. cbn. repeat constructor. }
  eexists. split; [reflexivity|]. split.
  - eexists [[_]; [fz 1; fz 2]], [_]. split; [|shelve]. exists [fadd (fmul (fsum F7 [fz 1; fz 2]) (fz 1)) (fz 0)]. split; [reflexivity|]. split.
    + econstructor; [|constructor]. eexists _, [(0, fmul (fsum F7 [fz 1; fz 2]) (fz 1))]. split; [reflexivity|]. split.
      * constructor; [|constructor]. split; [reflexivity|]. exists (fz 1). split; reflexivity.
      * reflexivity.
    + split; [reflexivity|]. split; [cbn; lia|]. split; reflexivity.
  - eexists [[_]; [fz 1; fz 2]], [_]. split; [|shelve]. eexists 0, [], _, [fadd (fmul (fsum F7 [fz 1]) (fz 1)) (fz 0)]. split; [reflexivity|]. split; [reflexivity|]. split; [reflexivity|]. split.
    + econstructor; [|constructor]. eexists _, [(0, fmul (fsum F7 [fz 1]) (fz 1))]. split; [reflexivity|]. split.
      * constructor; [|constructor]. split; [reflexivity|]. exists (fz 1). split; reflexivity.
      * reflexivity.
    + split; [reflexivity|]. split; [cbn; lia|]. split; reflexivity.
  Unshelve. all: vm_compute; reflexivity.
Qed.
Print Assumptions C35_custom_gate_inputs_dropped_refuted.

(* instances: a normal circuit with nested segments, and the cross-layer circuit of C20 without its cross-layer product *)
Definition c35_norm : LCircuit F7 := {| l_pub := 1; l_actual := 4; l_zeroes := 1; l_segs := [c20_seg0; c20_seg1]; l_layers := [1; 1] |}.
Definition c35_cross : LCircuit F7 := {| l_pub := 1; l_actual := 2; l_zeroes := 1; l_layers := [1; 2];
  l_segs := [c20_seg0; c20_seg1; {| s_ins := [4; 4]; s_outs := 2; s_children := [(0, [{| a_in := [2]; a_out := 0 |}])]; s_muls := [gt7 (w0 1, w0 2) 1 1];
    s_adds := [gt7 (mkInp 1 3) 1 4; gt7 (w0 0) 0 2]; s_consts := [ {| g_in := tt; g_out := 1; g_coef := CPub 0 |} ]; s_customs := [] |}] |}.
Example C35_instance : l_validate c35_norm = true /\ is_normal c35_norm /\ custom_gates_unary c35_norm /\
  option_map (fun x => map (fun s => (xi_var s, xo_var s)) (xc_segs x)) (export_normal c35_norm) = Some [(1, 0); (2, 2)] /\
  l_validate c35_cross = true /\ cross_exportable c35_cross /\
  option_map (fun x => map (fun s => (length (c_adds s), map (fun r => let '(l, i, o, c) := r in (l, i, o)) (c_relays s))) (cc_segs x)) (export_cross c35_cross) = Some [(1, []); (1, []); (1, [(1, 3, 1)])].
Proof.
  split; [vm_compute; reflexivity|]. split.
  { intros s Hs. cbn in Hs. destruct Hs as [<-|[<-|[]]]; (split; [reflexivity|]; split; cbn; repeat constructor). }
  split; [intros s g Hs Hg; cbn in Hs; destruct Hs as [<-|[<-|[]]]; destruct Hg|]. split; [vm_compute; reflexivity|]. split; [vm_compute; reflexivity|]. split; [|vm_compute; reflexivity].
  intros s Hs. cbn in Hs. destruct Hs as [<-|[<-|[<-|[]]]]; (split; [reflexivity|]; split; intros g Hg; cbn in Hg; repeat (destruct Hg as [<-|Hg]; [cbn; eauto|]); destruct Hg).
Qed.
