(* C44: the compiler never panics and always ends: on every source circuit and every options it returns a result or an error, unless an intermediate circuit
   has more inputs than a usize can count.  An Err is what the code returns with `?`, a Panic a failed assertion, index, unwrap or expect (CompileR.v).
   [with_fuel K m] is the model of the program whose optimisation loops are cut (with a panic) after m rounds: "for every m from some n on, the outcome is r"
   is what it means for the loops of the program, which have no such bound, to end with outcome r. *)
From Verif Require Import Prelude Field InputMapping Expr Topo Ir IrFacts IrInst Hints Zp Sim RemoveUnreachable ReassignDup AddBack FixedPoint Kinds DetectChains
  Builder HnTrans HnSim HnCirc HintExport FinalBuild FbFacts FbSim MulFanout ExportConstraints SolveDuplicates LocalPass IrSplit SplitRoot Layered LayeredFacts LayeredOpt Layering Compile E2E E2ERun
  PropIr PropPasses PropHn PropFb PropSplit PropLayering PropLayeredOpt E2ESteps Terminate PropTerminate CompTotal SplitTot SplitTotB SplitTotC SplitTotD PropSplitTotal PropLayTotal CompileR CompTotalB CompTotalC CompTotalD PropCompile.
Open Scope nat_scope.

(* the circuit without hints, or the layered circuit, has more inputs than fit in a usize *)
Definition too_large {F : Fld} (K : Config) (o : Options) (rc : RootCircuit (SrcI F)) : Prop :=
  exists s sim h him hl x, r_front K o rc = Ok (s, sim, h, him, hl, x) /\
    ((exists cl, lookup 0 (circuits hl) = Some cl /\ EMPTY K < num_inputs cl) \/
     (exists p2 im2 p3 im3 d imd lc iml, r_middle K o hl = Ok (p2, im2, p3, im3, d, imd, lc, iml) /\ EMPTY K < next_size iml)).
(* step 3 on this layered circuit: if the validation before the loop accepts it, so does the one after the loop, and no round of the loop fails, whatever pairs of
   segments it compares *)
Definition step_3_safe {F : Fld} (c : LCircuit F) : Prop :=
  l_validate c = true -> forall c1, Step3Loop (l_dedup c) c1 -> l_validate c1 = true /\ exists c2, expand_small_segments c1 = Some c2 /\
    forall edges, Forall (fun e => fst e < length (l_segs c2) /\ snd e < length (l_segs c2)) edges -> exists c3, find_common_parts edges c2 = Some c3.

Theorem C44_compile_never_panics : forall F (K : Config) (o : Options) (rc : RootCircuit (SrcI F)),
  costs_ok (costs K) -> NoDup (keys (circuits rc)) -> (forall c0, lookup 0 (circuits rc) = Some c0 -> num_inputs c0 <= EMPTY K) ->
  exists n,
    (forall m, n <= m -> r_compile (with_fuel K m) o rc = Err) \/
    (exists t ex, (forall m, n <= m -> r_compile (with_fuel K m) o rc = Ok (t, ex)) /\ step_3_safe (t_lc t)) \/
    (forall m, n <= m -> too_large (with_fuel K m) o rc).
Proof.
  intros F K o rc Hcost Hk Hsz. destruct (options_ok o) eqn:Ho; [|exists 0; left; intros m _; unfold r_compile, r_front; rewrite Ho; reflexivity].
  assert (Hops : 1 <= opt_level o /\ forall l, mul_fanout_limit o = Some l -> 1 < l).
  { pose proof Ho as X. unfold options_ok in X. apply andb_true_iff in X. destruct X as [A B]. apply andb_true_iff in B. destruct B as [B _]. apply Nat.leb_le in B. split; auto. intros l El. rewrite El in A. apply Nat.ltb_lt in A. auto. }
  destruct Hops as [O1 O2]. destruct (lookup 0 (circuits rc)) as [c0|] eqn:Hc0.
  2:{ assert (V : validate _ rc = false). { destruct (validate _ rc) eqn:V; auto. pose proof (validate_wf_root _ rc Hk V) as W. destruct (wr_root _ _ W) as [c [Hc _]]. congruence. }
      exists 0. left. intros m _. unfold r_compile, r_front. rewrite Ho. cbn [chk rbind]. unfold r_step_1_source. rewrite V. reflexivity. }
  destruct (front_total K o O1 rc c0 Ho Hk Hc0 (Hsz c0 eq_refl)) as [n1 [v1 [A1 A2]]]. destruct v1 as [[[[[[s sim] h] him] hl] x]| | |]; try contradiction.
  2:{ exists n1. left. intros m Hm. unfold r_compile. rewrite A1 by auto. reflexivity. }
  cbn [fine] in A2. destruct A2 as [Wl [Wx [Zx [G [R [cx [cl [Hcx [Hcl Hlen]]]]]]]]].
  destruct (Nat.le_gt_cases (num_inputs cl) (EMPTY K)) as [Hs|Hs].
  2:{ exists n1. right. right. intros m Hm. exists s, sim, h, him, hl, x. split; auto. left. exists cl. auto. }
  assert (Sm : small (EMPTY K) hl) by (intros c Hc; rewrite Hcl in Hc; injection Hc as <-; auto).
  destruct (middle_total K o O1 O2 Hcost hl Wl Sm) as [n2 [v2 [B1 B2]]]. destruct v2 as [[[[[[[[p2 im2] p3] im3] d] imd] lc] iml]| | |]; try contradiction.
  2:{ exists (Nat.max n1 n2). left. intros m Hm. unfold r_compile. rewrite A1 by lia. cbn [rbind]. rewrite B1 by lia. reflexivity. }
  cbn [fine] in B2. destruct B2 as [Hf [V HL]]. pose proof (middle_cur K o n2 hl p2 im2 p3 im3 d imd lc iml cl (B1 n2 (Nat.le_refl n2)) Hcl) as Hcur.
  destruct (Nat.le_gt_cases (next_size iml) (EMPTY K)) as [Hi|Hi].
  2:{ exists (Nat.max n1 n2). right. right. intros m Hm. exists s, sim, h, him, hl, x. split; [apply A1; lia|]. right. exists p2, im2, p3, im3, d, imd, lc, iml. split; [apply B1; lia|exact Hi]. }
  destruct (im_total K o O1 d imd lc iml _ Hf V HL Hi) as [im [C1 [C2 [C3 C4]]]].
  destruct (back_total K o x him imd iml im cx Wx Zx G R Hcx C1 C2 C3 ltac:(congruence)) as [n3 [v3 [D1 D2]]].
  exists (Nat.max n1 (Nat.max n2 n3)). destruct v3 as [[[[[im' pl] so] soim] ex]| | |]; try contradiction.
  - right. left. eexists _, ex. split.
    + intros m Hm. unfold r_compile. rewrite A1 by lia. cbn [rbind]. rewrite B1 by lia. cbn [rbind]. rewrite D1 by lia. reflexivity.
    + cbn [t_lc]. intros Hv c1 L. destruct (C21_layered_circuits_qualify F (cross_layer K) (EMPTY K) (allow_input_reorder o) d lc iml (wf_keys_of _ (proj1 Hf)) V HL) as [Q1 Q2].
      exact (C21_loop_never_fails F lc c1 Hv Q1 Q2 L).
  - left. intros m Hm. unfold r_compile. rewrite A1 by lia. cbn [rbind]. rewrite B1 by lia. cbn [rbind]. rewrite D1 by lia. reflexivity.
Qed.
Print Assumptions C44_compile_never_panics.

(* The values are those the other theorems speak of: a compilation in the sense of C36 and C37 is a value returned here, followed by step 3. *)
Theorem C44_same_compiler : forall F (K : Config) (o : Options) (rc : RootCircuit (SrcI F)) t ex lc,
  compiles K o rc t ex lc <-> r_compile K o rc = Ok (t, ex) /\ Step3 (opt_level o) (t_lc t) lc.
Proof. intros F K o rc t ex lc. apply r_compile_agrees. Qed.
Print Assumptions C44_same_compiler.

(* Instances: the compilations of C36 return a value, and so nothing is too large; other options, and a circuit that does not validate, give an error. *)
Example C44_instance : forall K o places w, In (K, o, places, w) runs36 ->
  costs_ok (costs K) /\ NoDup (keys (circuits c36_rc)) /\ (forall c0, lookup 0 (circuits c36_rc) = Some c0 -> num_inputs c0 <= EMPTY K) /\
  exists t ex lc, r_compile K o c36_rc = Ok (t, ex) /\ l_validate (t_lc t) = true /\ Step3 (opt_level o) (t_lc t) lc.
Proof.
  intros K o places w Hin. destruct (check7_ok K o c36_rc [2; 0; 4]%Z places w (runs36_ok _ _ _ _ Hin)) as [t [ex [lc [A1 [A2 _]]]]].
  split. { assert (X : In (costs K) (map (fun q => costs (fst (fst (fst q)))) runs36)) by (apply in_map_iff; exists (K, o, places, w); auto).
    clear -X. assert (Y : map (fun q => costs (fst (fst (fst q)))) runs36 = [costs_std; costs_std; costs_std; costs_std]) by reflexivity. rewrite Y in X. destruct real_costs_ok as [R _]. destruct X as [<-|[<-|[<-|[<-|[]]]]]; exact R. }
  destruct A2 as [U1 [U2 _] _]. split; auto. split; auto. exists t, ex, lc. apply C44_same_compiler in A1. destruct A1 as [A B]. split; auto. split; auto. apply B.
Qed.
Definition errs {A} (r : Res A) : bool := match r with Err => true | _ => false end.
Example C44_errors : errs (r_compile (k7 true true) (o123 0 None) c36_rc) = true /\
  errs (r_compile (k7 true true) (o123 1 None) {| num_public_inputs := 0; expected_num_output_zeroes := 0; circuits := circuits c36_rc |}) = true.
Proof. split; vm_compute; reflexivity. Qed.
