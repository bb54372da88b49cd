(* Property theorem C06. *)
From Verif Require Import Prelude Field Zp Expr Topo Hints Ir IrFacts IrInst Sim LocalPass DetectChains PropIr.

Notation Src F := (SrcI F).

(* (a) chain detection always succeeds on a validated circuit, keeps sizes, and the runs of the result are exactly the runs of
   the original: same outputs and same verdict for every input, every hint behaviour, every random value *)
Theorem C06_detect_chains : forall F (rc : RootCircuit (Src F)),
  NoDup (keys (circuits rc)) -> validate _ rc = true ->
  exists rc', detect_chains rc = Some rc' /\
    num_public_inputs rc' = num_public_inputs rc /\ expected_num_output_zeroes rc' = expected_num_output_zeroes rc /\
    (forall E ins outs verdict, root_run _ E rc ins outs verdict <-> root_run _ E rc' ins outs verdict).
Proof.
  intros F rc Hk Hv. destruct (detect_chains_spec rc (validate_wf_root _ rc Hk Hv)) as [rc' [A [_ [B [C [_ [_ D]]]]]]]. exists rc'. auto.
Qed.
Print Assumptions C06_detect_chains.

(* how often a circuit reads variable x: as an operand, as an output, in a constraint *)
Definition reads {F} (c : Circuit (Src F)) (x : nat) : nat :=
  count_occ Nat.eq_dec (flat_map (fun i : Insn (Src F) => i_inputs i) (instructions c) ++ outputs c ++ map c_var (constraints c)) x.
(* (b) inside each circuit: it has as many variables as before, and every variable the result still reads has the value it had *)
Theorem C06_used_variables : forall F (rc rc' : RootCircuit (Src F)) id c c',
  NoDup (keys (circuits rc)) -> validate _ rc = true -> detect_chains rc = Some rc' ->
  lookup id (circuits rc) = Some c -> lookup id (circuits rc') = Some c' ->
  outputs c' = outputs c /\ constraints c' = constraints c /\ num_inputs c' = num_inputs c /\
  (forall x, reads c' x <= reads c x)%nat /\
  forall E ins vals b, length ins = num_inputs c ->
    exec _ E (circuits rc) (instructions c) (f0 :: ins) vals b ->
    exists vals', exec _ E (circuits rc) (instructions c') (f0 :: ins) vals' b /\ length vals' = length vals /\
      forall x, (0 < reads c' x)%nat -> getv vals' x = getv vals x.
Proof.
  intros F rc rc' id c c' Hk Hv Hd Hc Hc'. pose proof (validate_wf_root _ rc Hk Hv) as W. destruct (detect_chains_spec rc W) as [rc2 [A [_ [_ [_ [L1 [L2 _]]]]]]].
  pose proof (eq_trans (eq_sym A) Hd) as X0. injection X0 as ->. destruct (L2 id c Hc) as [c2 [X1 [X2 _]]]. pose proof (eq_trans (eq_sym X1) Hc') as X0. injection X0 as ->.
  destruct (dc_circuit_spec c (wf_each _ _ (wr_cs _ _ W) _ _ Hc)) as [c2 [E2 [Hn [Ho [Hcon [_ [vid [cnt HI]]]]]]]]. pose proof (eq_trans (eq_sym E2) X2) as X0. injection X0 as ->.
  assert (Hr : forall x, reads c' x = uses (observed c) (instructions c') x) by (intros x; unfold reads, uses, observed; rewrite Ho, Hcon; reflexivity).
  split; auto. split; auto. split; auto. split.
  - intros x. rewrite Hr. apply (inv_mono _ _ _ _ _ _ HI x).
  - intros E ins vals b Hl Hx. destruct (inv_keeps _ _ _ _ _ _ HI E (circuits rc) ins Hl (wf_calls _ _ (wr_cs _ _ W) _ _ Hc)) as [Kf _].
    destruct (Kf vals b Hx) as [vals' [Y1 [Y2 Y3]]]. exists vals'. split; auto. split; auto. intros x H. symmetry. apply Y3. rewrite <- Hr. auto.
Qed.
Print Assumptions C06_used_variables.

(* (c) an emptied product (which validate would refuse) is left only where nothing reads it, so that removing unreachable
   instructions restores validity: every other instruction of the result still passes the instruction check of validate *)
Theorem C06_leftovers_unread : forall F (rc rc' : RootCircuit (Src F)) id c' p (i : Insn (Src F)),
  NoDup (keys (circuits rc)) -> validate _ rc = true -> detect_chains rc = Some rc' ->
  lookup id (circuits rc') = Some c' -> nth_error (instructions c') p = Some i ->
  i_validate (num_public_inputs rc) i = true \/
  (i_nout i = 1 /\ reads c' (1 + num_inputs c' + list_sum (map (fun j : Insn (Src F) => i_nout j) (firstn p (instructions c')))) = 0)%nat.
Proof.
  intros F rc rc' id c' p i Hk Hv Hd Hc' Hp. pose proof (validate_wf_root _ rc Hk Hv) as W. destruct (detect_chains_spec rc W) as [rc2 [A [_ [_ [_ [L1 [L2 _]]]]]]].
  pose proof (eq_trans (eq_sym A) Hd) as X0. injection X0 as ->. destruct (L1 id c' Hc') as [c [Hc [X2 _]]].
  destruct (dc_circuit_spec c (wf_each _ _ (wr_cs _ _ W) _ _ Hc)) as [c2 [E2 [Hn [Ho [Hcon [_ [vid [cnt HI]]]]]]]]. pose proof (eq_trans (eq_sym E2) X2) as X0. injection X0 as ->.
  assert (Hval : Forall (fun j : Insn (Src F) => s_validate F (num_public_inputs rc) j = true) (instructions c)).
  { unfold validate in Hv. destruct (lookup 0 (circuits rc)); [|discriminate]. apply andb_true_iff in Hv. destruct Hv as [Hv _]. apply andb_true_iff in Hv. destruct Hv as [Hv _].
    rewrite forallb_forall in Hv. specialize (Hv _ (lookup_In _ _ _ Hc)). cbn [snd] in Hv. unfold validate_variable_references in Hv.
    destruct (validate_insns _ _ (instructions c) (num_inputs c)) as [m|] eqn:Em; [|discriminate]. clear -Em. revert Em. generalize (num_inputs c). induction (instructions c) as [|j l IH]; intros n Em; constructor.
    - cbn [validate_insns] in Em. destruct (forallb _ _); [|discriminate]. destruct (i_validate _ j) eqn:Ej; [auto|discriminate].
    - cbn [validate_insns] in Em. destruct (forallb _ _); [|discriminate]. destruct (i_validate _ j); [|discriminate]. destruct (match i_call j with Some (_, l0, _) => _ | None => true end); [|discriminate]. eauto. }
  destruct (inv_valid _ _ _ _ _ _ HI _ Hval p i Hp) as [H|[H1 H2]]; auto. right. split; auto.
  assert (Hr : forall x, reads c' x = uses (observed c) (instructions c') x) by (intros x; unfold reads, uses, observed; rewrite Ho, Hcon; reflexivity).
  rewrite Hr, Hn. etransitivity; [|exact H1]. unfold var_of.
  assert (G : forall l : list (Insn (Src F)), list_sum (map (fun j : Insn (Src F) => i_nout j) l) = nouts (Src F) l) by (induction l as [|j l IH]; cbn [map list_sum fold_right nouts]; auto).
  rewrite G. reflexivity.
Qed.
Print Assumptions C06_leftovers_unread.

(* two sums chained into a third with scaling, products chained, and a sum that is read twice and must stay *)
Definition c06_rc : RootCircuit (Src F7) :=
  {| num_public_inputs := 0; expected_num_output_zeroes := 0;
     circuits := [(0, {| instructions := [SLin {| lc_terms := [(1, fz 2); (2, fz 1)]; lc_const := fz 3 |};      (* 3 *)
                                          SLin {| lc_terms := [(3, fz 5); (1, fz 1)]; lc_const := fz 1 |};      (* 4 *)
                                          SMul [4; 2];                                                          (* 5 *)
                                          SMul [5; 1];                                                          (* 6 *)
                                          SLin {| lc_terms := [(6, fz 1); (2, fz 1)]; lc_const := fz 0 |}]      (* 7 *)
                           : list (Insn (Src F7));
                         constraints := [(TNonZero, 7)]; outputs := [7; 1]; num_inputs := 2 |})] |}.
Example C06_instance : NoDup (keys (circuits c06_rc)) /\ validate _ c06_rc = true /\
  option_map (fun r => map (fun p => map (fun i : Insn (Src F7) => i_inputs i) (instructions (snd p))) (circuits r)) (detect_chains c06_rc) = Some [[[]; [1; 2; 1]; []; [4; 2; 1]; [6; 2]]] /\
  resz (eval_root _ o7 c06_rc [fz 2; fz 5]) = Ok ([5; 2]%Z, true) /\
  option_map (fun r => resz (eval_root _ o7 r [fz 2; fz 5])) (detect_chains c06_rc) = Some (Ok ([5; 2]%Z, true)).
Proof. split; [repeat constructor; cbn; intuition discriminate|]. repeat split; vm_compute; reflexivity. Qed.
