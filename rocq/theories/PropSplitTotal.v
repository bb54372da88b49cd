(* C43: splitting a valid dest circuit into layers never panics. *)
From Verif Require Import Prelude Field Zp Sorting Expr Topo Ir IrFacts IrInst Sim Builder Kinds LaySched Layering IrSplit SplitExp SplitRoot SplitTot SplitTotB SplitTotC SplitTotD PropIr PropDest PropSplit.
Open Scope nat_scope.

Theorem C43_split_total : forall (F : Fld) (random : bool) (rc : RootCircuit (DestI F false)),
  NoDup (keys (circuits rc)) -> validate _ rc = true ->
  (* no circuit calls the root *)
  (forall id c, lookup id (circuits rc) = Some c -> ~ In 0 (calls c)) ->
  (* without random combination, the constraints have been made outputs before *)
  (random = false -> unconstrained rc) ->
  exists rc', split_to_single_layer random rc = Some rc'.
Proof.
  intros F random rc Hk Hv Hc Hu. apply split_total; auto. apply validate_wf_root; auto.
Qed.

Lemma call7 (cs : list (nat * Circuit DR7)) : forallb (fun p : nat * Circuit DR7 => negb (existsb (Nat.eqb 0) (calls (snd p)))) cs = true -> forall id c, lookup id cs = Some c -> ~ In 0 (calls c).
Proof.
  intros H id c Hc Hi. apply lookup_In in Hc. rewrite forallb_forall in H. specialize (H _ Hc). cbn [snd] in H. apply negb_true_iff in H. assert (existsb (Nat.eqb 0) (calls c) = true) by (apply existsb_exists; exists 0; auto). congruence.
Qed.
Example C43_instance : NoDup (keys (circuits c18_rc)) /\ validate _ c18_rc = true /\ (forall id c, lookup id (circuits c18_rc) = Some c -> ~ In 0 (calls c)) /\
  NoDup (keys (circuits c18_plain)) /\ validate _ c18_plain = true /\ (forall id c, lookup id (circuits c18_plain) = Some c -> ~ In 0 (calls c)) /\ unconstrained c18_plain.
Proof.
  split; [repeat constructor; cbn; intuition discriminate|]. split; [vm_compute; reflexivity|]. split; [apply call7; vm_compute; reflexivity|].
  split; [repeat constructor; cbn; intuition discriminate|]. split; [vm_compute; reflexivity|]. split; [apply call7; vm_compute; reflexivity|]. apply C18_instance_plain.
Qed.
(* the last condition is needed: without random combination the assertion on constraints (ir_split.rs:291) fails otherwise *)
Example C43_constrained : validate _ c18_rc = true /\ match split_to_single_layer false c18_rc with None => true | Some _ => false end = true.
Proof. split; vm_compute; reflexivity. Qed.
Print Assumptions C43_split_total.
