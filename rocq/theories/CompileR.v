(* The steps of the compiler with errors told from panics (compile/mod.rs): Compile.v, where both are None, refined.
   An Err is what the program returns with `?`; a Panic is a failed assertion, index, unwrap or expect, or (of the optimisation loops only)
   running out of the model's fuel.  Step 3 is left to LayeredOpt.v: what follows it does not read the layered circuit. *)
From Verif Require Import Prelude Field InputMapping Expr Topo Ir IrFacts IrInst Hints Sim RemoveUnreachable ReassignDup AddBack FixedPoint DetectChains
  Builder HintExport FinalBuild MulFanout ExportConstraints SolveDuplicates IrSplit Layered LayeredOpt Layering Compile E2E.
Open Scope nat_scope.

(* an error returned to the caller unless b *)
Definition chk (b : bool) : Res unit := if b then Ok tt else Err.
(* a panic if there is no value *)
Definition unw {A} (o : option A) : Res A := match o with Some a => Ok a | None => Panic end.
Definition with_fuel (K : Config) (n : nat) : Config :=
  {| EMPTY := EMPTY K; random_combination := random_combination K; cross_layer := cross_layer K; costs := costs K; fuel := n |}.

Section CompileR.
  Context {F : Fld}.
  Variables (K : Config) (o : Options).
  Notation SR := (RootCircuit (SrcI F)). Notation HR := (RootCircuit (HnI F)). Notation LR := (RootCircuit (HlI F)).
  Notation DR := (RootCircuit (DestI F false)). Notation DS := (RootCircuit (DestI F true)).
  Notation "'let!' x := r 'in' b" := (rbind r (fun x => b)) (at level 200, x pattern, right associativity).

  (* compile/mod.rs:95-124 *)
  Definition r_step_1_source (rc : SR) : Res (SR * InputMapping) :=
    let! _ := chk (validate _ rc) in
    let! c0 := unw (lookup 0 (circuits rc)) in
    let im := im_identity (num_inputs c0) in
    let! r := unw (
      if 3 <=? opt_level o then let* rc1 := detect_chains rc in optimize_until_fixed_point (EMPTY K) s_eqb (src_pass K) (fuel K) rc1 im
      else if 1 <=? opt_level o then
        let* rc1 := detect_chains rc in let* r := remove_unreachable _ (EMPTY K) rc1 in let* im' := compose_in_place (EMPTY K) im (snd r) in Some (fst r, im')
      else Some (rc, im)) in
    let! _ := chk (validate _ (fst r)) in
    Ok r.
  (* compile/mod.rs:125-147 *)
  Definition r_step_1_hints (rc : SR) (im : InputMapping) : Res (HR * InputMapping) :=
    let! hn := hn_process rc in
    let! r := unw (opt_stage K o h_eqb hn im) in
    let! _ := chk (validate _ (fst r)) in
    Ok r.
  (* compile/mod.rs:149-215 *)
  Definition r_step_2_build (hl : LR) : Res (DR * InputMapping) :=
    let! c0 := unw (lookup 0 (circuits hl)) in
    let! r1 := unw (if 2 <=? opt_level o then optimize_until_fixed_point (EMPTY K) l_eqb (opt_pass (EMPTY K)) (fuel K) hl (im_identity (num_inputs c0))
                    else Some (hl, im_identity (num_inputs c0))) in
    let! _ := chk (validate _ (fst r1)) in
    let! d := fb_process (costs K) (fst r1) in
    let! r2 := unw (opt_stage K o d_eqb d (snd r1)) in
    let! _ := chk (validate _ (fst r2)) in
    let! d2 := match mul_fanout_limit o with
               | Some limit => let! r := unw (solve_mul_fanout_limit limit (fst r2)) in let! _ := chk (validate _ r) in Ok r
               | None => Ok (fst r2)
               end in
    if random_combination K then Ok (d2, snd r2)
    else
      let! r3 := unw (export_constraints d2) in
      let! r4 := unw (reassign_duplicates _ false r3) in
      let! r5 := unw (remove_unreachable _ (EMPTY K) r4) in
      let! im := unw (compose_in_place (EMPTY K) (snd r2) (snd r5)) in
      let! _ := chk (validate _ (fst r5)) in
      Ok (fst r5, im).
  (* compile/mod.rs:217-234 *)
  Definition r_step_2_single (p2 : DR) (im : InputMapping) : Res (DR * InputMapping) :=
    let! r := if cross_layer K then Ok (p2, im)
              else let! s := unw (split_to_single_layer (random_combination K) p2) in
                   let! _ := chk (validate _ s) in
                   unw (opt_stage K o d_eqb s im) in
    let! p3 := unw (if opt_level o =? 1 then reassign_duplicates _ true (fst r) else Some (fst r)) in
    Ok (p3, snd r).
  (* compile/mod.rs:236-261 *)
  Definition r_step_2_dest (p3 : DR) (im : InputMapping) : Res (DS * InputMapping) :=
    let! d := unw (solve_duplicates p3) in
    let! r := unw (opt_stage K o ds_eqb d im) in
    let! _ := chk (validate _ (fst r)) in
    let! _ := chk (has_inputs (fst r)) in
    Ok r.
  (* compile/mod.rs:295-312 *)
  Definition r_step_4 (rc : HR) (im : InputMapping) : Res (HR * InputMapping) :=
    let! _ := chk (validate _ rc) in
    unw (if 2 <=? opt_level o then optimize_until_fixed_point (EMPTY K) h_eqb (remove_unreachable _ (EMPTY K)) (fuel K) rc im else Some (rc, im)).
  (* compile/mod.rs:352-364: up to the hint-less circuit; returns the trace's first six values *)
  Definition r_front (rc : SR) : Res (SR * InputMapping * HR * InputMapping * LR * HR) :=
    let! _ := chk (options_ok o) in
    let! (s, sim) := r_step_1_source rc in
    let! (h, him) := r_step_1_hints s sim in
    let! (hl, x) := unw (remove_and_export_hints h) in
    let! _ := chk (validate _ x) in
    Ok (s, sim, h, him, hl, x).
  (* compile/mod.rs:366-373 *)
  Definition r_middle (hl : LR) : Res (DR * InputMapping * DR * InputMapping * DS * InputMapping * LCircuit F * InputMapping) :=
    let! (p2, im2) := r_step_2_build hl in
    let! (p3, im3) := r_step_2_single p2 im2 in
    let! (d, imd) := r_step_2_dest p3 im3 in
    let! (lc, iml) := unw (layer_compile (cross_layer K) (EMPTY K) (allow_input_reorder o) d) in
    Ok (p2, im2, p3, im3, d, imd, lc, iml).
  (* compile/mod.rs:379-407 *)
  Definition r_back (x : HR) (him imd iml : InputMapping) : Res (InputMapping * HR * HR * InputMapping * HR) :=
    let! im := unw (compose_in_place (EMPTY K) imd iml) in
    let! pl := unw (place_outputs K im x) in
    let! (s, sim) := r_step_4 pl him in
    let! ex := unw (add_back_removed_inputs _ (EMPTY K) sim s) in
    let! _ := chk (validate _ ex) in
    Ok (im, pl, s, sim, ex).
  (* compile/mod.rs:352-407, but for step 3 *)
  Definition r_compile (rc : SR) : Res (Trace (F := F) * HR) :=
    let! (s, sim, h, him, hl, x) := r_front rc in
    let! (p2, im2, p3, im3, d, imd, lc, iml) := r_middle hl in
    let! (im, pl, so, soim, ex) := r_back x him imd iml in
    Ok ({| t_src := s; t_src_im := sim; t_hn := h; t_hn_im := him; t_hl := hl; t_ex := x; t_p2 := p2; t_p2_im := im2; t_p3 := p3; t_p3_im := im3;
           t_dest := d; t_dest_im := imd; t_lc := lc; t_lc_im := iml; t_im := im; t_placed := pl; t_solver := so; t_solver_im := soim |}, ex).

  (* ------------------------------------------------------------ the values are those of Compile.v *)
  Lemma ok_bind {A B} (r : Res A) (k : A -> Res B) : ok (rbind r k) = obind (ok r) (fun a => ok (k a)).
  Proof. destruct r; reflexivity. Qed.
  Lemma ok_chk b : ok (chk b) = Compile.assert b.
  Proof. destruct b; reflexivity. Qed.
  Lemma ok_unw {A} (x : option A) : ok (unw x) = x.
  Proof. destruct x; reflexivity. Qed.
  Lemma ok_Ok {A} (a : A) : ok (Ok a) = Some a.
  Proof. reflexivity. Qed.
  Lemma obind_eq {A B} (x : option A) (f g : A -> option B) : (forall a, f a = g a) -> obind x f = obind x g.
  Proof. intros H. destruct x; cbn; auto. Qed.
  Ltac agree := repeat first [rewrite ok_bind, ?ok_chk, ?ok_unw; apply obind_eq; intros ?|rewrite ok_unw; reflexivity|reflexivity].
  Lemma source_agrees rc : ok (r_step_1_source rc) = step_1_source K o rc.
  Proof. unfold r_step_1_source, step_1_source. agree. Qed.
  Lemma hints_agrees rc im : ok (r_step_1_hints rc im) = step_1_hints K o rc im.
  Proof. unfold r_step_1_hints, step_1_hints. agree. Qed.
  Lemma build_agrees hl : ok (r_step_2_build hl) = step_2_build K o hl.
  Proof.
    unfold r_step_2_build, step_2_build. do 6 (rewrite ok_bind, ?ok_chk, ?ok_unw; apply obind_eq; intros ?). rewrite ok_bind. destruct (mul_fanout_limit o) as [l|].
    - rewrite ok_bind, ok_unw. assert (E : forall x, ok (rbind (chk (validate _ x)) (fun _ => Ok x)) = (let* _ := Compile.assert (validate (DestI F false) x) in Some x)) by (intros x; destruct (validate _ x); reflexivity).
      rewrite (obind_eq _ _ _ E). apply obind_eq. intros d2. destruct (random_combination K); [reflexivity|]. agree.
    - cbn [ok obind]. destruct (random_combination K); [reflexivity|]. agree.
  Qed.
  Lemma single_agrees p2 im : ok (r_step_2_single p2 im) = step_2_single K o p2 im.
  Proof.
    unfold r_step_2_single, step_2_single. rewrite ok_bind. destruct (cross_layer K); [cbn [ok obind]; agree|]. rewrite ok_bind, ok_unw.
    assert (E : forall s, ok (rbind (chk (validate _ s)) (fun _ => unw (opt_stage K o d_eqb s im))) = (let* _ := Compile.assert (validate (DestI F false) s) in opt_stage K o d_eqb s im)) by (intros s; destruct (validate _ s); [apply ok_unw|reflexivity]).
    rewrite (obind_eq _ _ _ E). apply obind_eq. intros r. agree.
  Qed.
  Lemma dest_agrees p3 im : ok (r_step_2_dest p3 im) = step_2_dest K o p3 im.
  Proof. unfold r_step_2_dest, step_2_dest. agree. Qed.
  Lemma four_agrees rc im : ok (r_step_4 rc im) = step_4 K o rc im.
  Proof. unfold r_step_4, step_4. agree. Qed.
  Lemma bind_ok {A B} (r : Res A) (k : A -> Res B) b : rbind r k = Ok b -> exists a, r = Ok a /\ k a = Ok b.
  Proof. destruct r; try discriminate. eauto. Qed.
  Lemma chk_ok b u : chk b = Ok u -> b = true.
  Proof. destruct b; [auto|discriminate]. Qed.
  Lemma unw_ok {A} (x : option A) a : unw x = Ok a -> x = Some a.
  Proof. destruct x; cbn; congruence. Qed.
  (* a compilation in the sense of Compile.v is a value returned here, and step 3 *)
  Theorem r_compile_agrees rc t ex lc : compiles K o rc t ex lc <-> r_compile rc = Ok (t, ex) /\ Step3 (opt_level o) (t_lc t) lc.
  Proof.
    split.
    - intros [A1 A2 A3 A4 A5 A6 A7 A8 A9 A10 A11 A12 A13 A14 A15]. split; [|exact A10].
      rewrite <- source_agrees in A2. rewrite <- hints_agrees in A3. rewrite <- build_agrees in A6. rewrite <- single_agrees in A7. rewrite <- dest_agrees in A8. rewrite <- four_agrees in A13. apply ok_some in A2, A3, A6, A7, A8, A13.
      unfold r_compile, r_front, r_middle, r_back. rewrite A1. cbn [chk rbind]. rewrite A2. cbn [rbind]. rewrite A3. cbn [rbind]. rewrite A4. cbn [unw rbind]. rewrite A5. cbn [chk rbind]. rewrite A6. cbn [rbind]. rewrite A7. cbn [rbind]. rewrite A8. cbn [rbind]. rewrite A9. cbn [unw rbind].
      rewrite A11. cbn [unw rbind]. rewrite A12. cbn [unw rbind]. rewrite A13. cbn [rbind]. rewrite A14. cbn [unw rbind]. rewrite A15. cbn [chk rbind]. destruct t; reflexivity.
    - intros [H S]. unfold r_compile in H. apply bind_ok in H. destruct H as [[[[[[s sim] h] him] hl] x] [H1 H]]. apply bind_ok in H. destruct H as [[[[[[[[p2 im2] p3] im3] d] imd] l] iml] [H2 H]]. apply bind_ok in H. destruct H as [[[[[im pl] so] soim] ex'] [H3 H]]. injection H as <- <-. cbn [t_lc] in S.
      unfold r_front in H1. apply bind_ok in H1. destruct H1 as [u [A1 H1]]. apply chk_ok in A1. apply bind_ok in H1. destruct H1 as [[s' sim'] [A2 H1]]. apply bind_ok in H1. destruct H1 as [[h' him'] [A3 H1]]. apply bind_ok in H1. destruct H1 as [[hl' x'] [A4 H1]]. apply unw_ok in A4. apply bind_ok in H1. destruct H1 as [u2 [A5 H1]]. apply chk_ok in A5. injection H1 as -> -> -> -> -> ->.
      unfold r_middle in H2. apply bind_ok in H2. destruct H2 as [[a b] [A6 H2]]. apply bind_ok in H2. destruct H2 as [[a1 b1] [A7 H2]]. apply bind_ok in H2. destruct H2 as [[a2 b2] [A8 H2]]. apply bind_ok in H2. destruct H2 as [[a3 b3] [A9 H2]]. apply unw_ok in A9. injection H2 as -> -> -> -> -> -> -> ->.
      unfold r_back in H3. apply bind_ok in H3. destruct H3 as [a [A11 H3]]. apply unw_ok in A11. apply bind_ok in H3. destruct H3 as [a1 [A12 H3]]. apply unw_ok in A12. apply bind_ok in H3. destruct H3 as [[a2 b2] [A13 H3]]. apply bind_ok in H3. destruct H3 as [a3 [A14 H3]]. apply unw_ok in A14. apply bind_ok in H3. destruct H3 as [u3 [A15 H3]]. apply chk_ok in A15. injection H3 as -> -> -> -> ->.
      assert (R : forall A (r : Res A) v, r = Ok v -> ok r = Some v) by (intros A r v ->; reflexivity).
      apply R in A2, A3, A6, A7, A8, A13. rewrite source_agrees in A2. rewrite hints_agrees in A3. rewrite build_agrees in A6. rewrite single_agrees in A7. rewrite dest_agrees in A8. rewrite four_agrees in A13.
      constructor; cbn; auto.
  Qed.
End CompileR.
