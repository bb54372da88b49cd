(* C40: the optimisation loops of the compiler (compile/mod.rs:59-77) end, at a circuit that none of their passes changes, and that behaves like the
   circuit they were given.  [fuel] is the number of rounds the model's loop may make: "for every fuel from some number on the loop returns the same
   result" is what it means for the loop of the code, which has no such bound, to end with that result. *)
From Verif Require Import Prelude Field InputMapping Zp Expr Topo Ir IrFacts IrInst Sim LocalPass DetectChains RemoveUnreachable ReassignDup FixedPoint Terminate Kinds Compile E2E E2ESteps HintExport PropIr PropPasses PropHn PropCompile.
Open Scope nat_scope.

Lemma irc_id F s : IRC_id (irc_of F s).
Proof. destruct s; [apply src_id|apply hn_id|apply hl_id|apply dest_id|apply dest_id]. Qed.

Section Respect.
  Context {F : Fld} (I : IRC F).
  Lemma neat_same (x y : RootCircuit I) : same_root I x y -> neat I x -> neat I y.
  Proof. intros [_ [_ H]] [A B]. split; [intros c0; rewrite <- H; apply A|]. intros id c v sub j co. rewrite <- !H. apply B. Qed.
  Lemma same_trans (x y z : RootCircuit I) : same_root I x y -> same_root I y z -> same_root I x z.
  Proof. intros [A1 [A2 A3]] [B1 [B2 B3]]. split; [congruence|]. split; [congruence|]. intros id. rewrite A3. apply B3. Qed.
End Respect.

Section Generic.
  Context {F : Fld} (I : IRC F) (EMPTY : nat).
  Variable eqb : RootCircuit I -> RootCircuit I -> bool.
  Hypothesis Heq : forall x y, eqb x y = true <-> same_root I x y.
  Variables (Q : Env F -> Prop) (Inv P : RootCircuit I -> Prop) (f : RootCircuit I -> option (RootCircuit I * InputMapping)).
  Hypothesis Hf : forall x y imy, wf_root I x -> small EMPTY x -> Inv x -> f x = Some (y, imy) -> Inv y /\ tied EMPTY Q x y imy.
  Hypothesis Hs : shrinks EMPTY I P f.
  (* the loop ends; its result is a fixed point and stands for the given circuit *)
  Lemma loop_good (rc : RootCircuit I) c0 : wf_root I rc -> Inv rc -> lookup 0 (circuits rc) = Some c0 -> num_inputs c0 <= EMPTY ->
    exists rounds rc' im, (forall fuel, rounds <= fuel -> optimize_until_fixed_point EMPTY eqb f fuel rc (im_identity (num_inputs c0)) = Some (rc', im)) /\
      (exists y z imz, wf_root I y /\ small EMPTY y /\ same_root I y rc' /\ f y = Some (z, imz) /\ same_root I z rc' /\ P z) /\ im_validate EMPTY im = true /\
      forall ins, length ins = num_inputs c0 -> exists ins', map_inputs EMPTY f0 im ins = Some ins' /\
        forall E outs verdict, (root_run I E rc ins outs verdict -> root_run I E rc' ins' outs verdict) /\ (Q E -> root_run I E rc' ins' outs verdict -> root_run I E rc ins outs verdict).
  Proof.
    intros W HI Hc0 HE. assert (Hsm : small EMPTY rc) by (intros c Hc; rewrite Hc0 in Hc; injection Hc as <-; auto).
    destruct (loop_ends EMPTY I eqb (fun x y => proj2 (Heq x y)) P f Hs rc (im_identity (num_inputs c0))) as [n [[rc' im] H]].
    { split; auto. split; [apply im_identity_good; auto|]. exists c0. split; auto. }
    exists n, rc', im. split; auto. specialize (H n (Nat.le_refl n)).
    set (Z := fun (x : RootCircuit I) (im : InputMapping) => wf_root I x /\ small EMPTY x /\ Inv x /\ tied EMPTY Q rc x im).
    assert (Hstep : forall x im0 y imy im', Z x im0 -> f x = Some (y, imy) -> compose_in_place EMPTY im0 imy = Some im' -> Z y im').
    { intros x im0 y imy im' [Wx [Sx [Ix Tx]]] Hy Hcm. destruct (Hs x Wx Sx) as [y' [imy' [P1 [P2 [P3 _]]]]]. rewrite Hy in P1. injection P1 as <- <-. destruct (Hf x y imy Wx Sx Ix Hy) as [Iy Ty].
      split; auto. split; [eapply small_next; eauto|]. split; auto. destruct (tied_trans EMPTY Q rc x y im0 imy Tx Ty) as [im2 [C1 C2]]. rewrite Hcm in C1. injection C1 as <-. auto. }
    assert (Hend : exists y z imz, wf_root I y /\ small EMPTY y /\ same_root I y rc' /\ f y = Some (z, imz) /\ same_root I z rc' /\ tied EMPTY Q rc rc' im).
    { assert (Z0 : Z rc (im_identity (num_inputs c0))) by (split; auto; split; auto; split; auto; apply tied_refl; auto).
      unfold optimize_until_fixed_point in H. apply obind_some in H. destruct H as [[y imy] [H1 H2]]. cbn [fst snd] in H2. destruct (eqb rc y) eqn:E.
      - injection H2 as <- <-. apply Heq in E. exists rc, y, imy. split; auto. split; auto. split; auto. split; auto. split; [repeat split|]. eapply tied_same_root; eauto. apply Z0.
      - apply obind_some in H2. destruct H2 as [im2 [H2 H3]]. pose proof (Hstep _ _ _ _ _ Z0 H1 H2) as Z1.
        destruct (opt_loop_inv EMPTY eqb f Z Hstep _ _ _ _ _ Z1 H3) as [[A1 [A2 [A3 A4]]] [z [imz [B1 B2]]]]. apply Heq in B2. exists rc', z, imz. split; auto. split; auto. split; [repeat split|]. split; auto. split; auto. apply same_sym; auto. }
    destruct Hend as [y [z [imz [E1 [E2 [E3 [E4 [E5 E6]]]]]]]]. split.
    { exists y, z, imz. repeat (split; auto). destruct (Hs y E1 E2) as [z' [imz' [P1 [_ [_ [P4 _]]]]]]. rewrite E4 in P1. injection P1 as <- <-. auto. }
    destruct E6 as [[T1 [T1' T1'']] [ca [cb [T2 [T3 [T4 [T5 T6]]]]]] T7 T8]. split; [apply im_validate_spec; [apply T1|auto]|].
    intros ins Hl. rewrite Hc0 in T2. injection T2 as <-. destruct (map_inputs_spec EMPTY f0 im ins T1) as [ins' [M _]]; [congruence|]. exists ins'. split; auto.
  Qed.
End Generic.

(* ------------------------------------------------------------ remove_unreachable, reassign_duplicate_sub_circuit_outputs *)
Lemma op_parts {F : Fld} (I : IRC F) (L : IRC_laws I) EMPTY (y z : RootCircuit I) imz : wf_root I y -> neat I y -> opt_pass EMPTY y = Some (z, imz) ->
  remove_unreachable I EMPTY y = Some (z, imz) /\ reassign_duplicates I false z = Some z.
Proof.
  intros W N H. unfold opt_pass in H. apply obind_some in H. destruct H as [[z1 im1] [K1 K2]]. cbn [fst snd] in K2. apply obind_some in K2. destruct K2 as [z' [K2 K3]]. injection K3 as -> ->.
  destruct (remove_unreachable_spec I L EMPTY y W) as [z2 [im2 [X1 [X2 _]]]]. rewrite K1 in X1. injection X1 as <- <-. pose proof (neat_ru I L EMPTY y z1 imz W N K1) as D.
  assert (R := ra_nothing I false z1 (wf_keys _ _ (wr_cs _ _ X2)) D). rewrite R in K2. injection K2 as <-. auto.
Qed.
(* compile/mod.rs:128-142, 158-168, 176-190, 218-230, 240-254 *)
Theorem C40_loop_terminates : forall F s EMPTY (eqb : RootCircuit (irc_of F s) -> RootCircuit (irc_of F s) -> bool) (rc : RootCircuit (irc_of F s)) c0,
  (forall x y, eqb x y = true <-> same_root _ x y) ->
  NoDup (keys (circuits rc)) -> validate _ rc = true -> lookup 0 (circuits rc) = Some c0 -> num_inputs c0 <= EMPTY ->
  exists rounds rc' im, (forall fuel, rounds <= fuel -> optimize_until_fixed_point EMPTY eqb (opt_pass EMPTY) fuel rc (im_identity (num_inputs c0)) = Some (rc', im)) /\
    (exists y z imz, same_root _ y rc' /\ remove_unreachable _ EMPTY y = Some (z, imz) /\ reassign_duplicates _ false z = Some z /\ same_root _ z rc') /\
    im_validate EMPTY im = true /\
    forall ins, length ins = num_inputs c0 -> exists ins', map_inputs EMPTY f0 im ins = Some ins' /\
      forall E outs verdict, (root_run _ E rc ins outs verdict -> root_run _ E rc' ins' outs verdict) /\
        (s <> Source -> env_answers s E -> root_run _ E rc' ins' outs verdict -> root_run _ E rc ins outs verdict).
Proof.
  intros F s EMPTY eqb rc c0 He Hk Hv Hc0 HE. set (Q := fun E : Env F => s <> Source /\ env_answers s E).
  destruct (loop_good (irc_of F s) EMPTY eqb He Q (fun _ => True) (neat (irc_of F s)) (opt_pass EMPTY)) with (rc := rc) (c0 := c0) as [n [rc' [im [A [[y [z [imz [B1 [B2 [B3 [B4 [B5 B6]]]]]]]] [C D]]]]]]; auto.
  - intros x y imy W Hs _ H. split; auto. destruct (opt_pass_tied EMPTY (irc_laws F s) Q x W Hs) as [y' [imy' [P1 [P2 P3]]]]; [intros E [Hs' HA]; apply (stage_total F s E x); auto|]. rewrite H in P1. injection P1 as <- <-. auto.
  - apply op_shrinks; [apply irc_laws|apply irc_id].
  - apply validate_wf_root; auto.
  - exists n, rc', im. split; auto. split; [|split; auto].
    + assert (N : neat _ y). { apply (neat_same _ z); auto. eapply same_trans; [exact B5|]. apply same_sym; auto. } destruct (op_parts _ (irc_laws F s) EMPTY y z imz B1 N B4) as [X1 X2]. eauto 8.
    + intros ins Hl. destruct (D ins Hl) as [ins' [M R]]. exists ins'. split; auto. intros E outs v. destruct (R E outs v) as [R1 R2]. split; auto. intros Hs HA. apply R2. split; auto.
Qed.
Print Assumptions C40_loop_terminates.

(* compile/mod.rs:318-324: the loop on the witness solver's circuit runs remove_unreachable only *)
Theorem C40_remove_unreachable_loop_terminates : forall F s EMPTY (eqb : RootCircuit (irc_of F s) -> RootCircuit (irc_of F s) -> bool) (rc : RootCircuit (irc_of F s)) c0,
  (forall x y, eqb x y = true <-> same_root _ x y) ->
  NoDup (keys (circuits rc)) -> validate _ rc = true -> lookup 0 (circuits rc) = Some c0 -> num_inputs c0 <= EMPTY ->
  exists rounds rc' im, (forall fuel, rounds <= fuel -> optimize_until_fixed_point EMPTY eqb (remove_unreachable _ EMPTY) fuel rc (im_identity (num_inputs c0)) = Some (rc', im)) /\
    (exists y z imz, same_root _ y rc' /\ remove_unreachable _ EMPTY y = Some (z, imz) /\ same_root _ z rc') /\
    im_validate EMPTY im = true /\
    forall ins, length ins = num_inputs c0 -> exists ins', map_inputs EMPTY f0 im ins = Some ins' /\
      forall E outs verdict, (root_run _ E rc ins outs verdict -> root_run _ E rc' ins' outs verdict) /\
        (s <> Source -> env_answers s E -> root_run _ E rc' ins' outs verdict -> root_run _ E rc ins outs verdict).
Proof.
  intros F s EMPTY eqb rc c0 He Hk Hv Hc0 HE. set (Q := fun E : Env F => s <> Source /\ env_answers s E).
  destruct (loop_good (irc_of F s) EMPTY eqb He Q (fun _ => True) (fun _ => True) (remove_unreachable _ EMPTY)) with (rc := rc) (c0 := c0) as [n [rc' [im [A [[y [z [imz [B1 [B2 [B3 [B4 [B5 B6]]]]]]]] [C D]]]]]]; auto.
  - intros x y imy W Hs _ H. split; auto. destruct (ru_pass_tied EMPTY (irc_laws F s) Q x W Hs) as [y' [imy' [P1 [P2 [_ [_ [_ P3]]]]]]]; [intros E [Hs' HA]; apply (stage_total F s E x); auto|]. unfold ru_pass in P1. rewrite H in P1. injection P1 as <- <-. auto.
  - apply ru_shrinks; [apply irc_laws|apply irc_id].
  - apply validate_wf_root; auto.
  - exists n, rc', im. split; auto. split; [|split; auto]; [eauto 8|].
    intros ins Hl. destruct (D ins Hl) as [ins' [M R]]. exists ins'. split; auto. intros E outs v. destruct (R E outs v) as [R1 R2]. split; auto. intros Hs HA. apply R2. split; auto.
Qed.
Print Assumptions C40_remove_unreachable_loop_terminates.

(* ------------------------------------------------------------ the loop on the source circuit *)
Section Src.
  Context {F : Fld}.
  Notation SI := (SrcI F).
  Lemma dc_reads (c c' : Circuit SI) vid cnt x : outputs c' = outputs c -> constraints c' = constraints c -> DetectChains.Inv (num_inputs c) (observed c) (instructions c) vid cnt (instructions c') -> reads SI c' x -> reads SI c x.
  Proof.
    intros Ho Hk HI [[i [Hi Hx]]|[Hr|Hr]]; [|right; left; rewrite <- Hk; auto|right; right; rewrite <- Ho; auto].
    pose proof (inv_mono _ _ _ _ _ _ HI x) as Hm. unfold uses in Hm.
    assert (H1 : 0 < count_occ Nat.eq_dec (flat_map (s_inputs F) (instructions c') ++ observed c) x). { apply count_occ_In. apply in_or_app. left. apply in_flat_map. exists i. auto. }
    assert (H2 : In x (flat_map (s_inputs F) (instructions c) ++ observed c)) by (apply (count_occ_In Nat.eq_dec); lia). apply in_app_or in H2. destruct H2 as [H2|H2].
    - apply in_flat_map in H2. destruct H2 as [i0 [A B]]. left. exists i0. auto.
    - unfold observed in H2. apply in_app_or in H2. destruct H2 as [H2|H2]; [right; right; auto|]. apply in_map_iff in H2. destruct H2 as [k [A B]]. right; left. exists k. auto.
  Qed.
  Lemma sh_split (l l' : list (SInsn F)) : Forall2 sh l l' -> forall a i b, l' = a ++ i :: b -> exists a0 i0 b0, l = a0 ++ i0 :: b0 /\ sh i0 i /\ nouts SI a0 = nouts SI a.
  Proof.
    induction 1 as [|x y l l' Hxy H IH]; intros [|z a] i b E; cbn [app] in E; try discriminate; injection E as <- E.
    - exists [], x, l. auto.
    - destruct (IH a i b E) as [a0 [i0 [b0 [-> [A B]]]]]. exists (x :: a0), i0, b0. split; auto. split; auto. cbn [nouts]. destruct Hxy as [Hn _]. change (i_nout (i := SI) x) with (s_nout F x). change (i_nout (i := SI) y) with (s_nout F y). lia.
  Qed.
  Lemma dc_call_out (c c' : Circuit SI) x sub j : num_inputs c' = num_inputs c -> Forall2 sh (instructions c) (instructions c') -> call_out SI c' x sub j -> call_out SI c x sub j.
  Proof.
    intros Hn Hs [a [i [b [l [n [E [Ec [Hj ->]]]]]]]]. destruct (sh_split _ _ Hs a i b E) as [a0 [i0 [b0 [E0 [[_ [Hc _]] Hno]]]]]. exists a0, i0, b0, l, n. split; auto. split; [cbn [SI i_call] in *; congruence|]. split; [exact Hj|]. rewrite Hn, Hno. auto.
  Qed.
  Lemma dc_neat (rc rc' : RootCircuit SI) : wf_root SI rc -> neat SI rc -> detect_chains rc = Some rc' -> neat SI rc'.
  Proof.
    intros W [N0 N] H. destruct (detect_chains_spec rc W) as [r [D1 [_ [_ [_ [D2 _]]]]]]. rewrite H in D1. injection D1 as <-.
    assert (G : forall id c', lookup id (circuits rc') = Some c' -> exists c, lookup id (circuits rc) = Some c /\ outputs c' = outputs c /\ (forall x, reads SI c' x -> reads SI c x) /\ forall x sub j, call_out SI c' x sub j -> call_out SI c x sub j).
    { intros id c' Hc'. destruct (D2 id c' Hc') as [c [Hc [Hd _]]]. destruct (dc_circuit_spec c (wf_each _ _ (wr_cs _ _ W) _ _ Hc)) as [c2 [E2 [Hn [Ho [Hk [_ [vid [cnt HI]]]]]]]]. rewrite Hd in E2. injection E2 as <-.
      exists c. split; auto. split; auto. split; [intros x; eapply dc_reads; eauto|]. intros x sub j. apply dc_call_out; auto. apply (inv_sh _ _ _ _ _ _ HI). }
    split.
    - intros c0' Hc0. destruct (G 0 c0' Hc0) as [c [A [B _]]]. rewrite B. eapply N0; eauto.
    - intros id c' x sub j co' Hc' Hr Hx Hco. destruct (G id c' Hc') as [c [A [_ [B1 B2]]]]. destruct (G sub co' Hco) as [co [C1 [C2 _]]]. rewrite C2. apply (N id c x sub j co); auto.
  Qed.
  Lemma isize_parts (is : list (SInsn F)) : isize SI is = length is + nouts SI is + tot is.
  Proof. unfold isize, tot. induction is as [|i is IH]; [reflexivity|]. rewrite sum_cons, IH. cbn [length nouts flat_map]. rewrite app_length. change (i_inputs (i := SI) i) with (s_inputs F i). lia. Qed.
  Lemma dc_csize (c c' : Circuit SI) : wf_circuit SI c -> dc_circuit c = Some c' -> csize SI c' <= csize SI c /\ (csize SI c' = csize SI c -> c' = c).
  Proof.
    intros W H. destruct (dc_circuit_spec c W) as [c2 [E2 [Hn [Ho [Hk [Ht [vid [cnt HI]]]]]]]]. rewrite H in E2. injection E2 as <-. destruct Ht as [->|Ht]; [auto|].
    pose proof (inv_sh _ _ _ _ _ _ HI) as Hs. unfold csize. rewrite Hn, Ho. pose proof (isize_parts (instructions c)) as P1. pose proof (isize_parts (instructions c')) as P2. pose proof (sh_all_nouts _ _ Hs) as P3. assert (P4 : length (instructions c) = length (instructions c')) by (clear -Hs; induction Hs; cbn; auto). clear -P1 P2 P3 P4 Ht.
    cbn [SrcI Insn] in *. set (a1 := isize SI (instructions c)) in *. set (a2 := isize SI (instructions c')) in *. rewrite P1, P2, P3, P4. split; lia.
  Qed.
  Lemma dc_smaller (rc rc' : RootCircuit SI) : wf_root SI rc -> detect_chains rc = Some rc' -> rsize SI rc' <= rsize SI rc /\ (rsize SI rc' = rsize SI rc -> rc' = rc).
  Proof.
    intros W H. unfold detect_chains, local_pass in H. apply obind_some in H. destruct H as [cs' [H H2]]. injection H2 as <-. unfold rsize. cbn [circuits].
    assert (Hw : forall p, In p (circuits rc) -> wf_circuit SI (snd p)). { intros [id c] Hp. apply (wf_each _ _ (wr_cs _ _ W) id). apply In_lookup; auto. apply (wf_keys _ _ (wr_cs _ _ W)). }
    assert (G : sum (fun p : nat * Circuit SI => csize SI (snd p)) cs' <= sum (fun p : nat * Circuit SI => csize SI (snd p)) (circuits rc) /\ (sum (fun p : nat * Circuit SI => csize SI (snd p)) cs' = sum (fun p : nat * Circuit SI => csize SI (snd p)) (circuits rc) -> cs' = circuits rc)).
    { clear W. unfold local_circuits in H. revert cs' H Hw. generalize (circuits rc). induction l as [|[id c] l IH]; intros cs' H Hw; cbn [omap] in H; [injection H as <-; auto|].
      apply obind_some in H. destruct H as [[id2 c2] [H1 H]]. cbn [fst snd] in H1. apply obind_some in H1. destruct H1 as [c3 [H3 H4]]. injection H4 as -> ->. apply obind_some in H. destruct H as [r [H5 H6]]. injection H6 as <-.
      destruct (IH r H5) as [I1 I2]; [intros p Hp; apply Hw; right; auto|]. destruct (dc_csize c c2 (Hw (id2, c) (or_introl eq_refl)) H3) as [J1 J2]. rewrite !sum_cons. cbn [snd]. split; [lia|]. intros He. rewrite J2, I2 by lia. auto. }
    destruct G as [G1 G2]. split; auto. intros He. rewrite (G2 He). destruct rc; auto.
  Qed.
  Lemma src_tied (K : Config) (Q : Env F -> Prop) (P : SInsn F -> Prop) (z z' : RootCircuit SI) imz : ipred SI P -> (forall l, P (SLin l)) -> (forall l, P (SMul l)) -> (forall z E, holds SI P z -> Q E -> total SI E (circuits z)) ->
    wf_root SI z -> small (EMPTY K) z -> holds SI P z -> src_pass K z = Some (z', imz) -> wf_root SI z' /\ holds SI P z' /\ tied (EMPTY K) Q z z' imz.
  Proof.
    intros HP Hlin Hmul HT Wz Sz Iz Hz. unfold src_pass in Hz. apply obind_some in Hz. destruct Hz as [[z1 im1] [Z1 Z2]]. cbn [fst snd] in Z2. apply obind_some in Z2. destruct Z2 as [z2 [Z2 Z3]]. injection Z3 as -> ->.
    destruct (op_stage (EMPTY K) (SrcL F) Q z z1 imz Wz Sz (fun E => HT z E Iz) Z1) as [A1 [A2 A3]]. pose proof (op_holds (EMPTY K) (I := SI) P z z1 imz HP Z1 Iz) as A4.
    destruct (detect_chains_spec z1 A1) as [w [C1 [C2 [C3 [C4 [_ [C6 C7]]]]]]]. rewrite Z2 in C1. injection C1 as <-. split; auto. split; [apply (dc_holds P Hlin Hmul z1 z' A1 Z2 A4)|].
    destruct A3 as [T1 [ca [cb [T2 [T3 [T4 [T5 T6]]]]]] T7 T8]. destruct (C6 0 cb T3) as [cc [D1 [_ [_ [D2 [D3 _]]]]]]. split; auto.
    * exists ca, cc. repeat (split; auto); congruence.
    * congruence.
    * intros ins ins' Hm E outs b. destruct (T8 ins ins' Hm E outs b) as [U1 U2]. split; [intros; apply C7; auto|intros HQ Hr; apply U2; auto; apply C7; auto].
  Qed.
  Lemma src_shrinks (K : Config) : shrinks (EMPTY K) SI (neat SI) (src_pass K).
  Proof.
    intros x W Hs. destruct (op_shrinks (EMPTY K) SI (SrcL F) (src_id F) x W Hs) as [y [imy [H1 [H2 [H3 [H4 H5]]]]]]. destruct (detect_chains_spec y H2) as [z [D1 _]].
    assert (Hz : src_pass K x = Some (z, imy)) by (unfold src_pass; rewrite H1; cbn [obind fst snd]; rewrite D1; auto). exists z, imy. split; auto.
    destruct (src_tied K (fun _ => False) (fun _ => True) x z imy) as [A [_ B]]; auto; [split; auto|intros ? ? _ []|intros id c Hc; apply Forall_forall; auto|]. split; [exact A|]. split; [exact B|]. split; [exact (dc_neat y z H2 H4 D1)|].
    intros N. destruct (H5 N) as [M1 M2]. destruct (dc_smaller y z H2 D1) as [M3 M4]. split; [lia|]. intros He. rewrite M4 by lia. apply M2. lia.
  Qed.
End Src.
(* compile/mod.rs:104-113: the three passes of the loop at level 3.  The converse of "every run is kept" needs that the instructions always have
   results: what a division or a bit decomposition checks is dropped with it when its result is not used (C04). *)
Theorem C40_source_loop_terminates : forall F (K : Config) (rc : RootCircuit (SrcI F)) c0,
  NoDup (keys (circuits rc)) -> validate _ rc = true -> lookup 0 (circuits rc) = Some c0 -> num_inputs c0 <= EMPTY K ->
  exists rounds rc' im, (forall fuel, rounds <= fuel -> optimize_until_fixed_point (EMPTY K) s_eqb (src_pass K) fuel rc (im_identity (num_inputs c0)) = Some (rc', im)) /\
    (exists y z imz, same_root _ y rc' /\ remove_unreachable _ (EMPTY K) y = Some (z, imz) /\ reassign_duplicates _ false z = Some z /\ detect_chains z = Some z /\ same_root _ z rc') /\
    im_validate (EMPTY K) im = true /\
    forall ins, length ins = num_inputs c0 -> exists ins', map_inputs (EMPTY K) f0 im ins = Some ins' /\
      forall E outs verdict, (root_run _ E rc ins outs verdict -> root_run _ E rc' ins' outs verdict) /\
        (all_insns plain rc = true -> (forall r, e_rnd E r) -> root_run _ (adv E) rc' ins' outs verdict -> root_run _ (adv E) rc ins outs verdict).
Proof.
  intros F K rc c0 Hk Hv Hc0 HE. pose proof (validate_wf_root _ rc Hk Hv) as W.
  set (Q := fun E' : Env F => all_insns plain rc = true /\ exists E0 : Env F, E' = adv E0 /\ forall r, e_rnd E0 r). set (PI := fun i : SInsn F => all_insns plain rc = true -> PropCompile.plain i = true).
  assert (HP : ipred (SrcI F) PI). { destruct (plain_ipred (F := F)) as [A B C]. split; [intros f i Hi Hp; apply A; auto|intros x k b Hp; apply B|intros i id l n l0 n0 Hi Ec Hp; exact (C i id l n l0 n0 (Hi Hp) Ec)]. }
  assert (HT : forall z E, holds (SrcI F) PI z -> Q E -> total (SrcI F) E (circuits z)). { intros z E' Hz [Hp [E0 [-> HE0]]]. apply plain_total; auto. intros id c Hc. eapply Forall_impl; [|apply (Hz id c Hc)]. intros i Hi. auto. }
  destruct (loop_good (SrcI F) (EMPTY K) s_eqb (root_eqb_spec _ _ _) Q (holds (SrcI F) PI) (neat (SrcI F)) (src_pass K)) with (rc := rc) (c0 := c0) as [n [rc' [im [A [[y [z [imz [B1 [B2 [B3 [B4 [B5 B6]]]]]]]] [C D]]]]]]; auto.
  - intros x y imy Wx Hs Hi H. apply (src_tied K Q PI x y imy) in H; auto; try (intros l _; reflexivity). tauto.
  - apply src_shrinks.
  - intros id c Hc. apply Forall_forall. intros i Hi Hp. pose proof (holds_all _ _ Hp id c Hc) as Hf. rewrite Forall_forall in Hf. auto.
  - exists n, rc', im. split; auto. split; [|split; auto].
    + assert (Hyz : same_root _ z y) by (eapply same_trans; [exact B5|apply same_sym; auto]). pose proof (neat_same _ _ _ Hyz B6) as N.
      destruct (src_shrinks K y B1 B2) as [z' [imz' [S1 [S2 [S3 [S4 S5]]]]]]. rewrite B4 in S1. injection S1 as <- <-.
      unfold src_pass in B4. apply obind_some in B4. destruct B4 as [[z1 im1] [Z1 Z2]]. cbn [fst snd] in Z2. apply obind_some in Z2. destruct Z2 as [z2 [Z2 Z3]]. injection Z3 as -> ->.
      destruct (op_parts _ (SrcL F) (EMPTY K) y z1 imz B1 N Z1) as [X1 X2]. assert (W1 : wf_root _ z1) by (destruct (remove_unreachable_spec _ (SrcL F) (EMPTY K) y B1) as [w [imw [Y1 [Y2 _]]]]; rewrite X1 in Y1; injection Y1 as <- <-; auto).
      destruct (ru_smaller _ (SrcL F) (src_id F) (EMPTY K) y z1 imz B1 X1) as [M1 M2]. destruct (dc_smaller z1 z W1 Z2) as [M3 M4].
      assert (Hsz : rsize (SrcI F) z = rsize (SrcI F) y).
      { apply Nat.le_antisymm; [lia|]. destruct (S5 N) as [T1 T2]. assert (Hnd : forall w : RootCircuit (SrcI F), wf_root _ w -> NoDup (circuits w)) by (intros w Ww; apply NoDup_keys; apply (wf_keys _ _ (wr_cs _ _ Ww))).
        apply (sum_incl (fun p : nat * Circuit (SrcI F) => csize (SrcI F) (snd p))); [intros p; unfold csize; lia|apply Hnd; auto|]. intros [id c] Hi. apply lookup_In. destruct Hyz as [_ [_ Hyz]]. rewrite Hyz. apply In_lookup; auto. apply (wf_keys _ _ (wr_cs _ _ B1)). }
      assert (z = z1) by (apply M4; lia). subst z1. exists y, z, imz. auto 8.
    + intros ins Hl. destruct (D ins Hl) as [ins' [M R]]. exists ins'. split; auto. intros E outs v. split; [apply R|]. intros Hp HR. apply R. split; auto. exists E. auto.
Qed.
Print Assumptions C40_source_loop_terminates.

(* the number of rounds allowed does not matter once the loop ends within it *)
Theorem C40_more_rounds_change_nothing : forall T EMPTY (eqb : T -> T -> bool) f fuel fuel' x im r, fuel <= fuel' ->
  optimize_until_fixed_point EMPTY eqb f fuel x im = Some r -> optimize_until_fixed_point EMPTY eqb f fuel' x im = Some r.
Proof.
  intros T EMPTY eqb f.
  assert (G : forall fuel fuel' x im r, fuel <= fuel' -> opt_loop EMPTY eqb f fuel x im = Some r -> opt_loop EMPTY eqb f fuel' x im = Some r).
  { induction fuel as [|n IH]; intros [|n'] x im r Hn H; try (discriminate || lia). cbn [opt_loop] in *. destruct (f x) as [[y imy]|]; [|discriminate]. cbn [obind fst snd] in *. destruct (eqb x y); auto.
    destruct (compose_in_place EMPTY im imy) as [im'|]; [|discriminate]. cbn [obind] in *. apply (IH n'); auto. lia. }
  intros fuel fuel' x im r Hn H. unfold optimize_until_fixed_point in *. destruct (f x) as [[y imy]|]; [|discriminate]. cbn [obind fst snd] in *. destruct (eqb x y); auto. destruct (compose_in_place EMPTY im imy) as [im'|]; [|discriminate]. cbn [obind] in *. eauto.
Qed.
Print Assumptions C40_more_rounds_change_nothing.

(* A source circuit on which the loop makes several rounds: circuit 1 returns the same product twice, so the second copy is read no more after the first
   round and disappears in the second; the additions 3x + (2y + 1) become one; input 3 is never used. *)
Definition c40_rc : RootCircuit (SrcI F7) :=
  {| num_public_inputs := 0; expected_num_output_zeroes := 0;
     circuits := [(0, {| instructions := [SCall 1 [1; 2] 2; SLin {| lc_terms := [(4, fz 2)]; lc_const := fz 1 |}; SLin {| lc_terms := [(5, fz 3); (6, fz 1)]; lc_const := fz 0 |}] : list (Insn (SrcI F7));
                         constraints := [(TZero, 7)] : list (Con (SrcI F7)); outputs := [7; 5]; num_inputs := 3 |});
                  (1, {| instructions := [SMul [1; 2]] : list (Insn (SrcI F7)); constraints := []; outputs := [3; 3]; num_inputs := 2 |})] |}.
Definition c40_K (n : nat) : Config := {| EMPTY := 99; random_combination := true; cross_layer := false; costs := {| FinalBuild.COST_VARIABLE := 1; FinalBuild.COST_MUL := 1; FinalBuild.COST_ADD := 1; FinalBuild.COST_CONST := 1 |}; fuel := n |}.
Example C40_instance : NoDup (keys (circuits c40_rc)) /\ validate _ c40_rc = true /\
  map (fun n => option_map (fun r => (mapping (snd r), map (fun p => (fst p, num_inputs (snd p), length (instructions (snd p)), outputs (snd p))) (circuits (fst r))))
    (optimize_until_fixed_point 99 s_eqb (src_pass (c40_K 0)) n c40_rc (im_identity 3))) [0; 1; 2; 3; 9]
  = [None; None; Some ([0; 1; 99], [(1, 2, 1, [3]); (0, 2, 2, [4; 3])]); Some ([0; 1; 99], [(1, 2, 1, [3]); (0, 2, 2, [4; 3])]); Some ([0; 1; 99], [(1, 2, 1, [3]); (0, 2, 2, [4; 3])])].
Proof. split; [repeat constructor; cbn; intuition discriminate|]. split; vm_compute; reflexivity. Qed.
