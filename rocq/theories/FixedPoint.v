(* Model of the optimisation loop (compile/mod.rs:59-77) and of the composition of passes with their input mappings. *)
From Verif Require Import Prelude Field InputMapping Expr Topo Ir IrFacts IrInst Sim RemoveUnreachable ReassignDup AddBack.

Section ImGood.
  Variable EMPTY : nat.
  (* every kept input goes to its own position, every position is filled *)
  Definition im_good (im : InputMapping) : Prop := in_range EMPTY im /\ injective EMPTY im /\ im_onto EMPTY im.

  Lemma im_identity_good n : n <= EMPTY -> im_good (im_identity n).
  Proof.
    intros H. split; [|split].
    - split; [exact H|]. cbn. apply Forall_forall. intros t Ht. apply in_seq in Ht. right. cbn. lia.
    - intros i j t Hi Hj _. cbn in Hi, Hj. assert (i < n) by (apply nth_error_Some_lt in Hi; rewrite seq_length in Hi; auto). assert (j < n) by (apply nth_error_Some_lt in Hj; rewrite seq_length in Hj; auto).
      rewrite nth_error_seq in Hi, Hj by auto. injection Hi as <-. injection Hj as Hj. lia.
    - intros j Hj. cbn in *. apply in_seq. lia.
  Qed.
  Lemma mask_mapping_in m : forall cur t, In t (mask_mapping EMPTY m cur) -> t = EMPTY \/ cur <= t < cur + ntrue m.
  Proof.
    induction m as [|[] m IH]; intros cur t H; cbn [mask_mapping] in H; [destruct H| |].
    - change (ntrue (true :: m)) with (S (ntrue m)). destruct H as [<-|H]; [lia|]. apply IH in H. lia.
    - change (ntrue (false :: m)) with (ntrue m). destruct H as [<-|H]; auto.
  Qed.
  Lemma mask_mapping_onto m : forall cur t, cur <= t < cur + ntrue m -> In t (mask_mapping EMPTY m cur).
  Proof.
    induction m as [|[] m IH]; intros cur t H; cbn [mask_mapping].
    - unfold ntrue in H; cbn in H; lia.
    - change (ntrue (true :: m)) with (S (ntrue m)) in H. destruct (Nat.eq_dec cur t); [left; auto|right; apply IH; lia].
    - change (ntrue (false :: m)) with (ntrue m) in H. right. apply IH; auto.
  Qed.
  Lemma mask_mapping_inj m : forall cur i j t, nth_error (mask_mapping EMPTY m cur) i = Some t -> nth_error (mask_mapping EMPTY m cur) j = Some t -> t <> EMPTY -> i = j.
  Proof.
    induction m as [|[] m IH]; intros cur i j t Hi Hj Ht; cbn [mask_mapping] in *.
    - destruct i; discriminate.
    - destruct i as [|i], j as [|j]; auto; cbn in Hi, Hj.
      + injection Hi as <-. apply nth_error_In in Hj. apply mask_mapping_in in Hj. lia.
      + injection Hj as <-. apply nth_error_In in Hi. apply mask_mapping_in in Hi. lia.
      + f_equal. eauto.
    - destruct i as [|i], j as [|j]; auto; cbn in Hi, Hj; try congruence. f_equal. eauto.
  Qed.
  Lemma mask_good m : ntrue m <= EMPTY -> im_good {| next_size := ntrue m; mapping := mask_mapping EMPTY m 0 |}.
  Proof.
    intros H. split; [|split].
    - split; [exact H|]. cbn. apply Forall_forall. intros t Ht. apply mask_mapping_in in Ht. lia.
    - intros i j t. cbn. apply mask_mapping_inj.
    - intros j Hj. cbn in *. apply mask_mapping_onto. lia.
  Qed.
  Lemma compose_good a b : im_good a -> im_good b -> cur_size b = next_size a ->
    exists c, compose_in_place EMPTY a b = Some c /\ im_good c /\ cur_size c = cur_size a /\ next_size c = next_size b /\
      forall T (d : T) ins, length ins = cur_size a -> exists mid r, map_inputs EMPTY d a ins = Some mid /\ map_inputs EMPTY d b mid = Some r /\ map_inputs EMPTY d c ins = Some r.
  Proof.
    intros [Ra [Ia Oa]] [Rb [Ib Ob]] Hs.
    destruct (compose_spec EMPTY 0 a b (repeat 0 (cur_size a)) Ra Rb Ib Hs (repeat_length _ _)) as [c [_ [_ [Hc _]]]].
    rewrite compose_in_place_eq. exists c. split; auto.
    pose proof Hc as Hc'. unfold compose in Hc'. apply obind_some in Hc'. destruct Hc' as [ms [Hms E]]. injection E as <-. cbn [next_size].
    apply omap_some in Hms. pose proof (Forall2_len _ _ _ Hms) as Hlen.
    split; [|split; [unfold cur_size; cbn; auto|split; auto]].
    - destruct Rb as [RbE Rb]. split; [|split].
      + split; auto. cbn [mapping next_size]. clear -Hms Rb. induction Hms as [|m t l l' Hmt Hms IH]; constructor; auto.
        destruct (m =? EMPTY); [left; congruence|]. apply nth_error_In in Hmt. rewrite Forall_forall in Rb; auto.
      + intros i j t Hi Hj Ht. cbn [mapping] in Hi, Hj.
        assert (G : forall i, nth_error ms i = Some t -> exists m, nth_error (mapping a) i = Some m /\ m <> EMPTY /\ nth_error (mapping b) m = Some t).
        { intros k Hk. destruct (nth_error_Some_ex (mapping a) k) as [m Hm]; [rewrite Hlen; eapply nth_error_Some_lt; eauto|].
          destruct (Forall2_nth_error _ _ _ Hms _ _ Hm) as [t' [A B]]. exists m. split; auto. rewrite Hk in A. injection A as <-. destruct (Nat.eqb_spec m EMPTY); [congruence|]. auto. }
        destruct (G i Hi) as [m [A [B C]]]. destruct (G j Hj) as [m' [A' [B' C']]]. assert (m = m') as <- by (eapply Ib; eauto). eapply Ia; eauto.
      + intros j Hj. cbn [next_size mapping] in *. specialize (Ob j Hj). apply In_nth_error in Ob. destruct Ob as [k Hk].
        assert (Hka : k < next_size a) by (apply nth_error_Some_lt in Hk; unfold cur_size in Hs; lia).
        specialize (Oa k Hka). apply In_nth_error in Oa. destruct Oa as [i Hi]. destruct (Forall2_nth_error _ _ _ Hms _ _ Hi) as [t [A B]].
        destruct Ra as [RaE _]. destruct (Nat.eqb_spec k EMPTY); [lia|]. rewrite Hk in B. injection B as <-. eapply nth_error_In; eauto.
    - intros T d ins Hl. destruct (compose_spec EMPTY d a b ins Ra (conj (proj1 Rb) (proj2 Rb)) Ib Hs Hl) as [c [mid [r [H1 [H2 [H3 H4]]]]]].
      rewrite Hc in H1. injection H1 as <-. eauto.
  Qed.
  Lemma im_ext {T} (d : T) a ins : im_good a -> length ins = cur_size a -> exists r, map_inputs EMPTY d a ins = Some r /\ length r = next_size a.
  Proof. intros [R _] Hl. destruct (map_inputs_spec EMPTY d a ins R Hl) as [r [H1 [H2 _]]]. eauto. Qed.
  (* a mask that keeps everything is the identity *)
  Lemma mask_all m : ntrue m = length m -> forall cur, mask_mapping EMPTY m cur = seq cur (length m).
  Proof.
    assert (Hle : forall m, ntrue m <= length m). { intros l. unfold ntrue. induction l as [|[] l IHl]; cbn; lia. }
    induction m as [|[] m IH]; intros H cur; cbn [mask_mapping length seq]; auto.
    - f_equal. apply IH. change (ntrue (true :: m)) with (S (ntrue m)) in H. cbn in H. lia.
    - change (ntrue (false :: m)) with (ntrue m) in H. cbn in H. specialize (Hle m). lia.
  Qed.
End ImGood.

Section Loop.
  Variable EMPTY : nat.
  Context {T : Type}.
  Variable eqb : T -> T -> bool.               (* derived Eq *)
  Variable f : T -> option (T * InputMapping). (* None = panic *)
  (* compile/mod.rs:69-76; None: a panic, or the loop has not ended within [fuel] rounds *)
  Fixpoint opt_loop (fuel : nat) (y : T) (im : InputMapping) : option (T * InputMapping) :=
    match fuel with
    | 0 => None
    | S fuel => let* r := f y in
        if eqb y (fst r) then Some (y, im)
        else let* im' := compose_in_place EMPTY im (snd r) in opt_loop fuel (fst r) im'
    end.
  (* compile/mod.rs:59-68 *)
  Definition optimize_until_fixed_point (fuel : nat) (x : T) (im : InputMapping) : option (T * InputMapping) :=
    let* r := f x in
    if eqb x (fst r) then Some (fst r, im)
    else let* im' := compose_in_place EMPTY im (snd r) in opt_loop fuel (fst r) im'.

  (* an invariant kept by the rounds holds at the end, and the end is a fixed point *)
  Lemma opt_loop_inv (Inv : T -> InputMapping -> Prop) :
    (forall x im y imy im', Inv x im -> f x = Some (y, imy) -> compose_in_place EMPTY im imy = Some im' -> Inv y im') ->
    forall fuel x im y im', Inv x im -> opt_loop fuel x im = Some (y, im') -> Inv y im' /\ exists z imz, f y = Some (z, imz) /\ eqb y z = true.
  Proof.
    intros Hs. induction fuel as [|fuel IH]; intros x im y im' Hi H; [discriminate|]. cbn [opt_loop] in H. apply obind_some in H. destruct H as [[z imz] [H1 H2]]. cbn [fst snd] in H2.
    destruct (eqb x z) eqn:E.
    - injection H2 as <- <-. split; auto. eauto.
    - apply obind_some in H2. destruct H2 as [im2 [H2 H3]]. eapply IH; [|exact H3]. eapply Hs; eauto.
  Qed.
  Lemma optimize_inv (Inv : T -> InputMapping -> Prop) (same : T -> T -> Prop) :
    (forall x y, eqb x y = true -> same x y) -> (forall x, same x x) ->
    (forall x im y, Inv x im -> (exists imy, f x = Some (y, imy)) -> same x y -> Inv y im) ->
    (forall x im y imy im', Inv x im -> f x = Some (y, imy) -> compose_in_place EMPTY im imy = Some im' -> Inv y im') ->
    forall fuel x im y im', Inv x im -> optimize_until_fixed_point fuel x im = Some (y, im') ->
      Inv y im' /\ exists y0 z imz, same y0 y /\ f y0 = Some (z, imz) /\ same y0 z.
  Proof.
    intros He Hrf Hsm Hs fuel x im y im' Hi H. unfold optimize_until_fixed_point in H. apply obind_some in H. destruct H as [[z imz] [H1 H2]]. cbn [fst snd] in H2.
    destruct (eqb x z) eqn:E.
    - injection H2 as <- <-. split; [eauto|]. exists x, z, imz. auto.
    - apply obind_some in H2. destruct H2 as [im2 [H2 H3]]. destruct (opt_loop_inv Inv Hs fuel z im2 y im') as [A [z' [imz' [B C]]]]; eauto. split; auto. exists y, z', imz'. auto.
  Qed.
End Loop.

(* ------------------------------------------------------------ passes that keep the meaning of a root circuit *)
Section Tied.
  Variable EMPTY : nat.
  Context {F : Fld}.
  (* [rc] stands for [rc0]: every run of rc0 is a run of rc on the mapped inputs, and, in the environments of Q, conversely *)
  Record tied {I0 I : IRC F} (Q : Env F -> Prop) (rc0 : RootCircuit I0) (rc : RootCircuit I) (im : InputMapping) : Prop := {
    td_good : im_good EMPTY im;
    td_sizes : exists c0 c, lookup 0 (circuits rc0) = Some c0 /\ lookup 0 (circuits rc) = Some c /\ cur_size im = num_inputs c0 /\ next_size im = num_inputs c /\
                 (length (outputs c0) - expected_num_output_zeroes rc0 = length (outputs c) - expected_num_output_zeroes rc)%nat;
    td_pub : num_public_inputs rc = num_public_inputs rc0;
    td_runs : forall ins ins', map_inputs EMPTY f0 im ins = Some ins' -> forall E outs b,
                (root_run I0 E rc0 ins outs b -> root_run I E rc ins' outs b) /\ (Q E -> root_run I E rc ins' outs b -> root_run I0 E rc0 ins outs b) }.
  Lemma tied_weaken {I0 I : IRC F} (Q Q' : Env F -> Prop) (rc0 : RootCircuit I0) (rc : RootCircuit I) im : (forall E, Q' E -> Q E) -> tied Q rc0 rc im -> tied Q' rc0 rc im.
  Proof. intros H [A B C D]. split; auto. intros ins ins' Hm E outs b. destruct (D ins ins' Hm E outs b). split; auto. Qed.
  Lemma tied_trans {I0 I1 I2 : IRC F} (Q : Env F -> Prop) (rc0 : RootCircuit I0) (rc1 : RootCircuit I1) (rc2 : RootCircuit I2) im im' : tied Q rc0 rc1 im -> tied Q rc1 rc2 im' ->
    exists im2, compose_in_place EMPTY im im' = Some im2 /\ tied Q rc0 rc2 im2.
  Proof.
    intros [A1 [c0 [c1 [B1 [B2 [B3 [B4 B5]]]]]] C1 D1] [A2 [c1' [c2 [B1' [B2' [B3' [B4' B5']]]]]] C2 D2]. rewrite B2 in B1'. injection B1' as <-.
    destruct (compose_good EMPTY im im' A1 A2 ltac:(congruence)) as [im2 [H1 [H2 [H3 [H4 H5]]]]]. exists im2. split; auto. split; auto.
    - exists c0, c2. split; auto. split; auto. split; [congruence|]. split; congruence.
    - congruence.
    - intros ins ins2 Hm E outs b.
      assert (Hl : length ins = cur_size im). { unfold map_inputs in Hm. destruct (Nat.eqb_spec (length ins) (length (mapping im2))) as [e|]; [|discriminate]. unfold cur_size in *. congruence. }
      destruct (H5 F f0 ins Hl) as [mid [r [M1 [M2 M3]]]]. rewrite Hm in M3. injection M3 as ->.
      destruct (D1 ins mid M1 E outs b). destruct (D2 mid r M2 E outs b). split; auto.
  Qed.
  Lemma tied_refl {I : IRC F} (Q : Env F -> Prop) (rc : RootCircuit I) c0 : lookup 0 (circuits rc) = Some c0 -> (num_inputs c0 <= EMPTY)%nat -> tied Q rc rc (im_identity (num_inputs c0)).
  Proof.
    intros Hc He. split.
    - apply im_identity_good; auto.
    - exists c0, c0. split; auto. split; auto. split; [apply seq_length|]. auto.
    - auto.
    - intros ins ins' Hm E outs b.
      assert (Hl : length ins = num_inputs c0). { unfold map_inputs in Hm. cbn in Hm. rewrite seq_length in Hm. destruct (Nat.eqb_spec (length ins) (num_inputs c0)); [auto|discriminate]. }
      rewrite <- Hl in Hm. rewrite map_inputs_identity in Hm by lia. injection Hm as <-. tauto.
  Qed.
  (* a pass that keeps the input list *)
  Lemma tied_same {I0 I : IRC F} (Q : Env F -> Prop) (rc0 : RootCircuit I0) (rc : RootCircuit I) c0 c : lookup 0 (circuits rc0) = Some c0 -> lookup 0 (circuits rc) = Some c ->
    num_inputs c = num_inputs c0 -> (num_inputs c0 <= EMPTY)%nat -> (length (outputs c0) - expected_num_output_zeroes rc0 = length (outputs c) - expected_num_output_zeroes rc)%nat ->
    num_public_inputs rc = num_public_inputs rc0 ->
    (forall E ins outs b, (root_run I0 E rc0 ins outs b -> root_run I E rc ins outs b) /\ (Q E -> root_run I E rc ins outs b -> root_run I0 E rc0 ins outs b)) ->
    tied Q rc0 rc (im_identity (num_inputs c0)).
  Proof.
    intros Hc0 Hc Hn He Ho Hp Hr. split; auto.
    - apply im_identity_good; auto.
    - exists c0, c. split; auto. split; auto. split; [apply seq_length|]. split; auto.
    - intros ins ins' Hm E outs b.
      assert (Hl : length ins = num_inputs c0). { unfold map_inputs in Hm. cbn in Hm. rewrite seq_length in Hm. destruct (Nat.eqb_spec (length ins) (num_inputs c0)); [auto|discriminate]. }
      rewrite <- Hl in Hm. rewrite map_inputs_identity in Hm by lia. injection Hm as <-. auto.
  Qed.
  (* the two passes of the optimisation loops *)
  Definition ru_pass {I : IRC F} (rc : RootCircuit I) : option (RootCircuit I * InputMapping) := remove_unreachable I EMPTY rc.
  (* compile/mod.rs:130-134 *)
  Definition opt_pass {I : IRC F} (rc : RootCircuit I) : option (RootCircuit I * InputMapping) :=
    let* r := remove_unreachable I EMPTY rc in
    let* rc' := reassign_duplicates I false (fst r) in Some (rc', snd r).
  Definition small {I : IRC F} (rc : RootCircuit I) : Prop := forall c0, lookup 0 (circuits rc) = Some c0 -> (num_inputs c0 <= EMPTY)%nat.
  Lemma small_next {I0 I : IRC F} (Q : Env F -> Prop) (rc0 : RootCircuit I0) (rc : RootCircuit I) im : tied Q rc0 rc im -> small rc.
  Proof. intros [[[H _] _] [c0 [c [_ [Hc [_ [H2 _]]]]]] _ _] c' Hc'. rewrite Hc in Hc'. injection Hc' as <-. lia. Qed.
  Lemma ru_pass_tied {I : IRC F} (L : IRC_laws I) (Q : Env F -> Prop) (rc : RootCircuit I) : wf_root I rc -> small rc ->
    (forall E, Q E -> total I E (circuits rc)) ->
    exists rc' im, ru_pass rc = Some (rc', im) /\ wf_root I rc' /\ (incl (keys (circuits rc')) (keys (circuits rc)) /\ forall id c', lookup id (circuits rc') = Some c' -> ~ In 0%nat (calls c')) /\ expected_num_output_zeroes rc' = expected_num_output_zeroes rc /\
      (exists mask, mapping im = mask_mapping EMPTY mask 0 /\ next_size im = ntrue mask) /\ tied Q rc rc' im.
  Proof.
    intros Hwf Hs HQ. destruct (remove_unreachable_spec I L EMPTY rc Hwf) as [rc' [im [H1 [H2 [H3 [H4 [H5 H6]]]]]]]. exists rc', im. split; auto. split; auto. split; auto. split; auto.
    destruct (wr_root _ _ Hwf) as [c0 [Hc0 _]]. destruct (H6 c0 Hc0) as [[c0' [A1 [A2 A3]]] [A4 [A5 [[mask [A6 [A7 A8]]] A9]]]].
    assert (Hg : im_good EMPTY im). { specialize (Hs c0 Hc0). clear -A5 A7 A8 Hs. destruct im as [ns mp]. cbn [next_size mapping] in *. rewrite A8, A7. apply mask_good. lia. }
    split; [eauto|]. split; auto.
    - exists c0, c0'. repeat (split; auto).
    - intros ins ins' Hm E outs b.
      assert (Hl : length ins = num_inputs c0). { unfold map_inputs in Hm. destruct (Nat.eqb_spec (length ins) (length (mapping im))) as [e|]; [|discriminate]. unfold cur_size in *. congruence. }
      destruct (A9 ins Hl (Hs c0 Hc0)) as [i2 [M1 M2]]. rewrite Hm in M1. injection M1 as <-. destruct (M2 E outs b). split; auto.
  Qed.
  Lemma opt_pass_tied {I : IRC F} (L : IRC_laws I) (Q : Env F -> Prop) (rc : RootCircuit I) : wf_root I rc -> small rc ->
    (forall E, Q E -> total I E (circuits rc)) ->
    exists rc' im, opt_pass rc = Some (rc', im) /\ wf_root I rc' /\ tied Q rc rc' im.
  Proof.
    intros Hwf Hs HQ. destruct (ru_pass_tied L Q rc Hwf Hs HQ) as [rc1 [im [H1 [H2 [_ [_ [_ H3]]]]]]]. unfold opt_pass. unfold ru_pass in H1. rewrite H1. cbn [obind fst snd].
    destruct (reassign_duplicates_spec _ L false rc1 H2) as [rc' [K1 [K2 [K3 [K4 [K5 [K6 [K7 K8]]]]]]]]. rewrite K1. cbn [obind]. exists rc', im. split; auto. split; auto.
    pose proof H3 as [A B C D]. destruct B as [c0 [c [B1 [B2 [B3 [B4 B5]]]]]]. destruct (K6 c B2) as [c' [M1 [M2 M3]]]. split; auto.
    - exists c0, c'. split; auto. split; auto. split; auto. split; congruence.
    - congruence.
    - intros ins ins' Hm E outs b. destruct (D ins ins' Hm E outs b) as [D1 D2]. destruct (K8 E ins' outs b) as [K9 K10]. split; auto.
  Qed.
End Tied.

(* ------------------------------------------------------------ equality of root circuits: the HashMaps have the same entries *)
Section Same.
  Context {F : Fld} (I : IRC F).
  Definition same_root (a b : RootCircuit I) : Prop :=
    num_public_inputs a = num_public_inputs b /\ expected_num_output_zeroes a = expected_num_output_zeroes b /\ forall id, lookup id (circuits a) = lookup id (circuits b).
  Lemma same_sym a b : same_root a b -> same_root b a.
  Proof. intros [A [B C]]. repeat split; auto. Qed.
  Lemma run_lookups E cs cs' : (forall id, lookup id cs = lookup id cs') -> forall id ins outs b, run I E cs id ins outs b -> run I E cs' id ins outs b.
  Proof.
    intros H. apply (run_mut I E cs (fun is v v' b _ => exec I E cs' is v v' b) (fun id ins outs b _ => run I E cs' id ins outs b)).
    - intros. constructor.
    - intros. eapply ESem; eauto.
    - intros. eapply ECall; eauto.
    - intros. eapply Run; eauto. rewrite <- H; auto.
  Qed.
  Lemma same_run a b : same_root a b -> forall E ins outs v, root_run I E a ins outs v -> root_run I E b ins outs v.
  Proof.
    intros [_ [B C]] E ins outs v [c [all [b0 [H1 [H2 [H3 [H4 [H5 H6]]]]]]]]. exists c, all, b0. rewrite <- B, <- C. repeat (split; auto). eapply run_lookups; eauto.
  Qed.
End Same.
