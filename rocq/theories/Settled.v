(* Circuits whose instruction lists have two parts, here: draws nothing, then calls nothing.  Kept by the passes that remove or rename, true of
   what split_to_single_layer returns for a circuit that draws nothing. *)
From Verif Require Import Prelude Field InputMapping Expr Topo Containers Ir IrFacts IrInst Sim RevPass LocalPass Bfs RemoveUnreachable ReassignDup FixedPoint Kinds SolveDuplicates
  IrSplit Layered LayeredOpt Layering Compile E2E.

Section Two.
  Context {F : Fld} (I : IRC F).
  Variables P N : Insn I -> Prop.
  Hypothesis HP : ipred I P.
  Hypothesis HN : ipred I N.
  Definition two (is : list (Insn I)) : Prop := exists a b, is = a ++ b /\ Forall P a /\ Forall N b.
  Definition settled (rc : RootCircuit I) : Prop := forall id c, lookup id (circuits rc) = Some c -> two (instructions c).
  Lemma two_cons i is : P i -> two is -> two (i :: is).
  Proof. intros Hi [a [b [-> [A B]]]]. exists (i :: a), b. auto. Qed.
  Lemma two_N is : Forall N is -> two is. Proof. intros H. exists [], is. auto. Qed.
  Lemma two_P is : Forall P is -> two is. Proof. intros H. exists is, []. rewrite app_nil_r. auto. Qed.
  Lemma two_app is is' : two is -> Forall N is' -> two (is ++ is').
  Proof. intros [a [b [-> [A B]]]] H. exists a, (b ++ is'). rewrite <- app_assoc, Forall_app. auto. Qed.
  Lemma rb_two vis id : forall is k vm mx, two is -> two (fst (rb_insns I vis id k is vm mx)).
  Proof.
    induction is as [|i is IH]; intros k vm mx H; [apply two_P; constructor|]. destruct H as [[|i0 a] [b [E [A B]]]].
    - apply two_N. apply rb_insns_P; auto. cbn [app] in E. rewrite E. auto.
    - injection E as <- E. inversion A as [|? ? Hi Ha]; subst. assert (Ht : two (a ++ b)) by (exists a, b; auto). cbn [rb_insns]. destruct (vis (id, k, TInsn)); [|apply IH; auto]. destruct (i_call i) as [[[sub l] n]|] eqn:Ec.
      + specialize (IH (S k) (vm ++ RemoveUnreachable.assign (RemoveUnreachable.out_mask vis sub n) mx) (mx + ntrue (RemoveUnreachable.out_mask vis sub n)) Ht). destruct (rb_insns I vis id (S k) (a ++ b) _ _) as [is' vm'] eqn:Er. cbn [fst] in *. apply two_cons; auto. eapply ip_call; eauto.
      + specialize (IH (S k) (vm ++ seq (S mx) (i_nout i)) (mx + i_nout i) Ht). destruct (rb_insns I vis id (S k) (a ++ b) _ _) as [is' vm'] eqn:Er. cbn [fst] in *. apply two_cons; auto. apply (ip_repl _ _ HP); auto.
  Qed.
  Lemma ru_settled EMPTY rc rc' im : remove_unreachable I EMPTY rc = Some (rc', im) -> settled rc -> settled rc'.
  Proof.
    intros H Hh id c' Hc'. destruct (ru_inv I _ _ _ _ H) as [vis Hv]. destruct (Hv _ _ Hc') as [c [_ [Hc ->]]]. specialize (Hh _ _ Hc). unfold rb_circuit.
    pose proof (rb_two vis id (instructions c) 0 (0 :: RemoveUnreachable.assign (RemoveUnreachable.in_mask vis id (num_inputs c)) 0) (ntrue (RemoveUnreachable.in_mask vis id (num_inputs c))) Hh) as X. destruct (rb_insns I vis id 0 _ _ _) as [is' vm']. exact X.
  Qed.
  Lemma ra_two om : forall is vm is' vm', ra_insns I om is vm = Some (is', vm') -> two is -> two is'.
  Proof.
    induction is as [|i is IH]; intros vm is' vm' H Ht; [cbn [ra_insns] in H; injection H as <- _; auto|]. destruct Ht as [[|i0 a] [b [E [A B]]]].
    - cbn [app] in E. rewrite <- E in B. apply two_N. eapply ra_insns_P; eauto.
    - injection E as <- E. inversion A as [|? ? Hi Ha]; subst. cbn [ra_insns] in H. apply obind_some in H. destruct H as [vm1 [_ H]]. apply obind_some in H. destruct H as [[is1 vm2] [H1 H]]. injection H as <- _. cbn [fst]. apply two_cons; [apply (ip_repl _ _ HP); auto|]. eapply IH; eauto. exists a, b. auto.
  Qed.
  Lemma ra_settled force rc rc' : reassign_duplicates I force rc = Some rc' -> settled rc -> settled rc'.
  Proof.
    intros H Hh id c' Hc'. destruct (ra_inv I _ _ _ H _ _ Hc') as [Hc|[m [c [o [Hc Hx]]]]]; [eapply Hh; eauto|]. unfold ra_circuit in Hx. apply obind_some in Hx. destruct Hx as [[is' vm] [H1 Hx]].
    pose proof (ra_two _ _ _ _ _ H1 (Hh _ _ Hc)) as H2. destruct ((id =? 0) || force).
    - pose proof (ra_copy_P I N HN (map (fun x => pos x (map (vmap vm) (outputs c))) (map (vmap vm) (outputs c))) 0 (map (vmap vm) (outputs c)) (length vm - 1)) as H3. destruct (ra_copy I _ 0 _ (length vm - 1)) as [cp outs']. injection Hx as <- _. cbn [instructions fst] in *. apply two_app; auto.
    - injection Hx as <- _. cbn [instructions]. rewrite app_nil_r. auto.
  Qed.
  Lemma op_settled EMPTY rc rc' im : opt_pass EMPTY rc = Some (rc', im) -> settled rc -> settled rc'.
  Proof.
    intros H Hx. unfold opt_pass in H. apply obind_some in H. destruct H as [[z imz] [K1 K2]]. cbn [fst snd] in K2. apply obind_some in K2. destruct K2 as [z' [K2 K3]]. injection K3 as <- <-. eapply ra_settled; eauto. eapply ru_settled; eauto.
  Qed.
  Lemma loop_inv (Inv : RootCircuit I -> Prop) EMPTY eqb f : (forall x y imy, f x = Some (y, imy) -> Inv x -> Inv y) -> forall fl x im y im', optimize_until_fixed_point EMPTY eqb f fl x im = Some (y, im') -> Inv x -> Inv y.
  Proof.
    intros Hf. assert (Hloop : forall fl x im y im', opt_loop EMPTY eqb f fl x im = Some (y, im') -> Inv x -> Inv y).
    { induction fl as [|fl IH]; intros x im y im' X Hx; cbn [opt_loop] in X; [discriminate|]. apply obind_some in X. destruct X as [[z imz] [X1 X]]. cbn [fst snd] in X. destruct (eqb x z); [injection X as <- _; auto|]. apply obind_some in X. destruct X as [im2 [_ X]]. eapply IH; eauto. }
    intros fl x im y im' X Hx. unfold optimize_until_fixed_point in X. apply obind_some in X. destruct X as [[z imz] [X1 X]]. cbn [fst snd] in X. destruct (eqb _ z); [injection X as <- _; eauto|]. apply obind_some in X. destruct X as [im2 [_ X]]. eapply Hloop; eauto.
  Qed.
  Lemma opt_stage_settled (K : Config) (o : Options) eqb x im y im' : opt_stage K o eqb x im = Some (y, im') -> settled x -> settled y.
  Proof.
    unfold opt_stage. intros H Hx. destruct (2 <=? opt_level o).
    - eapply loop_inv; [|exact H|auto]. intros. eapply op_settled; eauto.
    - destruct (1 <=? opt_level o); [|injection H as <- _; auto]. apply obind_some in H. destruct H as [[z imz] [H1 H]]. apply obind_some in H. destruct H as [im2 [_ H]]. injection H as <- _. eapply ru_settled; eauto.
  Qed.
End Two.

Section SplitSettled.
  Context {F : Fld}.
  Notation DI := (DestI F false).
  Variable random : bool.
  Definition nocall (i : DInsn F) : Prop := d_call F i = None.
  Definition nodraw (i : DInsn F) : Prop := no_random_term i /\ i <> DConst CRandom.
  Notation two := (two DI nodraw nocall).
  Lemma nocall_ipred (s : bool) : ipred (DestI F s) nocall.
  Proof. split; [intros f i; destruct i; cbn; auto; discriminate|intros; reflexivity|]. intros i id l n l' n' H E. unfold nocall in H. cbn in E. congruence. Qed.
  Lemma nodraw_replace f (i : DInsn F) : nodraw i -> nodraw (d_replace F f i).
  Proof.
    intros [H1 H2]. destruct i as [e|id l n|c]; split; cbn in *; auto; try discriminate. unfold no_random, e_replace in *. rewrite Forall_map. eapply Forall_impl; [|exact H1]. cbn. intros t. destruct (vars t); auto.
  Qed.
  Lemma nodraw_ipred (s : bool) : ipred (DestI F s) nodraw.
  Proof.
    split.
    - intros f i H. apply nodraw_replace. auto.
    - intros x k b. split; [|discriminate]. cbn. apply no_random_from_terms. repeat constructor.
    - intros i id l n l' n' _ _. split; [exact Logic.I|discriminate].
  Qed.
  Lemma nodraw_call id l n : nodraw (DCall id l n). Proof. split; [exact Logic.I|discriminate]. Qed.
  Definition pool_two (p : CPool (F := F)) : Prop := Forall (fun c => two (instructions c)) p.
  Lemma call_segs_draws pool vnew inputs pre : forall segs insns ml sc insns' ml' sc', call_segs pool vnew inputs pre segs insns ml sc = Some (insns', ml', sc') -> Forall nodraw insns -> Forall nodraw insns'.
  Proof.
    induction segs as [|s segs IH]; intros insns ml sc insns' ml' sc' H Hn; cbn [call_segs] in H; [injection H as <- _ _; auto|]. apply obind_some in H. destruct H as [c [_ H]]. apply obind_some in H. destruct H as [ci [_ H]]. apply obind_some in H. destruct H as [u [_ H]].
    eapply IH; eauto. apply Forall_app. split; auto. constructor; auto. apply nodraw_call.
  Qed.
  Lemma expand_draws layers rec : (forall id il pool r, rec id il pool = Some r -> pool_two pool -> pool_two (snd r)) -> forall is P P', ofold (fun P i => expand1 layers rec i P) is P = Some P' ->
    Forall nodraw is -> Forall nodraw (p_insns P) -> pool_two (p_pool P) -> Forall nodraw (p_insns P') /\ pool_two (p_pool P').
  Proof.
    intros Hrec. induction is as [|i is IH]; intros P P' H Hi Hp Hpool; cbn [ofold] in H; [injection H as <-; auto|]. apply obind_some in H. destruct H as [P1 [H1 H]]. inversion Hi as [|? ? Hi1 Hi2]; subst. apply (IH _ _ H Hi2); destruct i as [e|id l n|c]; cbn [expand1] in H1.
    - injection H1 as <-. cbn [p_insns]. apply Forall_app. split; auto. constructor; auto. apply (nodraw_replace _ (DVar e)); auto.
    - apply obind_some in H1. destruct H1 as [sp [Hs H1]]. apply obind_some in H1. destruct H1 as [ol [_ H1]]. apply obind_some in H1. destruct H1 as [[[insns ml] sc] [Hc H1]]. apply obind_some in H1. destruct H1 as [outs [_ H1]]. apply obind_some in H1. destruct H1 as [u [_ H1]]. apply obind_some in H1. destruct H1 as [ccs [_ H1]]. injection H1 as <-. cbn [p_insns]. eapply call_segs_draws; eauto.
    - injection H1 as <-. cbn [p_insns]. apply Forall_app. auto.
    - injection H1 as <-. auto.
    - apply obind_some in H1. destruct H1 as [sp [Hs H1]]. apply obind_some in H1. destruct H1 as [ol [_ H1]]. apply obind_some in H1. destruct H1 as [[[insns ml] sc] [Hc H1]]. apply obind_some in H1. destruct H1 as [outs [_ H1]]. apply obind_some in H1. destruct H1 as [u [_ H1]]. apply obind_some in H1. destruct H1 as [ccs [_ H1]]. injection H1 as <-. cbn [p_pool]. eapply Hrec; eauto.
    - injection H1 as <-. auto.
  Qed.
  Lemma comb_two root ml0 sub cns : forall n i insns ml add lst r, comb root ml0 sub cns n i insns ml add lst = r -> two insns -> two (fst (fst r)).
  Proof.
    induction n as [|n IH]; intros i insns ml add lst r H Ht; cbn [comb] in H; [subst r; auto|]. destruct (comb_terms root ml0 sub cns add i) as [|t ts]; [eapply IH; eauto|]. eapply IH; eauto. apply two_app; auto. constructor; auto. reflexivity.
  Qed.
  Lemma seg_insns_P (Q : DInsn F -> Prop) ml start stop : (forall f i, Q i -> Q (d_replace F f i)) -> forall is cur lmax loc r, seg_insns ml start stop is cur lmax loc = Some r -> Forall Q is -> Forall Q (fst r).
  Proof.
    intros HQ. induction is as [|i is IH]; intros cur lmax loc r H Hq; cbn [seg_insns] in H; [injection H as <-; constructor|]. inversion Hq as [|? ? Hi His]; subst. destruct i as [e|id l n|c].
    - destruct (in_seg _ _ _); [|eapply IH; eauto]. apply obind_some in H. destruct H as [u [_ H]]. apply obind_some in H. destruct H as [r1 [H1 H]]. injection H as <-. cbn [fst]. constructor; [apply (HQ _ (DVar e)); auto|eapply IH; eauto].
    - destruct (_ && _); [|eapply IH; eauto]. apply obind_some in H. destruct H as [u [_ H]]. apply obind_some in H. destruct H as [r1 [H1 H]]. injection H as <-. cbn [fst]. constructor; [apply (HQ _ (DCall id l n)); auto|eapply IH; eauto].
    - destruct (start =? 0); [|eapply IH; eauto]. apply obind_some in H. destruct H as [r1 [H1 H]]. injection H as <-. cbn [fst]. constructor; [auto|eapply IH; eauto].
  Qed.
  Lemma nocall_replace f (i : DInsn F) : nocall i -> nocall (d_replace F f i). Proof. destruct i; cbn; auto; discriminate. Qed.
  Lemma seg_insns_two ml start stop : forall is cur lmax loc r, seg_insns ml start stop is cur lmax loc = Some r -> two is -> two (fst r).
  Proof.
    induction is as [|i is IH]; intros cur lmax loc r H Ht; [cbn [seg_insns] in H; injection H as <-; apply two_P; constructor|]. destruct Ht as [[|i0 a] [b [E [A B]]]].
    - cbn [app] in E. rewrite <- E in B. apply two_N. eapply seg_insns_P; eauto. apply nocall_replace.
    - injection E as <- E. inversion A as [|? ? Hi Ha]; subst. assert (Ht : two (a ++ b)) by (exists a, b; auto). cbn [seg_insns] in H. destruct i as [e|id l n|c].
      + destruct (in_seg _ _ _); [|eapply IH; eauto]. apply obind_some in H. destruct H as [u [_ H]]. apply obind_some in H. destruct H as [r1 [H1 H]]. injection H as <-. cbn [fst]. apply two_cons; [apply (nodraw_replace _ (DVar e)); auto|eapply IH; eauto].
      + destruct (_ && _); [|eapply IH; eauto]. apply obind_some in H. destruct H as [u [_ H]]. apply obind_some in H. destruct H as [r1 [H1 H]]. injection H as <-. cbn [fst]. apply two_cons; [apply nodraw_call|eapply IH; eauto].
      + destruct (start =? 0); [|eapply IH; eauto]. apply obind_some in H. destruct H as [r1 [H1 H]]. injection H as <-. cbn [fst]. apply two_cons; [auto|eapply IH; eauto].
  Qed.
  Lemma cpool_add_two p c : pool_two p -> two (instructions c) -> pool_two (snd (cpool_add p c)).
  Proof. intros Hp Hc. unfold cpool_add. destruct (pool_find p c 1); auto. apply Forall_app. auto. Qed.
  Lemma segments_two ninputs nv is ml mx : two is -> forall at_ G pool r, segments ninputs nv is ml mx at_ G pool = Some r -> pool_two pool -> pool_two (snd r).
  Proof.
    intros Ht. induction at_ as [|start at_ IH]; intros G pool r H Hp; cbn [segments] in H; [injection H as <-; auto|]. destruct at_ as [|stop rest]; [injection H as <-; auto|].
    apply obind_some in H. destruct H as [[[s G1] pool1] [H1 H]]. apply obind_some in H. destruct H as [[[ss G2] pool2] [H2 H]]. injection H as <-. apply IH in H2; auto.
    unfold seg1 in H1. apply obind_some in H1. destruct H1 as [r1 [H3 H1]]. destruct (fold_left _ _ _) as [outs G']. match type of H1 with (let '(_, _) := cpool_add ?p ?c in _) = _ => pose proof (cpool_add_two p c Hp) as X; destruct (cpool_add p c) as [id' pool'] end. injection H1 as _ _ <-. apply X. cbn [instructions]. eapply seg_insns_two; eauto.
  Qed.
  Lemma expanded_two layers rec (cs : list (nat * Circuit DI)) id il at0 pool r : (forall a id il pool r, rec a id il pool = Some r -> pool_two pool -> pool_two (snd r)) -> (forall id c, lookup id cs = Some c -> Forall nodraw (instructions c : list (DInsn F))) ->
    expanded random layers rec cs id il at0 pool = Some r -> pool_two pool -> let '(c, _, _, _, _, pool') := r in two (instructions c) /\ pool_two pool'.
  Proof.
    intros Hrec Hcs H Hp. unfold expanded in H. apply obind_some in H. destruct H as [ol [_ H]]. apply obind_some in H. destruct H as [c [Hc H]]. apply obind_some in H. destruct H as [P [HP H]]. apply obind_some in H. destruct H as [cns [_ H]]. apply obind_some in H. destruct H as [outs [_ H]].
    unfold expand in HP. apply expand_draws in HP; [|apply Hrec|apply (Hcs id c Hc)|constructor|exact Hp]. destruct HP as [A B].
    destruct random.
    - destruct (comb _ _ _ _ _ _ _ _ _ _) as [[insns ml] add] eqn:Ec. injection H as <-. cbn [instructions]. split; auto. apply (comb_two _ _ _ _ _ _ _ _ _ _ _ Ec). apply two_P; auto.
    - injection H as <-. cbn [instructions]. split; auto. apply two_P; auto.
  Qed.
  Lemma split_circuit_two (cs : list (nat * Circuit DI)) : (forall id c, lookup id cs = Some c -> Forall nodraw (instructions c : list (DInsn F))) -> forall fuel at0 id il pool r, split_circuit random fuel cs at0 id il pool = Some r -> pool_two pool -> pool_two (snd r).
  Proof.
    intros Hcs. induction fuel as [|fuel IH]; intros at0 id il pool r H Hp; cbn [split_circuit] in H; [discriminate|]. apply obind_some in H. destruct H as [u [_ H]]. apply obind_some in H. destruct H as [[[[[[c add] ml] sc] at_] pool1] [H1 H]].
    apply (expanded_two _ _ _ _ _ _ _ _ IH Hcs) in H1; auto. destruct H1 as [A B]. unfold cut in H. do 3 (apply obind_some in H; destruct H as [? [_ H]]). apply obind_some in H. destruct H as [? [_ H]]. apply obind_some in H. destruct H as [mx [_ H]]. apply obind_some in H. destruct H as [[[ss G] pool2] [H2 H]]. apply obind_some in H. destruct H as [fo [_ H]]. injection H as <-. cbn [snd].
    apply (segments_two _ _ _ _ _ A _ _ _ _ H2 B).
  Qed.
  Theorem split_settled (rc s : RootCircuit DI) : split_to_single_layer random rc = Some s -> holds DI nodraw rc -> settled DI nodraw nocall s.
  Proof.
    intros H Hn. unfold split_to_single_layer in H. apply obind_some in H. destruct H as [c0 [_ H]]. apply obind_some in H. destruct H as [[[[[[c add] ml] sc] at_] pool] [H1 H]]. apply obind_some in H. destruct H as [u [_ H]]. injection H as <-.
    apply expanded_two in H1; [|apply split_circuit_two; exact Hn|exact Hn|constructor]. destruct H1 as [A B]. intros id c1 Hc1. cbn [circuits lookup] in Hc1. destruct (0 =? id); [injection Hc1 as <-; exact A|].
    apply lookup_In in Hc1. apply in_combine_r in Hc1. unfold pool_two in B. rewrite Forall_forall in B. apply B. auto.
  Qed.
End SplitSettled.
