(* The shape shared by many passes: `for circuit_id in self.topo_order().iter().rev()`, rewriting one circuit at a time with
   a map from already handled circuits (the callees) to a summary. *)
From Verif Require Import Prelude Field Expr Topo Ir IrFacts Sim.

Section RevPass.
  Context {F : Fld} (I : IRC F) {D S : Type}.
  Notation Circuit := (Circuit I). Notation RootCircuit := (RootCircuit I).
  Variable f : (nat -> option S) -> nat -> Circuit -> option (D * S).

  Definition summary (acc : list (nat * (D * S))) (o : nat) : option S := option_map snd (lookup o acc).
  Fixpoint rev_pass (cs : list (nat * Circuit)) (rorder : list nat) (acc : list (nat * (D * S))) : option (list (nat * (D * S))) :=
    match rorder with
    | [] => Some acc
    | id :: rorder =>
        let* c := lookup id cs in
        let* r := f (summary acc) id c in
        rev_pass cs rorder ((id, r) :: acc)
    end.

  Variable Q : nat -> S -> Prop.
  Hypothesis f_local : forall m m' id c, (forall o, In o (calls c) -> m o = m' o) -> f m id c = f m' id c.

  Lemma rev_pass_spec (rc : RootCircuit) : wf_circuits I (circuits rc) -> (exists rank, ranked I (circuits rc) rank) ->
    (forall m id c, lookup id (circuits rc) = Some c -> (forall o, In o (calls c) -> exists s, m o = Some s /\ Q o s) ->
       exists c' s, f m id c = Some (c', s) /\ Q id s) ->
    exists q acc, root_order I rc = Some q /\ rev_pass (circuits rc) (rev q) [] = Some acc /\
      NoDup (keys acc) /\ (forall x, In x (keys acc) <-> In x (keys (circuits rc))) /\
      (forall id c, lookup id (circuits rc) = Some c ->
         exists c' s, lookup id acc = Some (c', s) /\ f (summary acc) id c = Some (c', s) /\ Q id s).
  Proof.
    intros W R Hf. destruct (root_order_spec I rc W R) as [q [Hq [Hnd [Hqk Hord]]]]. exists q.
    set (cs := circuits rc) in *.
    assert (H : forall rest done acc, rev q = done ++ rest ->
      keys acc = rev done ->
      (forall id c, In id done -> lookup id cs = Some c ->
         exists c' s, lookup id acc = Some (c', s) /\ f (summary acc) id c = Some (c', s) /\ Q id s) ->
      exists acc', rev_pass cs rest acc = Some acc' /\ keys acc' = rev (done ++ rest) /\
        (forall id c, In id (done ++ rest) -> lookup id cs = Some c ->
           exists c' s, lookup id acc' = Some (c', s) /\ f (summary acc') id c = Some (c', s) /\ Q id s)).
    { induction rest as [|id rest IH]; intros done acc Hr Hk Hd; cbn [rev_pass].
      - exists acc. rewrite app_nil_r. auto.
      - assert (Hidq : In id q). { apply in_rev. rewrite Hr. apply in_or_app; right; left; auto. }
        destruct (proj1 (lookup_keys id cs) (proj1 (Hqk id) Hidq)) as [c Hc]. rewrite Hc. cbn [obind].
        assert (Hq2 : q = rev rest ++ id :: rev done).
        { rewrite <- (rev_involutive q), Hr, rev_app_distr. cbn [rev]. rewrite <- app_assoc. auto. }
        assert (Hcall : forall o, In o (calls c) -> In o done).
        { intros o Ho. apply in_rev. eapply Hord; eauto. }
        destruct (Hf (summary acc) id c Hc) as [c' [s [Hfe HQ]]].
        { intros o Ho. specialize (Hcall o Ho). assert (Hok : In o (keys cs)). { apply Hqk. rewrite Hq2. apply in_or_app; right; right. apply -> in_rev; auto. }
          apply lookup_keys in Hok. destruct Hok as [co Hco]. destruct (Hd o co Hcall Hco) as [c2 [s2 [H1 [H2 H3]]]].
          exists s2. unfold summary. rewrite H1. auto. }
        rewrite Hfe. cbn [obind].
        assert (Hnin : ~ In id done).
        { intros Hx. rewrite Hq2 in Hnd. apply NoDup_remove_2 in Hnd. apply Hnd. apply in_or_app; right. apply -> in_rev; auto. }
        destruct (IH (done ++ [id]) ((id, (c', s)) :: acc)) as [acc' [H1 [H2 H3]]].
        + rewrite <- app_assoc. auto.
        + cbn. rewrite rev_app_distr. cbn. f_equal; auto.
        + assert (Hsum : forall o, In o done -> summary ((id, (c', s)) :: acc) o = summary acc o).
          { intros o Ho. unfold summary. cbn [lookup]. destruct (Nat.eqb_spec id o); auto. subst; contradiction. }
          intros id2 c2 Hin Hc2. apply in_app_or in Hin. destruct Hin as [Hin|[<-|[]]].
          * destruct (Hd id2 c2 Hin Hc2) as [c3 [s3 [H1 [H2 H3]]]]. exists c3, s3. cbn [lookup].
            destruct (Nat.eqb_spec id id2); [subst; contradiction|]. split; auto. split; auto. rewrite <- H2. apply f_local.
            intros o Ho. apply Hsum. apply in_split in Hin. destruct Hin as [d1 [d2 Hd12]]. subst done.
            assert (Hq3 : q = (rev rest ++ id :: rev d2) ++ id2 :: rev d1).
            { rewrite Hq2, rev_app_distr. cbn [rev]. rewrite <- !app_assoc. auto. }
            apply in_or_app; left. apply in_rev. eapply Hord; eauto.
          * rewrite Hc in Hc2. injection Hc2 as <-. exists c', s. cbn [lookup]. rewrite Nat.eqb_refl. split; auto. split; auto.
            rewrite <- Hfe. apply f_local. intros o Ho. apply Hsum. auto.
        + exists acc'. split; auto. rewrite <- app_assoc in *. auto. }
    destruct (H (rev q) [] [] eq_refl eq_refl) as [acc [H1 [H2 H3]]]; [intros ? ? []|]. cbn [app] in *. rewrite rev_involutive in H2.
    exists acc. split; auto. split; auto. rewrite H2. split; auto. split; auto.
    intros id c Hc. apply H3; auto. apply -> in_rev. apply Hqk. apply lookup_keys; eauto.
  Qed.
End RevPass.
