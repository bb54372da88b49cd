(* The marking phase of RootCircuit::remove_unreachable (circuit/ir/common/opt.rs:203-270). *)
From Verif Require Import Prelude.

(* opt.rs:12-25 *)
Inductive ElemT := TVar | TInsn | TOut | TCon.
Definition Elem : Type := nat * nat * ElemT.
Definition elem_eq_dec (a b : Elem) : {a = b} + {a <> b}.
Proof. repeat decide equality. Defined.
Definition visb (vis : list Elem) (e : Elem) : bool := if in_dec elem_eq_dec e vis then true else false.
Lemma visb_spec vis e : visb vis e = true <-> In e vis.
Proof. unfold visb. destruct (in_dec elem_eq_dec e vis); split; auto; discriminate. Qed.

(* An edge from -> to is (from, None, to); a dual edge needing two visited elements is (req1, Some req2, to). *)
Definition Rule : Type := Elem * option Elem * Elem.
(* opt.rs:251-268: the two inner loops.  opt.rs:203-211 sorts the edges by source and the model scans all of
   them for those that start at [cur]; only the order in which elements join the queue differs. *)
Definition relax1 (cur : Elem) (st : list Elem * list Elem) (r : Rule) : list Elem * list Elem :=
  let '(vis, q) := st in
  let '(a, req, t) := r in
  if elem_eq_dec a cur then
    if match req with None => true | Some r => visb vis r end then
      if visb vis t then (vis, q) else (t :: vis, q ++ [t])
    else (vis, q)
  else (vis, q).
(* opt.rs:246-269 *)
Fixpoint bfs (fuel : nat) (rules : list Rule) (q vis : list Elem) : option (list Elem) :=
  match q with
  | [] => Some vis
  | cur :: q => match fuel with
                | 0 => None
                | S fuel => let '(vis, q) := fold_left (relax1 cur) rules (vis, q) in bfs fuel rules q vis
                end
  end.
(* opt.rs:241-269 *)
Definition mark (rules : list Rule) (seeds : list Elem) : option (list Elem) :=
  bfs (length seeds + length rules) rules seeds seeds.

(* what the marking is for *)
Definition closed (rules : list Rule) (V : Elem -> Prop) : Prop :=
  forall a req t, In (a, req, t) rules -> V a -> match req with None => True | Some r => V r end -> V t.
Inductive reach (rules : list Rule) (seeds : list Elem) : Elem -> Prop :=
| RSeed e : In e seeds -> reach rules seeds e
| RRule a req t : In (a, req, t) rules -> reach rules seeds a ->
    (forall r, req = Some r -> reach rules seeds r) -> reach rules seeds t.

Section Bfs.
  Variable rules : list Rule.
  Variable Hsym : forall a r t, In (a, Some r, t) rules -> In (r, Some a, t) rules.

  Definition binv (q vis : list Elem) : Prop :=
    incl q vis /\
    forall a req t, In (a, req, t) rules -> In a vis -> In a q \/ In t vis \/
      (exists r, req = Some r /\ (~ In r vis \/ In r q)).

  Lemma relax_spec cur rs : forall vis q vis' q', fold_left (relax1 cur) rs (vis, q) = (vis', q') ->
    exists new, vis' = rev new ++ vis /\ q' = q ++ new /\
      (forall t, In t new -> exists req, In (cur, req, t) rs /\ (forall r, req = Some r -> In r vis')) /\
      (forall req t, In (cur, req, t) rs -> (forall r, req = Some r -> In r vis) -> In t vis').
  Proof.
    induction rs as [|[[a req] t] rs IH]; intros vis q vis' q' H; cbn [fold_left] in H.
    - inversion H; subst. exists []. cbn. rewrite app_nil_r. repeat split; auto; intros; contradiction.
    - assert (Hcase : (exists vis1 q1, relax1 cur (vis, q) (a, req, t) = (vis1, q1) /\
               ((vis1 = vis /\ q1 = q /\ (a = cur -> (forall r, req = Some r -> In r vis) -> In t vis)) \/
                (vis1 = t :: vis /\ q1 = q ++ [t] /\ a = cur /\ (forall r, req = Some r -> In r vis))))).
      { unfold relax1. destruct (elem_eq_dec a cur) as [->|Hne]; [|eexists _, _; split; [reflexivity|left; repeat split; auto; contradiction]].
        assert (Hreq : forall b, (match req with None => true | Some r => visb vis r end) = b -> b = true <-> (forall r, req = Some r -> In r vis)).
        { intros b <-. destruct req as [r|].
          - rewrite visb_spec. split; [intros Hr ? [= <-]; auto|intros Hr; apply Hr; auto].
          - split; auto. intros _ r; discriminate. }
        destruct (match req with None => true | Some r => visb vis r end) eqn:Eb.
        - destruct (visb vis t) eqn:Et; eexists _, _; (split; [reflexivity|]).
          + left. apply visb_spec in Et. auto.
          + right. repeat split; auto. apply (Hreq true eq_refl); auto.
        - eexists _, _; split; [reflexivity|]. left; repeat split; auto. intros _ Hr. apply (Hreq false eq_refl) in Hr. discriminate. }
      destruct Hcase as [vis1 [q1 [Er Hc]]]. rewrite Er in H. apply IH in H. destruct H as [new [H1 [H2 [H3 H4]]]].
      destruct Hc as [[-> [-> Hc]]|[-> [-> [-> Hc]]]].
      + exists new. repeat split; auto.
        * intros t' Ht. destruct (H3 t' Ht) as [r [Hr1 Hr2]]. exists r; split; auto. right; auto.
        * intros req' t' [He|Hin] Hr; [|eauto]. inversion He; subst. apply in_or_app; right; auto.
      + exists (t :: new). cbn [rev]. rewrite <- app_assoc in *. cbn [app] in *. repeat split; auto.
        * intros t' [<-|Ht].
          -- exists req; split; [left; auto|]. intros r Hr. rewrite H1. apply in_or_app; right; right; auto.
          -- destruct (H3 t' Ht) as [r [Hr1 Hr2]]. exists r; split; auto. right; auto.
        * intros req' t' [He|Hin] Hr.
          -- inversion He; subst. apply in_or_app; right; left; auto.
          -- eapply H4; eauto. intros r Er2. right; eauto.
  Qed.

  Lemma binv_step cur q vis vis' q' : binv (cur :: q) vis -> fold_left (relax1 cur) rules (vis, q) = (vis', q') -> binv q' vis'.
  Proof.
    intros [H1 H2] Hf. apply relax_spec in Hf. destruct Hf as [new [-> [-> [H3 H4]]]].
    assert (Hsub : incl vis (rev new ++ vis)) by (intros x Hx; apply in_or_app; auto).
    split.
    - intros x Hx. apply in_app_or in Hx. destruct Hx as [Hx|Hx].
      + apply Hsub, H1; right; auto.
      + apply in_or_app; left. apply -> in_rev; auto.
    - intros a req t Hr Ha. apply in_app_or in Ha. destruct Ha as [Ha|Ha].
      { left. apply in_or_app; right. apply in_rev; auto. }
      (* a was visited before *)
      destruct (elem_eq_dec a cur) as [->|Hac].
      + destruct req as [r|].
        * destruct (in_dec elem_eq_dec r vis) as [Hrv|Hrv].
          -- right; left. eapply H4; eauto. intros ? [= <-]; auto.
          -- right; right. exists r; split; auto. destruct (in_dec elem_eq_dec r new).
             right; apply in_or_app; auto. left. intros Hx. apply in_app_or in Hx. destruct Hx as [Hx|Hx]; auto. apply in_rev in Hx; auto.
        * right; left. eapply H4; eauto. intros ? ?; discriminate.
      + destruct (H2 _ _ _ Hr Ha) as [[E|Hq]|[Ht|[r [-> Hrr]]]].
        * congruence.
        * left; apply in_or_app; auto.
        * right; left; auto.
        * destruct (elem_eq_dec r cur) as [->|Hrc].
          -- right; left. apply (H4 (Some a)); auto. intros ? [= <-]; auto.
          -- destruct (in_dec elem_eq_dec r new) as [Hn|Hn].
             ++ right; right. exists r; split; auto. right; apply in_or_app; auto.
             ++ destruct Hrr as [Hrr|[Hrr|Hrr]].
                ** right; right. exists r; split; auto. left. intros Hx. apply in_app_or in Hx. destruct Hx as [Hx|Hx]; auto. apply in_rev in Hx; auto.
                ** congruence.
                ** right; right. exists r; split; auto. right; apply in_or_app; auto.
  Qed.

  (* number of rules whose target is not yet visited *)
  Definition todo (vis : list Elem) (rs : list Rule) : nat := length (filter (fun r : Rule => negb (visb vis (snd r))) rs).
  Lemma todo_le vis t rs : todo (t :: vis) rs <= todo vis rs.
  Proof.
    unfold todo. induction rs as [|r rs IH]; cbn; auto.
    destruct (visb vis (snd r)) eqn:E1; destruct (visb (t :: vis) (snd r)) eqn:E2; cbn; try lia.
    apply visb_spec in E1. assert (visb (t :: vis) (snd r) = true) by (apply visb_spec; right; auto). congruence.
  Qed.
  Lemma todo_lt vis t rs a req : In (a, req, t) rs -> ~ In t vis -> S (todo (t :: vis) rs) <= todo vis rs.
  Proof.
    induction rs as [|r rs IH]; intros Hin Hn; [destruct Hin|]. destruct Hin as [->|Hin].
    - unfold todo; cbn [filter snd]. assert (visb vis t = false) as ->. { destruct (visb vis t) eqn:E; auto. apply visb_spec in E; contradiction. }
      assert (visb (t :: vis) t = true) as -> by (apply visb_spec; left; auto). cbn. apply le_n_S. apply todo_le.
    - specialize (IH Hin Hn). unfold todo in *; cbn [filter].
      destruct (visb vis (snd r)) eqn:E1; destruct (visb (t :: vis) (snd r)) eqn:E2; cbn; try lia.
      apply visb_spec in E1. assert (visb (t :: vis) (snd r) = true) by (apply visb_spec; right; auto). congruence.
  Qed.
  Lemma relax_measure cur rs : incl rs rules -> forall vis q vis' q', fold_left (relax1 cur) rs (vis, q) = (vis', q') ->
    length q' + todo vis' rules <= length q + todo vis rules.
  Proof.
    induction rs as [|[[a req] t] rs IH]; intros Hi vis q vis' q' H; cbn [fold_left] in H.
    - inversion H; subst; auto.
    - destruct (relax1 cur (vis, q) (a, req, t)) as [vis1 q1] eqn:Er.
      apply IH in H; [|intros x Hx; apply Hi; right; auto]. etransitivity; [apply H|]. clear H.
      unfold relax1 in Er. destruct (elem_eq_dec a cur); [|inversion Er; subst; auto].
      destruct (match req with None => true | Some r => visb vis r end); [|inversion Er; subst; auto].
      destruct (visb vis t) eqn:Et; inversion Er; subst; auto.
      rewrite app_length; cbn. pose proof (todo_lt vis t rules cur req (Hi _ (or_introl eq_refl))) as Hl.
      assert (~ In t vis) as Hn. { intros Hx. apply visb_spec in Hx. congruence. } specialize (Hl Hn). lia.
  Qed.

  Lemma bfs_spec fuel : forall q vis seeds, binv q vis -> incl seeds vis -> (forall e, In e vis -> reach rules seeds e) ->
    length q + todo vis rules <= fuel ->
    exists V, bfs fuel rules q vis = Some V /\ incl seeds V /\ closed rules (fun e => In e V) /\ (forall e, In e V -> reach rules seeds e).
  Proof.
    induction fuel as [|fuel IH]; intros q vis seeds Hb Hs Hr Hm.
    - destruct q; cbn in Hm; [|lia]. exists vis. split; auto. split; auto. split; auto.
      intros a req t Hin Ha Hreq. destruct Hb as [_ Hb]. destruct (Hb _ _ _ Hin Ha) as [[]|[H|[r [-> [H|[]]]]]]; auto; contradiction.
    - destruct q as [|cur q].
      + exists vis. split; auto. split; auto. split; auto.
        intros a req t Hin Ha Hreq. destruct Hb as [_ Hb]. destruct (Hb _ _ _ Hin Ha) as [[]|[H|[r [-> [H|[]]]]]]; auto; contradiction.
      + cbn [bfs]. destruct (fold_left (relax1 cur) rules (vis, q)) as [vis' q'] eqn:Ef.
        pose proof (relax_measure cur rules (incl_refl _) _ _ _ _ Ef) as Hm2. cbn [length] in Hm.
        pose proof (relax_spec cur rules _ _ _ _ Ef) as [new [Ev [Eq [H3 H4]]]].
        apply IH; [eapply binv_step; eauto| | |lia].
        * intros x Hx. rewrite Ev. apply in_or_app; right; auto.
        * (* by order of insertion *)
          assert (Hcur : reach rules seeds cur). { apply Hr. apply Hb. left; auto. }
          clear -Ef Hr Hcur. revert vis q vis' q' Ef Hr. assert (Hi : incl rules rules) by apply incl_refl. revert Hi. generalize rules at 1 3 as rs.
          induction rs as [|[[a req] t] rs IH]; intros Hi vis q vis' q' H Hr; cbn [fold_left] in H; [inversion H; subst; auto|].
          destruct (relax1 cur (vis, q) (a, req, t)) as [vis1 q1] eqn:Er. eapply (IH ltac:(intros x Hx; apply Hi; right; auto)); [exact H|].
          unfold relax1 in Er. destruct (elem_eq_dec a cur) as [->|]; [|inversion Er; subst; auto].
          destruct (match req with None => true | Some r => visb vis r end) eqn:Eq; [|inversion Er; subst; auto].
          destruct (visb vis t) eqn:Et; inversion Er; subst; auto.
          intros e [<-|He]; auto. eapply RRule; [apply Hi; left; reflexivity|auto|]. intros r ->. apply visb_spec in Eq; auto.
  Qed.
  Lemma mark_spec seeds : exists V, mark rules seeds = Some V /\ incl seeds V /\ closed rules (fun e => In e V) /\
    (forall e, In e V <-> reach rules seeds e).
  Proof.
    destruct (bfs_spec (length seeds + length rules) seeds seeds seeds) as [V [H1 [H2 [H3 H4]]]].
    - split; [apply incl_refl|]. auto.
    - apply incl_refl.
    - intros; constructor; auto.
    - unfold todo. assert (forall l : list Rule, length (filter (fun r : Rule => negb (visb seeds (snd r))) l) <= length l) as Hl.
      { induction l as [|x l IHl]; cbn; auto. destruct (negb _); cbn; lia. }
      specialize (Hl rules). lia.
    - exists V. split; auto. split; auto. split; auto. intros e; split; auto.
      induction 1 as [e He|a req t Hin Ha IHa Hr IHr]; auto. eapply H3; eauto. destruct req; auto.
  Qed.
End Bfs.
