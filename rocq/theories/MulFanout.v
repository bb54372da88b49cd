(* Model of RootCircuitRelaxed::solve_mul_fanout_limit, circuit/ir/dest/mul_fanout_limit.rs. *)
From Verif Require Import Prelude Field Expr Topo Ir IrFacts IrInst Sim RemoveUnreachable ReassignDup VarMap LocalPass SolveDuplicates.

Section FO.
  Context {F : Fld}.
  Notation DI := (DestI F false).
  Notation getv := (getv (F := F)).

  (* mul_fanout_limit.rs:9-17 *)
  Definition max_copy_cnt (gates : nat) : nat := if gates =? 0 then 0 else Nat.min 4 (64 / gates).
  (* the operands of the multiplications of an expression: one entry per occurrence *)
  Definition quads (e : Expression F) : list nat := flat_map (fun t => match vars t with VQuad x y => [x; y] | _ => [] end) e.

  (* mul_fanout_limit.rs:19-48: NewIdQueue; [next] only moves forward over used up entries, which are dropped here *)
  Record Q := { dflt : nat; queue : list (nat * nat) }.
  Definition q_new (id : nat) : Q := {| dflt := id; queue := [] |}.
  Definition q_push (q : Q) (id num : nat) : Q := {| dflt := dflt q; queue := queue q ++ [(id, num)] |}.
  Fixpoint q_next (d : nat) (l : list (nat * nat)) : nat * list (nat * nat) :=
    match l with
    | [] => (d, [])
    | (id, S n) :: l => (id, (id, n) :: l)
    | (_, 0) :: l => q_next d l
    end.
  Definition q_get (q : Q) : nat * Q := let '(y, l) := q_next (dflt q) (queue q) in (y, {| dflt := dflt q; queue := l |}).

  (* mul_fanout_limit.rs:52-82: mul_ref_cnt, max_copy_cnt and internal_var_insn_id (here the expression itself), one vector at a time *)
  Definition bump (k : nat) (l : list nat) (xs : list nat) : list nat := fold_left (fun l x => upd l x (nth x l 0 + k)) xs l.
  Definition fo_refs (is : list (DInsn F)) (l : list nat) : list nat :=
    fold_left (fun l i => match i with DVar e => bump 1 l (quads e) ++ [0] | DConst _ => l ++ [0] | DCall _ _ n => l ++ repeat 0 n end) is l.
  Definition copy_of (i : DInsn F) : list nat := match i with DVar e => [max_copy_cnt (length e)] | DConst _ => [max_copy_cnt 1] | DCall _ _ n => repeat 0 n end.
  Definition def_of (i : DInsn F) : list (option (Expression F)) := match i with DVar e => [Some e] | DConst _ => [None] | DCall _ _ n => repeat None n end.

  Section Lim.
    Variable limit : nat.
    (* mul_fanout_limit.rs:88-110: for i = k downto 1 *)
    Fixpoint fo_plan (mcopy : list nat) (defs : list (option (Expression F))) (k : nat) (mref add relay : list nat) : list nat * list nat * list nat :=
      match k with
      | 0 => (mref, add, relay)
      | S k' =>
          let r := nth k mref 0 in
          if r <=? Nat.max (nth k mcopy 0) 1 * limit then
            let a := Nat.max ((r + limit - 1) / limit) 1 - 1 in
            let mref := match nth k defs None with Some e => bump a mref (quads e) | None => mref end in
            fo_plan mcopy defs k' mref (upd add k a) relay
          else fo_plan mcopy defs k' mref add (upd relay k ((r - 2) / (limit - 1)))
      end.

    (* mul_fanout_limit.rs:139-146 *)
    Fixpoint fo_relays (k : nat) (q : Q) (new : nat) : list (DInsn F) * Q :=
      match k with
      | 0 => ([], q)
      | S k => let '(y, q) := q_get q in
               let '(is, q) := fo_relays k (q_push q (S new) limit) (S new) in (DVar (e_linear F f1 y) :: is, q)
      end.
    (* mul_fanout_limit.rs:124-147: the body of the while loop for one variable; None is the unwrap of an empty instruction list *)
    Definition fo_pend1 (a r : nat) (last : option (DInsn F)) (q : Q) (new : nat) : option (list (DInsn F) * Q) :=
      if (a =? 0) && (r =? 0) then Some ([], q)
      else
        let* ks := match a with 0 => Some [] | _ => let* j := last in Some (repeat j a) end in
        let q := {| dflt := dflt q; queue := queue q ++ (dflt q, limit) :: map (fun y => (y, limit)) (seq (S new) a) |} in
        let '(rs, q) := fo_relays r q (new + a) in Some (ks ++ rs, q).
    Section Plan.
      Variable add relay : list nat.
      Fixpoint fo_pend (xs : list nat) (nid : list Q) (lst : option (DInsn F)) (new : nat) : option (list (DInsn F) * list Q) :=
        match xs with
        | [] => Some ([], nid)
        | x :: xs =>
            let* q := nth_error nid x in
            let* r := fo_pend1 (nth x add 0) (nth x relay 0) lst q new in
            let '(ks, q) := r in
            let* r2 := fo_pend xs (upd nid x q) (last (map Some ks) lst) (new + length ks) in
            let '(ks2, nid) := r2 in Some (ks ++ ks2, nid)
        end.
      (* mul_fanout_limit.rs:176-190: one term *)
      Definition fo_term (nid : list Q) (t : Term F) : Term F * list Q :=
        match vars t with
        | VQuad x y =>
            let '(x', q) := q_get (nth x nid (q_new 0)) in
            let nid := upd nid x q in
            let '(y', q) := q_get (nth y nid (q_new 0)) in
            ({| coef := coef t; vars := VQuad x' y' |}, upd nid y q)
        | v => ({| coef := coef t; vars := vs_replace (fun x => dflt (nth x nid (q_new 0))) v |}, nid)
        end.
      Fixpoint fo_terms (nid : list Q) (ts : list (Term F)) : list (Term F) * list Q :=
        match ts with
        | [] => ([], nid)
        | t :: ts => let '(t, nid) := fo_term nid t in let '(ts, nid) := fo_terms nid ts in (t :: ts, nid)
        end.
      (* mul_fanout_limit.rs:174-195 *)
      Fixpoint fo_exprs (k : nat) (e : Expression F) (nid : list Q) : list (DInsn F) * list Q :=
        match k with
        | 0 => ([], nid)
        | S k => let '(ts, nid) := fo_terms nid e in let '(is, nid) := fo_exprs k e nid in (DVar (from_terms F ts) :: is, nid)
        end.
      (* mul_fanout_limit.rs:121-206; [solved] is last_solved_id, [lst] the last new instruction *)
      Fixpoint fo_insns (is : list (DInsn F)) (nid : list Q) (lst : option (DInsn F)) (new solved : nat) : option (list (DInsn F) * list Q) :=
        match is with
        | [] => Some ([], nid)
        | i :: is =>
            let* p := fo_pend (seq (S solved) (length nid - S solved)) nid lst new in
            let '(ks, nid) := p in
            let new := new + length ks in
            let solved := length nid - 1 in
            let x := length nid in
            match i with
            | DConst c =>
                let* r := fo_insns is (nid ++ [q_new (S new)]) (Some (DConst c)) (S new) solved in
                let '(is', nid) := r in Some (ks ++ DConst c :: is', nid)
            | DCall id l n =>
                if forallb (fun y => nth y add 0 =? 0) (seq x n) then
                  let j := DCall id (map (fun y => dflt (nth y nid (q_new 0))) l) n in
                  let* r := fo_insns is (nid ++ map q_new (seq (S new) n)) (Some j) (new + n) solved in
                  let '(is', nid) := r in Some (ks ++ j :: is', nid)
                else None
            | DVar e =>
                let a := nth x add 0 in
                if (a =? 0) || (nth x relay 0 =? 0) then
                  let '(es, nid) := fo_exprs (S a) e nid in
                  let q := {| dflt := new + S a; queue := if a =? 0 then [] else map (fun y => (y, limit)) (seq (S new) (S a)) |} in
                  let* r := fo_insns is (nid ++ [q]) (last (map Some es) None) (new + S a) (if a =? 0 then solved else x) in
                  let '(is', nid) := r in Some (ks ++ es ++ is', nid)
                else None
            end
        end.
    End Plan.
    (* mul_fanout_limit.rs:51-218 *)
    Definition fo_circuit (c : Circuit DI) : option (Circuit DI) :=
      let is : list (DInsn F) := instructions c in
      let mcopy := repeat 0 (S (num_inputs c)) ++ flat_map copy_of is in
      let defs := repeat None (S (num_inputs c)) ++ flat_map def_of is in
      let nv := length mcopy in
      if nv =? 1 then Some c
      else
        let '(_, add, relay) := fo_plan mcopy defs (nv - 1) (fo_refs is (repeat 0 (S (num_inputs c)))) (repeat 0 nv) (repeat 0 nv) in
        let* r := fo_insns add relay is (map q_new (seq 0 (S (num_inputs c)))) None (num_inputs c) 0 in
        let '(is', nid) := r in
        let f := fun x => dflt (nth x nid (q_new 0)) in
        Some {| instructions := is' : list (Insn DI); num_inputs := num_inputs c; outputs := map f (outputs c); constraints := map f (constraints c : list nat) : list (Con DI) |}.
    (* mul_fanout_limit.rs:221-239 *)
    Definition solve_mul_fanout_limit (rc : RootCircuit DI) : option (RootCircuit DI) :=
      if limit <=? 1 then None else local_pass DI DI fo_circuit rc.
  End Lim.

  (* ------------------------------------------------------------ queues *)
  Definition ids (q : Q) : list nat := dflt q :: map fst (queue q).
  Lemma q_next_ids d l y l' : q_next d l = (y, l') -> (y = d \/ In y (map fst l)) /\ incl (map fst l') (map fst l).
  Proof.
    revert y l'. induction l as [|[id [|n]] l IH]; intros y l' H; cbn [q_next] in H.
    - injection H as <- <-. split; auto. apply incl_refl.
    - destruct (IH _ _ H) as [A B]. split; [destruct A; [auto|right; right; auto]|]. cbn. apply incl_tl; auto.
    - injection H as <- <-. split; [right; left; auto|apply incl_refl].
  Qed.
  Lemma q_get_ids q y q' : q_get q = (y, q') -> In y (ids q) /\ incl (ids q') (ids q) /\ dflt q' = dflt q.
  Proof.
    unfold q_get. destruct (q_next (dflt q) (queue q)) as [y1 l1] eqn:E1. intros H. injection H as <- <-. destruct (q_next_ids _ _ _ _ E1) as [A B]. unfold ids; cbn [dflt queue].
    split; [destruct A as [->|A]; [left; auto|right; auto]|]. split; auto. intros z [<-|Hz]; [left; auto|right; auto].
  Qed.
  Lemma ids_push q y n : ids (q_push q y n) = ids q ++ [y].
  Proof. unfold ids, q_push; cbn. rewrite map_app. auto. Qed.

  (* [P x y]: the new variable y may stand for the old variable x *)
  Definition okq (P : nat -> nat -> Prop) (nid : list Q) : Prop := forall x q, nth_error nid x = Some q -> 0 < x -> forall y, In y (ids q) -> P x y.
  Lemma okq_upd P nid x q : okq P nid -> (0 < x -> forall y, In y (ids q) -> P x y) -> okq P (upd nid x q).
  Proof.
    intros H Hq z q' Hz Hp y Hy. rewrite nth_error_upd in Hz. destruct ((x =? z) && (x <? length nid)) eqn:Ez.
    - injection Hz as <-. apply andb_true_iff in Ez. destruct Ez as [Ez _]. apply Nat.eqb_eq in Ez. subst. auto.
    - eapply H; eauto.
  Qed.
  Lemma okq_impl (P P' : nat -> nat -> Prop) nid : (forall x y, x < length nid -> P x y -> P' x y) -> okq P nid -> okq P' nid.
  Proof. intros Hi H x q Hx Hp y Hy. apply Hi; [apply nth_error_Some; congruence|]. eapply H; eauto. Qed.
  Lemma okq_app P nid l : okq P nid -> (forall k q, nth_error l k = Some q -> 0 < length nid + k -> forall y, In y (ids q) -> P (length nid + k) y) -> okq P (nid ++ l).
  Proof.
    intros H Hl x q Hx Hp y Hy. destruct (Nat.lt_ge_cases x (length nid)).
    - rewrite nth_error_app1 in Hx by auto. eapply H; eauto.
    - rewrite nth_error_app2 in Hx by auto. specialize (Hl _ _ Hx). replace (length nid + (x - length nid)) with x in Hl by lia. auto.
  Qed.
  Lemma okq_nth P nid x : okq P nid -> 0 < x < length nid -> forall y, In y (ids (nth x nid (q_new 0))) -> P x y.
  Proof. intros H Hx. destruct (nth_error_Some_ex nid x) as [q Hq]; [lia|]. rewrite (nth_error_nth nid x (q_new 0) Hq). apply (H x q Hq). lia. Qed.
  Lemma okq_dflt P nid x : okq P nid -> 0 < x < length nid -> P x (dflt (nth x nid (q_new 0))).
  Proof. intros H Hx. eapply okq_nth; eauto. left; auto. Qed.

  Inductive vs_rel (P : nat -> nat -> Prop) : VarSpec -> VarSpec -> Prop :=
  | VRc : vs_rel P VConst VConst
  | VRl x y : P x y -> vs_rel P (VLinear x) (VLinear y)
  | VRq x x' y y' : P x x' -> P y y' -> vs_rel P (VQuad x y) (VQuad x' y')
  | VRg g l l' : Forall2 P l l' -> vs_rel P (VCustom g l) (VCustom g l')
  | VRr x y : P x y -> vs_rel P (VRandom x) (VRandom y).
  Definition t_rel P (t t' : Term F) : Prop := coef t' = coef t /\ vs_rel P (vars t) (vars t').

  Lemma fo_term_rel P nid t t' nid' : fo_term nid t = (t', nid') -> okq P nid -> Forall (fun x => 0 < x < length nid) (vs_vars (vars t)) ->
    t_rel P t t' /\ okq P nid' /\ length nid' = length nid.
  Proof.
    intros H Ho Hv. unfold fo_term in H. unfold t_rel. destruct (vars t) as [|x|x y|g l|x] eqn:Ev; cbn [vs_vars] in Hv.
    - injection H as <- <-. cbn. split; [split; auto; apply VRc|]. auto.
    - injection H as <- <-. cbn. split; [split; auto; apply VRl; inversion Hv; subst; apply okq_dflt; auto|]. auto.
    - inversion Hv as [|? ? Hx Hv2]; subst. inversion Hv2 as [|? ? Hy _]; subst.
      destruct (q_get (nth x nid (q_new 0))) as [x' q1] eqn:E1. destruct (q_get_ids _ _ _ E1) as [A1 [B1 C1]].
      assert (Ho1 : okq P (upd nid x q1)) by (apply okq_upd; auto; intros _ z Hz; eapply okq_nth; eauto).
      destruct (q_get (nth y (upd nid x q1) (q_new 0))) as [y' q2] eqn:E2. destruct (q_get_ids _ _ _ E2) as [A2 [B2 C2]]. injection H as <- <-. cbn.
      split; [split; auto; apply VRq; [exact (okq_nth P nid x Ho Hx _ A1)|refine (okq_nth P (upd nid x q1) y Ho1 _ _ A2); rewrite upd_length; auto]|]. split; [|rewrite !upd_length; auto].
      apply okq_upd; auto. intros _ z Hz. eapply (okq_nth P (upd nid x q1)); eauto. rewrite upd_length; auto.
    - injection H as <- <-. cbn. split; [split; auto; apply VRg; clear -Hv Ho; induction l as [|a l IH]; cbn; constructor; inversion Hv; subst; auto; apply okq_dflt; auto|]. auto.
    - injection H as <- <-. cbn. split; [split; auto; apply VRr; inversion Hv; subst; apply okq_dflt; auto|]. auto.
  Qed.
  Lemma fo_terms_rel P ts : forall nid ts' nid', fo_terms nid ts = (ts', nid') -> okq P nid -> Forall (fun x => 0 < x < length nid) (e_vars F ts) ->
    Forall2 (t_rel P) ts ts' /\ okq P nid' /\ length nid' = length nid.
  Proof.
    induction ts as [|t ts IH]; intros nid ts' nid' H Ho Hv; cbn [fo_terms] in H.
    - injection H as <- <-. auto.
    - destruct (fo_term nid t) as [t1 n1] eqn:E1. destruct (fo_terms n1 ts) as [ts1 n2] eqn:E2. injection H as <- <-. unfold e_vars in Hv. cbn [flat_map] in Hv. apply Forall_app in Hv. destruct Hv as [Hv1 Hv2].
      destruct (fo_term_rel P _ _ _ _ E1 Ho Hv1) as [A [B C]]. rewrite <- C in Hv2. destruct (IH _ _ _ E2 B Hv2) as [A2 [B2 C2]]. split; [constructor; auto|]. split; auto. congruence.
  Qed.
  Lemma fo_exprs_rel P k e : forall nid es nid', fo_exprs k e nid = (es, nid') -> okq P nid -> Forall (fun x => 0 < x < length nid) (e_vars F e) ->
    length es = k /\ Forall (fun j => exists ts, j = DVar (from_terms F ts) /\ Forall2 (t_rel P) e ts) es /\ okq P nid' /\ length nid' = length nid.
  Proof.
    induction k as [|k IH]; intros nid es nid' H Ho Hv; cbn [fo_exprs] in H.
    - injection H as <- <-. auto.
    - destruct (fo_terms nid e) as [ts n1] eqn:E1. destruct (fo_exprs k e n1) as [es1 n2] eqn:E2. injection H as <- <-. destruct (fo_terms_rel P _ _ _ _ E1 Ho Hv) as [A [B C]]. rewrite <- C in Hv.
      destruct (IH _ _ _ E2 B Hv) as [A2 [B2 [C2 D2]]]. split; [cbn; auto|]. split; [constructor; eauto|]. split; auto. congruence.
  Qed.
  Lemma t_rel_vars P e ts : Forall2 (t_rel P) e ts -> forall y, In y (e_vars F ts) -> exists x, In x (e_vars F e) /\ P x y.
  Proof.
    unfold e_vars. induction 1 as [|t t' e ts [_ Ht] H IH]; cbn [flat_map]; [intros y []|]. intros y Hy. apply in_app_or in Hy. destruct Hy as [Hy|Hy].
    - assert (G : exists x, In x (vs_vars (vars t)) /\ P x y); [|destruct G as [x [A B]]; exists x; split; auto; apply in_or_app; auto].
      destruct Ht as [|a b Hab|a a' b b' Ha Hb|g l l' Hl|a b Hab]; cbn [vs_vars] in *.
      + destruct Hy.
      + destruct Hy as [<-|[]]. exists a; split; auto. left; auto.
      + destruct Hy as [<-|[<-|[]]]; [exists a|exists b]; split; auto; [left|right; left]; auto.
      + clear -Hl Hy. induction Hl as [|a b l l' Hab Hl IH]; [destruct Hy|]. destruct Hy as [<-|Hy]; [exists a; split; auto; left; auto|]. destruct (IH Hy) as [x [A B]]. exists x; split; auto. right; auto.
      + destruct Hy as [<-|[]]. exists a; split; auto. left; auto.
    - destruct (IH y Hy) as [x [A B]]. exists x. split; auto. apply in_or_app; auto.
  Qed.
  Lemma t_rel_no_random P e ts : Forall2 (t_rel P) e ts -> no_random F e -> no_random F ts.
  Proof.
    unfold no_random. induction 1 as [|t t' e ts [_ Ht] H IH]; intros Hn; auto. inversion Hn as [|? ? A B]; subst. constructor; auto. destruct Ht; auto.
  Qed.
  Lemma t_rel_val P E (g g' : nat -> F) e ts : Forall2 (t_rel P) e ts -> (forall x y, In x (e_vars F e) -> P x y -> g' y = g x) -> expr_val F E g' ts = expr_val F E g e.
  Proof.
    unfold e_vars. induction 1 as [|t t' e ts [Hc Ht] H IH]; intros Hg; cbn [flat_map] in Hg; auto. rewrite !expr_val_cons. f_equal; [|apply IH; intros; apply Hg; auto; apply in_or_app; auto].
    assert (Hg2 : forall x y, In x (vs_vars (vars t)) -> P x y -> g' y = g x) by (intros; apply Hg; auto; apply in_or_app; auto). unfold term_val. rewrite Hc. f_equal.
    destruct Ht as [|a b Hab|a a' b b' Ha Hb|gt l l' Hl|a b Hab]; cbn [vs_val vs_vars] in *; auto.
    - apply Hg2; auto. left; auto.
    - f_equal; apply Hg2; auto; [left|right; left]; auto.
    - f_equal. clear - Hl Hg2. induction Hl as [|a b l l' Hab Hl IHl]; auto. cbn [map]. f_equal; [apply Hg2; auto; left; auto|]. apply IHl. intros; apply Hg2; auto. right; auto.
  Qed.

  (* ------------------------------------------------------------ statics *)
  Definition plain (ks : list (DInsn F)) : Prop := Forall (fun k => d_call F k = None) ks.
  Lemma plain_nouts ks : plain ks -> nouts DI ks = length ks.
  Proof. induction 1 as [|k ks Hk H IH]; cbn [nouts length]; auto. change (@i_nout F DI k) with (d_nout F k). rewrite (d_nout1 _ Hk), IH. auto. Qed.
  Section L2.
  Variable limit : nat.
  Notation inr new := (fun y => 0 < y <= new).
  Lemma fo_relays_static k : forall q new is q', fo_relays limit k q new = (is, q') -> Forall (inr new) (ids q) ->
    length is = k /\ wf_insns DI is new /\ plain is /\ Forall (inr (new + k)) (ids q') /\ dflt q' = dflt q.
  Proof.
    induction k as [|k IH]; intros q new is q' H Hq; cbn [fo_relays] in H.
    - injection H as <- <-. rewrite Nat.add_0_r. cbn. split; auto. split; auto. split; [constructor|]. auto.
    - destruct (q_get q) as [y q1] eqn:E1. destruct (fo_relays limit k _ (S new)) as [is1 q2] eqn:E2. injection H as <- <-. destruct (q_get_ids _ _ _ E1) as [A [B C]].
      destruct (IH _ _ _ _ E2) as [A2 [B2 [C2 [D2 E3]]]].
      { rewrite ids_push. apply Forall_app. split; [|constructor; [lia|constructor]]. apply Forall_forall. intros z Hz. rewrite Forall_forall in Hq. specialize (Hq z (B z Hz)). cbn in *; lia. }
      split; [cbn; auto|]. split.
      { cbn [wf_insns]. change (@i_nout F DI (DVar (e_linear F f1 y))) with 1. change (@i_inputs F DI (DVar (e_linear F f1 y))) with [y]. rewrite Nat.add_1_r. split; auto. constructor; [|constructor]. rewrite Forall_forall in Hq. apply (Hq y A). }
      split; [constructor; auto|]. split; [replace (new + S k) with (S new + k) by lia; auto|]. cbn in E3. congruence.
  Qed.
  Lemma fo_pend1_static a r lst q new : Forall (inr new) (ids q) -> (0 < a -> exists c, lst = Some (DConst c)) ->
    exists ks q', fo_pend1 limit a r lst q new = Some (ks, q') /\ wf_insns DI ks new /\ plain ks /\ Forall (inr (new + length ks)) (ids q') /\ dflt q' = dflt q /\ (a = 0 -> r = 0 -> ks = [] /\ q' = q).
  Proof.
    intros Hq Ha. unfold fo_pend1. destruct ((a =? 0) && (r =? 0)) eqn:Ez.
    - exists [], q. cbn [length]. rewrite Nat.add_0_r. split; auto. split; [constructor|]. split; [constructor|]. auto.
    - assert (Hks : exists ks, match a with 0 => Some [] | S _ => let* j := lst in Some (repeat j a) end = Some ks /\ length ks = a /\ wf_insns DI ks new /\ plain ks).
      { destruct a as [|a]; [exists []; split; auto; split; auto; split; constructor|]. destruct Ha as [c ->]; [lia|]. cbn [obind]. eexists. split; [reflexivity|]. split; [apply repeat_length|].
        generalize (S a). clear. intros n. split; [|apply Forall_forall; intros x Hx; apply repeat_spec in Hx; subst; auto]. revert new. induction n as [|n IH]; intros new; cbn [repeat wf_insns]; auto. split; auto. constructor. }
      destruct Hks as [ks [Hk1 [Hk2 [Hk3 Hk4]]]]. rewrite Hk1. cbn [obind].
      match goal with |- context [fo_relays limit r ?q0 (new + a)] => set (q1 := q0) end. destruct (fo_relays limit r q1 (new + a)) as [rs q2] eqn:E2.
      destruct (fo_relays_static _ _ _ _ _ E2) as [A [B [C [D E3]]]].
      { unfold q1, ids; cbn [dflt queue]. rewrite map_app. cbn [map fst]. rewrite map_map. cbn [fst]. rewrite map_id. unfold ids in Hq. inversion Hq; subst. constructor; [lia|]. apply Forall_app. split.
        - eapply Forall_impl; [|eassumption]. cbn; intros; lia.
        - constructor; [lia|]. apply Forall_seq. intros; lia. }
      exists (ks ++ rs), q2. split; auto. split; [apply wf_insns_app; rewrite (plain_nouts ks Hk4), Hk2; auto|]. split; [apply Forall_app; auto|]. rewrite app_length, Hk2, A.
      split; [rewrite Nat.add_assoc; auto|]. split; [auto|]. intros -> ->. discriminate.
  Qed.
  Definition okS (nid : list Q) (new : nat) : Prop := okq (fun _ y => 0 < y <= new) nid.
  Lemma okS_nth nid new x q : okS nid new -> 0 < x -> nth_error nid x = Some q -> Forall (inr new) (ids q).
  Proof. intros H Hx Hq. apply Forall_forall. intros y Hy. eapply H; eauto. Qed.
  Lemma fo_pend_static add relay xs : forall nid lst new, okS nid new -> Forall (fun x => 0 < x < length nid) xs ->
    (forall x, In x xs -> 0 < nth x add 0 -> xs = [x] /\ exists c, lst = Some (DConst c)) ->
    exists ks nid', fo_pend limit add relay xs nid lst new = Some (ks, nid') /\ wf_insns DI ks new /\ plain ks /\ okS nid' (new + length ks) /\ length nid' = length nid.
  Proof.
    induction xs as [|x xs IH]; intros nid lst new Ho Hx Ha; cbn [fo_pend].
    - exists [], nid. cbn [length]. rewrite Nat.add_0_r. split; auto. split; [constructor|]. split; [constructor|]. auto.
    - inversion Hx as [|? ? Hx1 Hx2]; subst. destruct (nth_error_Some_ex nid x) as [q Hq]; [lia|]. rewrite Hq. cbn [obind].
      destruct (fo_pend1_static (nth x add 0) (nth x relay 0) lst q new) as [ks [q' [A [B [C [D _]]]]]].
      { apply (okS_nth nid new x q Ho); [lia|auto]. } { intros Hp. apply (Ha x); auto. left; auto. }
      rewrite A. cbn [obind]. destruct (IH (upd nid x q') (last (map Some ks) lst) (new + length ks)) as [ks2 [nid2 [A2 [B2 [C2 [D2 E2]]]]]].
      + apply okq_upd; [eapply okq_impl; [|exact Ho]; cbn; intros; lia|]. intros _ y Hy. rewrite Forall_forall in D. apply D; auto.
      + rewrite upd_length. auto.
      + intros z Hz Hp. destruct (Ha z) as [E1 _]; auto; [right; auto|]. injection E1 as -> ->. destruct Hz.
      + rewrite A2. cbn [obind]. exists (ks ++ ks2), nid2. split; auto. split; [apply wf_insns_app; rewrite (plain_nouts ks C); auto|]. split; [apply Forall_app; auto|]. rewrite app_length, Nat.add_assoc. split; auto. rewrite E2. apply upd_length.
  Qed.

  Section Plan2.
  Variable add relay mcopy : list nat.
  Hypothesis P1 : forall x, 0 < nth x add 0 -> 0 < nth x mcopy 0.
  Hypothesis P2 : forall x, 0 < nth x add 0 -> nth x relay 0 = 0.
  Definition PI (nid : list Q) (lst : option (DInsn F)) (solved : nat) : Prop :=
    solved < length nid /\ forall x, solved < x < length nid -> 0 < nth x add 0 -> x = S solved /\ length nid = S x /\ exists c, lst = Some (DConst c).
  Lemma PI_pend nid lst solved : PI nid lst solved -> forall x, In x (seq (S solved) (length nid - S solved)) -> 0 < nth x add 0 -> seq (S solved) (length nid - S solved) = [x] /\ exists c, lst = Some (DConst c).
  Proof.
    intros [Hl H] x Hx Hp. apply in_seq in Hx. destruct (H x) as [-> [Hn Hc]]; [lia|auto|]. split; auto. rewrite Hn. replace (S (S solved) - S solved) with 1 by lia. auto.
  Qed.
  Lemma last_Some {A} (l : list A) d : l <> [] -> exists x, last (map Some l) d = Some x /\ In x l.
  Proof.
    induction l as [|a l IH]; intros H; [contradiction|]. destruct l as [|b l]; [exists a; split; auto; left; auto|]. destruct IH as [x [A1 B]]; [discriminate|]. exists x. split; [exact A1|right; auto].
  Qed.

  Lemma fo_insns_static is : forall nid lst new solved cur pre, okS nid new -> length nid = S cur -> wf_insns DI is cur -> PI nid lst solved -> mcopy = pre ++ flat_map copy_of is -> length pre = length nid ->
    exists is' nid', fo_insns limit add relay is nid lst new solved = Some (is', nid') /\ wf_insns DI is' new /\ length nid' = S (cur + nouts DI is) /\ okS nid' (new + nouts DI is') /\
      (forall i' o l' n, In i' is' -> d_call F i' = Some (o, l', n) -> exists i l, In i is /\ d_call F i = Some (o, l, n) /\ length l' = length l).
  Proof.
    induction is as [|i is IH]; intros nid lst new solved cur pre Ho Hl Hw Hp Hm Hpre; cbn [fo_insns].
    - exists [], nid. cbn. rewrite !Nat.add_0_r. split; auto. split; auto. split; auto. split; auto. intros ? ? ? ? [].
    - destruct (fo_pend_static add relay (seq (S solved) (length nid - S solved)) nid lst new Ho) as [ks [n1 [A [B [C [D E1]]]]]].
      { apply Forall_seq. intros; lia. } { apply PI_pend; auto. }
      rewrite A. cbn [obind]. cbn [wf_insns nouts] in Hw |- *. destruct Hw as [Hi Hw]. set (new1 := new + length ks) in *. change (@i_nout F DI i) with (d_nout F i) in *. change (@i_inputs F DI i) with (d_inputs F i) in *.
      cbn [flat_map] in Hm. rewrite app_assoc in Hm.
      assert (Hlen1 : 0 < length n1) by lia.
      assert (Hkc : forall i' o l' n, In i' ks -> d_call F i' = Some (o, l', n) -> False) by (intros i' o l' n Hin Ed; unfold plain in C; rewrite Forall_forall in C; rewrite (C _ Hin) in Ed; discriminate).
      destruct i as [e|id l n|c]; cbn [d_nout d_inputs copy_of] in *.
      + set (a := nth (length n1) add 0). assert (Hb : (a =? 0) || (nth (length n1) relay 0 =? 0) = true).
        { destruct (Nat.eqb_spec a 0); auto. rewrite P2 by (unfold a in *; lia). auto. } rewrite Hb.
        destruct (fo_exprs (S a) e n1) as [es n2] eqn:E2. destruct (fo_exprs_rel (fun _ y => 0 < y <= new1) _ _ _ _ _ E2 D) as [L2 [F2 [O2 G2]]].
        { eapply Forall_impl; [|exact Hi]. cbn; intros; lia. }
        assert (Pes : plain es) by (eapply Forall_impl; [|exact F2]; cbn; intros j [ts [-> _]]; auto).
        assert (Wes : wf_insns DI es new1).
        { assert (G : forall m, new1 <= m -> wf_insns DI es m); [|apply G; auto]. clear -F2. induction F2 as [|j es [ts [-> Ht]] F2 IH]; intros m Hle; cbn [wf_insns]; auto. split; [|apply IH; lia].
          change (Forall (fun x => 0 < x <= m) (e_vars F (from_terms F ts))). apply Forall_forall. intros y Hy. apply from_terms_vars in Hy. destruct (t_rel_vars _ _ _ Ht y Hy) as [x [_ Hx]]. lia. }
        edestruct (IH (n2 ++ [{| dflt := new1 + S a; queue := if a =? 0 then [] else map (fun y => (y, limit)) (seq (S new1) (S a)) |}]) (last (map Some es) None) (new1 + S a) (if a =? 0 then length n1 - 1 else length n1) (cur + 1)) as [is' [n3 [A3 [B3 [C3 [D3 K3]]]]]]; [| |exact Hw| |exact Hm| |].
        * apply okq_app; [eapply okq_impl; [|exact O2]; cbn; intros; lia|]. intros k q Hk _ y Hy. destruct k as [|k]; [|destruct k; discriminate]. injection Hk as <-. destruct Hy as [<-|Hy]; cbn [dflt]; [lia|]. cbn [queue] in Hy.
          destruct (a =? 0); [destruct Hy|]. apply in_map_iff in Hy. destruct Hy as [[y1 l1] [<- Hy]]. change (In (y1, l1) (map (fun y => (y, limit)) (seq (S new1) (S a)))) in Hy. apply in_map_iff in Hy. destruct Hy as [y2 [Hy2 Hy]]. injection Hy2 as <- <-. apply in_seq in Hy. cbn [fst]. lia.
        * rewrite app_length. cbn. lia.
        * split; [rewrite app_length; cbn; destruct (a =? 0); lia|]. intros x Hx Hpos. rewrite app_length in Hx. cbn [length] in Hx. exfalso. destruct (Nat.eqb_spec a 0); [|lia]. assert (x = length n1) by lia. subst x. unfold a in *. lia.
        * rewrite !app_length. cbn [length]. lia.
        * rewrite A3. cbn [obind]. eexists _, _. split; [reflexivity|]. rewrite !nouts_app, (plain_nouts ks C), (plain_nouts es Pes), L2.
          split; [apply wf_insns_app; split; auto; apply wf_insns_app; rewrite (plain_nouts es Pes), (plain_nouts ks C), L2; auto|]. split; [lia|].
          split; [replace (new + (length ks + (S a + nouts DI is'))) with (new1 + S a + nouts DI is') by (unfold new1; lia); auto|].
          intros i' o l' n Hin Ed. apply in_app_or in Hin. destruct Hin as [Hin|Hin]; [exfalso; eauto|]. apply in_app_or in Hin. destruct Hin as [Hin|Hin].
          -- unfold plain in Pes. rewrite Forall_forall in Pes. rewrite (Pes _ Hin) in Ed. discriminate.
          -- destruct (K3 i' o l' n Hin Ed) as [i0 [l0 [X Y]]]. exists i0, l0. split; [right|]; auto.
      + assert (Hz : forall y, length n1 <= y < length n1 + n -> nth y add 0 = 0).
        { intros y Hy. destruct (nth y add 0) eqn:Ey; auto. exfalso. assert (Hpos : 0 < nth y mcopy 0) by (apply P1; lia). rewrite Hm, <- app_assoc in Hpos. rewrite app_nth2 in Hpos by lia. rewrite app_nth1 in Hpos by (rewrite repeat_length; lia). rewrite nth_repeat in Hpos. lia. }
        assert (Hf : forallb (fun y => nth y add 0 =? 0) (seq (length n1) n) = true). { apply forallb_forall. intros y Hy. apply in_seq in Hy. apply Nat.eqb_eq. apply Hz. lia. } rewrite Hf.
        set (j := DCall id (map (fun y => dflt (nth y n1 (q_new 0))) l) n : DInsn F).
        edestruct (IH (n1 ++ map q_new (seq (S new1) n)) (Some j) (new1 + n) (length n1 - 1) (cur + n)) as [is' [n3 [A3 [B3 [C3 [D3 K3]]]]]]; [| |exact Hw| |exact Hm| |].
        * apply okq_app; [eapply okq_impl; [|exact D]; cbn; intros; lia|]. intros k q Hk _ y Hy. apply nth_error_In in Hk. apply in_map_iff in Hk. destruct Hk as [z [<- Hz2]]. apply in_seq in Hz2. destruct Hy as [<-|[]]. cbn. lia.
        * rewrite app_length, map_length, seq_length. lia.
        * split; [rewrite app_length; lia|]. intros x Hx Hpos. rewrite app_length, map_length, seq_length in Hx. rewrite Hz in Hpos; lia.
        * rewrite !app_length, repeat_length, map_length, seq_length. lia.
        * fold j in A3. rewrite A3. cbn [obind]. eexists _, _. split; [reflexivity|]. rewrite nouts_app, (plain_nouts ks C). cbn [nouts]. change (@i_nout F DI j) with n.
          assert (Hargs : Forall (fun y => 0 < y <= new1) (d_inputs F j)). { cbn. apply Forall_forall. intros y Hy. apply in_map_iff in Hy. destruct Hy as [x [<- Hx]]. apply (okq_dflt _ n1 x D). rewrite Forall_forall in Hi. specialize (Hi x Hx). lia. }
          split; [apply wf_insns_app; split; auto; cbn [wf_insns]; rewrite (plain_nouts ks C); change (@i_nout F DI j) with n; split; auto|]. split; [lia|].
          split; [replace (new + (length ks + (n + nouts DI is'))) with (new1 + n + nouts DI is') by (unfold new1; lia); auto|].
          intros i' o l' n' Hin Ed. apply in_app_or in Hin. destruct Hin as [Hin|[<-|Hin]]; [exfalso; eauto| |].
          -- injection Ed as <- <- <-. exists (DCall id l n), l. split; [left; auto|]. split; auto. apply map_length.
          -- destruct (K3 i' o l' n' Hin Ed) as [i0 [l0 [X Y]]]. exists i0, l0. split; [right|]; auto.
      + edestruct (IH (n1 ++ [q_new (S new1)]) (Some (DConst c)) (S new1) (length n1 - 1) (cur + 1)) as [is' [n3 [A3 [B3 [C3 [D3 K3]]]]]]; [| |exact Hw| |exact Hm| |].
        * apply okq_app; [eapply okq_impl; [|exact D]; cbn; intros; lia|]. intros k q Hk _ y Hy. destruct k as [|k]; [|destruct k; discriminate]. injection Hk as <-. destruct Hy as [<-|[]]. cbn. lia.
        * rewrite app_length. cbn. lia.
        * split; [rewrite app_length; lia|]. intros x Hx Hpos. rewrite app_length in *. cbn [length] in *. split; [lia|]. split; [lia|]. eauto.
        * rewrite !app_length. cbn [length]. lia.
        * rewrite A3. cbn [obind]. eexists _, _. split; [reflexivity|]. rewrite nouts_app, (plain_nouts ks C). cbn [nouts]. change (@i_nout F DI (DConst c)) with 1.
          split; [apply wf_insns_app; split; auto; cbn [wf_insns]; rewrite (plain_nouts ks C); change (@i_nout F DI (DConst c)) with 1; rewrite Nat.add_1_r; split; auto; constructor|]. split; [lia|].
          split; [replace (new + (length ks + (1 + nouts DI is'))) with (S new1 + nouts DI is') by (unfold new1; lia); auto|].
          intros i' o l' n' Hin Ed. apply in_app_or in Hin. destruct Hin as [Hin|[<-|Hin]]; [exfalso; eauto|discriminate|].
          destruct (K3 i' o l' n' Hin Ed) as [i0 [l0 [X Y]]]. exists i0, l0. split; [right|]; auto.
  Qed.
  End Plan2.

  (* ------------------------------------------------------------ behaviour *)
  Section Dyn.
  Variable E : Env F.
  Variable cs cs' : list (nat * Circuit DI).
  Variable U : Prop.
  (* from vals' the instructions ks can append e, and under U only e *)
  Definition det (ks : list (DInsn F)) (vals' e : list F) : Prop :=
    exec DI E cs' ks vals' (vals' ++ e) true /\ (U -> forall vf' b, exec DI E cs' ks vals' vf' b -> vf' = vals' ++ e /\ b = true).
  Lemma det_nil vals' : det [] vals' [].
  Proof. split; [rewrite app_nil_r; constructor|]. intros _ vf' b H. apply exec_nil in H. rewrite app_nil_r. auto. Qed.
  Lemma det_app k1 k2 vals' e1 e2 : det k1 vals' e1 -> det k2 (vals' ++ e1) e2 -> det (k1 ++ k2) vals' (e1 ++ e2).
  Proof.
    intros [A1 B1] [A2 B2]. split.
    - apply (exec_app DI). exists (vals' ++ e1), true, true. rewrite app_assoc. auto.
    - intros HU vf' b H. apply (exec_app DI) in H. destruct H as [v1 [b1 [b2 [X [Y ->]]]]]. destruct (B1 HU _ _ X) as [-> ->]. destruct (B2 HU _ _ Y) as [-> ->]. rewrite app_assoc. auto.
  Qed.
  Lemma det_one k vals' v : d_call F k = None -> Forall (inb vals') (d_inputs F k) -> d_sem F E k (getv vals') [v] -> (U -> forall o, d_sem F E k (getv vals') o -> o = [v]) -> det [k] vals' [v].
  Proof.
    intros Hc Hi Hs Hu. split.
    - eapply ESem; [exact Hc|exact Hi|exact Hs|constructor].
    - intros HU vf' b H. apply exec_cons in H. destruct H as [o [b1 [b2 [A [B ->]]]]]. apply exec_nil in B. destruct B as [-> ->]. unfold step in A. change (@i_call F DI k) with (d_call F k) in A. rewrite Hc in A.
      destruct A as [_ [A ->]]. rewrite (Hu HU o A). auto.
  Qed.
  Lemma det_len ks vals' e vf' b : U -> det ks vals' e -> exec DI E cs' ks vals' vf' b -> vf' = vals' ++ e /\ b = true.
  Proof. intros HU [_ H]. auto. Qed.

  Definition has (vals' : list F) (v : F) (y : nat) : Prop := y < length vals' /\ getv vals' y = v.
  Lemma has_app vals' e v y : has vals' v y -> has (vals' ++ e) v y.
  Proof. intros [A B]. split; [rewrite app_length; lia|]. rewrite getv_app_l; auto. Qed.
  Lemma has_end vals' v e : has (vals' ++ v :: e) v (length vals').
  Proof. split; [rewrite app_length; cbn; lia|]. rewrite getv_app_r by lia. rewrite Nat.sub_diag. reflexivity. Qed.

  Lemma fo_relays_dyn k : forall q new is q' vals' v, fo_relays limit k q new = (is, q') -> length vals' = S new -> Forall (has vals' v) (ids q) ->
    exists e, length e = length is /\ det is vals' e /\ Forall (has (vals' ++ e) v) (ids q').
  Proof.
    induction k as [|k IH]; intros q new is q' vals' v H Hl Hq; cbn [fo_relays] in H.
    - injection H as <- <-. exists []. split; auto. split; [apply det_nil|]. rewrite app_nil_r. auto.
    - destruct (q_get q) as [y q1] eqn:E1. destruct (fo_relays limit k _ (S new)) as [is1 q2] eqn:E2. injection H as <- <-. destruct (q_get_ids _ _ _ E1) as [A [B C]].
      rewrite Forall_forall in Hq. destruct (Hq y A) as [Hy1 Hy2].
      destruct (IH _ _ _ _ (vals' ++ [v]) v E2) as [e [L1 [D1 G1]]].
      { rewrite app_length; cbn; lia. }
      { rewrite ids_push. apply Forall_app. split; [|constructor; [|constructor]]. apply Forall_forall. intros z Hz. apply has_app. apply Hq. auto. rewrite <- Hl. apply has_end. }
      exists (v :: e). split; [cbn; auto|]. split; [|rewrite <- app_assoc in G1; exact G1].
      apply (det_app [DVar (e_linear F f1 y)] is1 vals' [v] e); auto. apply det_one; auto.
      + constructor; [exact Hy1|constructor].
      + apply linear_sem. rewrite Hy2; auto.
      + intros _ o Ho. apply linear_sem in Ho. rewrite Hy2 in Ho. auto.
  Qed.
  Lemma fo_pend1_dyn a r lst q new ks q' vals' v : fo_pend1 limit a r lst q new = Some (ks, q') -> length vals' = S new -> Forall (has vals' v) (ids q) ->
    (0 < a -> exists c, lst = Some (DConst c) /\ coef_sem E c v /\ (U -> quiet E (DConst c))) ->
    exists e, length e = length ks /\ det ks vals' e /\ Forall (has (vals' ++ e) v) (ids q').
  Proof.
    intros H Hl Hq Ha. unfold fo_pend1 in H. destruct ((a =? 0) && (r =? 0)).
    - injection H as <- <-. exists []. split; auto. split; [apply det_nil|]. rewrite app_nil_r; auto.
    - apply obind_some in H. destruct H as [k1 [H1 H2]]. destruct (fo_relays limit r _ (new + a)) as [rs q2] eqn:E2. injection H2 as <- <-.
      assert (D1 : length k1 = a /\ det k1 vals' (repeat v a)).
      { destruct a as [|a]; [injection H1 as <-; split; auto; apply det_nil|]. destruct Ha as [c [-> [Hc Hu]]]; [lia|]. cbn [obind] in H1. injection H1 as <-. change (DConst c :: repeat (DConst c) a) with (repeat (DConst c) (S a)). split; [apply repeat_length|].
        clear -Hc Hu. revert vals'. induction (S a) as [|m IH]; intros vals'; [apply det_nil|]. apply (det_app [DConst c] (repeat (DConst c) m) vals' [v] (repeat v m)); auto. apply det_one; auto.
        - constructor.
        - exists v. auto.
        - intros HU o Ho. apply (quiet_det E (DConst c) (getv vals')); auto. exists v; auto. }
      destruct D1 as [L1 D1].
      destruct (fo_relays_dyn _ _ _ _ _ (vals' ++ repeat v a) v E2) as [e [L2 [D2 G2]]].
      { rewrite app_length, repeat_length. lia. }
      { unfold ids; cbn [dflt queue]. unfold ids in Hq. inversion Hq as [|? ? Hd Hqs]; subst. constructor; [apply has_app; auto|]. rewrite map_app. apply Forall_app. split; [eapply Forall_impl; [|exact Hqs]; intros; apply has_app; auto|].
        cbn [map fst]. constructor; [apply has_app; auto|]. rewrite map_map. cbn [fst]. rewrite map_id. apply Forall_forall. intros y Hy. apply in_seq in Hy. split; [rewrite app_length, repeat_length; lia|].
        rewrite getv_app_r by lia. unfold Ir.getv. destruct (Nat.lt_ge_cases (y - length vals') (length k1)); [|lia]. rewrite nth_indep with (d' := v) by (rewrite repeat_length; auto). apply nth_repeat. }
      exists (repeat v a ++ e). rewrite !app_length, repeat_length. split; [lia|]. split; [apply det_app; auto|]. rewrite app_assoc. auto.
  Qed.

  Definition PV (vals vals' : list F) (x y : nat) : Prop := has vals' (getv vals x) y.
  Lemma fo_pend_dyn add relay vals xs : forall nid lst new ks nid' vals', fo_pend limit add relay xs nid lst new = Some (ks, nid') -> length vals' = S new -> Forall (fun x => 0 < x) xs ->
    okq (PV vals vals') nid ->
    (forall x, In x xs -> 0 < nth x add 0 -> xs = [x] /\ exists c, lst = Some (DConst c) /\ coef_sem E c (getv vals x) /\ (U -> quiet E (DConst c))) ->
    exists e, length e = length ks /\ det ks vals' e /\ okq (PV vals (vals' ++ e)) nid' /\ length nid' = length nid.
  Proof.
    induction xs as [|x xs IH]; intros nid lst new ks nid' vals' H Hl Hx Ho Ha; cbn [fo_pend] in H.
    - injection H as <- <-. exists []. split; auto. split; [apply det_nil|]. rewrite app_nil_r. auto.
    - apply obind_some in H. destruct H as [q [Hq H]]. apply obind_some in H. destruct H as [[k1 q1] [H1 H]]. apply obind_some in H. destruct H as [[k2 n2] [H2 H]]. injection H as <- <-. inversion Hx as [|? ? Hx1 Hx2]; subst.
      destruct (fo_pend1_dyn _ _ _ _ _ _ _ vals' (getv vals x) H1 Hl) as [e1 [L1 [D1 G1]]].
      { apply Forall_forall. intros y Hy. eapply Ho; eauto. }
      { intros Hp. apply (Ha x); auto. left; auto. }
      destruct (IH _ _ _ _ _ (vals' ++ e1) H2) as [e2 [L2 [D2 [G2 K2]]]]; auto.
      { rewrite app_length. lia. }
      { apply okq_upd. { eapply okq_impl; [|exact Ho]. intros; apply has_app; auto. } intros _ y Hy. rewrite Forall_forall in G1. apply G1; auto. }
      { intros z Hz Hp. destruct (Ha z) as [E1 _]; auto; [right; auto|]. injection E1 as -> ->. destruct Hz. }
      exists (e1 ++ e2). rewrite !app_length. split; [lia|]. split; [apply det_app; auto|]. rewrite app_assoc. split; auto. rewrite K2. apply upd_length.
  Qed.

  Lemma dvar_sem e g o : no_random F e -> (d_sem F E (DVar e) g o <-> o = [expr_val F E g e]).
  Proof.
    intros Hn. cbn [d_sem]. split.
    - intros [v [-> H]]. apply expr_sem_val in H; auto. congruence.
    - intros ->. eexists. split; [reflexivity|]. apply expr_sem_val; auto.
  Qed.
  Lemma copy_det e es vals vals' : Forall (fun j => exists ts, j = DVar (from_terms F ts) /\ Forall2 (t_rel (PV vals vals')) e ts) es -> no_random F e ->
    det es vals' (repeat (expr_val F E (getv vals) e) (length es)).
  Proof.
    intros H Hn. assert (G : forall ext, det es (vals' ++ ext) (repeat (expr_val F E (getv vals) e) (length es))); [|specialize (G []); rewrite app_nil_r in G; auto].
    induction H as [|j es [ts [-> Ht]] H IH]; intros ext; [apply det_nil|]. cbn [length repeat]. set (v := expr_val F E (getv vals) e) in *.
    apply (det_app [DVar (from_terms F ts)] es (vals' ++ ext) [v] (repeat v (length es))); [|rewrite <- app_assoc; apply IH].
    assert (Hn2 : no_random F (from_terms F ts)) by (apply no_random_from_terms; eapply t_rel_no_random; eauto).
    assert (Hv : expr_val F E (getv (vals' ++ ext)) (from_terms F ts) = v).
    { destruct (from_terms_spec F E ts) as [_ [X _]]. rewrite X. apply (t_rel_val _ E _ _ _ _ Ht). intros x y _ Hp. apply (has_app vals' ext) in Hp. apply Hp. }
    apply det_one; auto.
    - change (Forall (inb (vals' ++ ext)) (e_vars F (from_terms F ts))). apply Forall_forall. intros y Hy. apply from_terms_vars in Hy. destruct (t_rel_vars _ _ _ Ht y Hy) as [x [_ Hx]]. apply (has_app vals' ext) in Hx. apply Hx.
    - apply dvar_sem; auto. congruence.
    - intros _ o Hs. apply dvar_sem in Hs; auto. congruence.
  Qed.

  Section Plan3.
  Variable add relay : list nat.
  Definition LV (nid : list Q) (lst : option (DInsn F)) (solved : nat) (vals : list F) : Prop :=
    solved < length nid /\ forall x, solved < x < length nid -> 0 < nth x add 0 -> x = S solved /\ length nid = S x /\
      exists c, lst = Some (DConst c) /\ coef_sem E c (getv vals x) /\ (U -> quiet E (DConst c)).
  Lemma fo_insns_dyn is : forall nid lst new solved vals vals' is' nid', fo_insns limit add relay is nid lst new solved = Some (is', nid') -> length nid = length vals ->
    okq (PV vals vals') nid -> length vals' = S new -> wf_insns DI is (length vals - 1) -> Forall (call_wf DI cs) is -> Forall no_random_term is -> (U -> Forall (quiet E) is) ->
    LV nid lst solved vals ->
    (forall i o l n, In i is -> d_call F i = Some (o, l, n) -> fwd DI DI E cs cs' o /\ (U -> bwd DI DI E cs cs' o)) ->
    (forall vf b, exec DI E cs is vals vf b -> exists e, exec DI E cs' is' vals' (vals' ++ e) b /\ okq (PV vf (vals' ++ e)) nid') /\
    (U -> forall vf' b, exec DI E cs' is' vals' vf' b -> exists vf, exec DI E cs is vals vf b /\ okq (PV vf vf') nid').
  Proof.
    induction is as [|i is IH]; intros nid lst new solved vals vals' is' nid' H Hln Ho Hl Hw Hcw Hnr Hu HL Hcall; cbn [fo_insns] in H.
    - injection H as <- <-. split.
      + intros vf b X. apply exec_nil in X. destruct X as [-> ->]. exists []. rewrite app_nil_r. split; [constructor|auto].
      + intros _ vf' b X. apply exec_nil in X. destruct X as [-> ->]. exists vals. split; [constructor|auto].
    - apply obind_some in H. destruct H as [[ks n1] [H1 H]].
      destruct HL as [HL1 HL2].
      destruct (fo_pend_dyn add relay vals _ nid lst new ks n1 vals' H1 Hl) as [e1 [L1 [D1 [O1 N1]]]]; auto.
      { apply Forall_seq. intros; lia. }
      { intros x Hx Hp. apply in_seq in Hx. destruct (HL2 x) as [-> [Hn Hc]]; [lia|auto|]. split; auto. rewrite Hn. replace (S (S solved) - S solved) with 1 by lia. auto. }
      clear HL2. cbn [wf_insns] in Hw. destruct Hw as [Hi Hw]. inversion Hcw as [|? ? Hci Hcw2]; subst. inversion Hnr as [|? ? Hn1 Hn2]; subst.
      assert (Hu2 : U -> quiet E i /\ Forall (quiet E) is) by (intros HU; specialize (Hu HU); inversion Hu; auto).
      assert (Hcall2 : forall j o l n, In j is -> d_call F j = Some (o, l, n) -> fwd DI DI E cs cs' o /\ (U -> bwd DI DI E cs cs' o)) by (intros; eapply Hcall; eauto; right; auto).
      assert (Hrange : Forall (fun x => 0 < x < length n1) (d_inputs F i)) by (eapply Forall_impl; [|exact Hi]; cbn; intros; lia).
      set (new1 := new + length ks) in *. set (v1 := vals' ++ e1) in *. assert (Hv1 : length v1 = S new1) by (unfold v1, new1; rewrite app_length; lia).
      change (@i_nout F DI i) with (d_nout F i) in Hw. change (@i_inputs F DI i) with (d_inputs F i) in Hi.
      (* everything after the block ks *)
      assert (Hrest : forall is2, (forall vf b, exec DI E cs (i :: is) vals vf b -> exists e, exec DI E cs' is2 v1 (v1 ++ e) b /\ okq (PV vf (v1 ++ e)) nid') /\
          (U -> forall vf' b, exec DI E cs' is2 v1 vf' b -> exists vf, exec DI E cs (i :: is) vals vf b /\ okq (PV vf vf') nid') ->
          (forall vf b, exec DI E cs (i :: is) vals vf b -> exists e, exec DI E cs' (ks ++ is2) vals' (vals' ++ e) b /\ okq (PV vf (vals' ++ e)) nid') /\
          (U -> forall vf' b, exec DI E cs' (ks ++ is2) vals' vf' b -> exists vf, exec DI E cs (i :: is) vals vf b /\ okq (PV vf vf') nid')).
      { intros is2 [A B]. split.
        - intros vf b X. destruct (A vf b X) as [e [A1 A2]]. exists (e1 ++ e). rewrite app_assoc. split; auto. apply (exec_app DI). exists v1, true, b. split; [apply D1|]. auto.
        - intros HU vf' b X. apply (exec_app DI) in X. destruct X as [v2 [b1 [b2 [X1 [X2 ->]]]]]. destruct (proj2 D1 HU _ _ X1) as [-> ->]. cbn [andb]. apply B; auto. }
      destruct i as [e|id l n|c]; cbn [d_nout d_inputs no_random_term] in *.
      + (* expression *)
        destruct ((nth (length n1) add 0 =? 0) || _); [|discriminate]. set (a := nth (length n1) add 0) in *.
        destruct (fo_exprs (S a) e n1) as [es n2] eqn:E2. apply obind_some in H. destruct H as [[is2 n3] [H2 H]]. injection H as <- <-.
        destruct (fo_exprs_rel (PV vals v1) _ _ _ _ _ E2 O1 Hrange) as [L2 [F2 [O2 G2]]].
        pose proof (copy_det e es vals v1 F2 Hn1) as De. rewrite L2 in De. set (v := expr_val F E (getv vals) e) in *.
        apply Hrest. set (v2 := v1 ++ repeat v (S a)) in *.
        assert (Hv2 : length v2 = S (new1 + S a)) by (unfold v2; rewrite app_length, repeat_length; lia).
        destruct (IH _ _ _ _ (vals ++ [v]) v2 _ _ H2) as [If Ib]; auto.
        * rewrite !app_length. cbn. lia.
        * apply okq_app.
          { eapply okq_impl; [|exact O2]. intros x y Hx Hp. unfold PV in *. rewrite getv_app_l by lia. apply has_app. auto. }
          intros k q Hk _ y Hy. destruct k as [|k]; [|destruct k; discriminate]. injection Hk as <-. rewrite Nat.add_0_r. unfold PV. rewrite getv_app_r by lia. replace (length n2 - length vals) with 0 by lia.
          assert (Hr : S new1 <= y <= new1 + S a).
          { destruct Hy as [<-|Hy]; [cbn [dflt]; lia|]. cbn [queue] in Hy. destruct (a =? 0); [destruct Hy|]. apply in_map_iff in Hy. destruct Hy as [[y1 l1] [<- Hy]]. change (In (y1, l1) (map (fun y => (y, limit)) (seq (S new1) (S a)))) in Hy.
            apply in_map_iff in Hy. destruct Hy as [y2 [Hy2 Hy]]. injection Hy2 as <- <-. apply in_seq in Hy. cbn [fst]. lia. }
          split; [lia|]. unfold v2. rewrite getv_app_r by lia. unfold Ir.getv. change (nth 0 [v] f0) with v. rewrite nth_indep with (d' := v) by (rewrite repeat_length; lia). apply nth_repeat.
        * rewrite app_length. cbn [length]. replace (length vals + 1 - 1) with (length vals - 1 + 1) by lia. auto.
        * intros HU. apply Hu2; auto.
        * split; [rewrite app_length; cbn [length]; destruct (a =? 0); lia|]. intros x Hx Hp. rewrite app_length in Hx. cbn [length] in Hx. exfalso. destruct (Nat.eqb_spec a 0) as [Ea|Ea]; [|lia]. assert (x = length n1) by lia. subst x. unfold a in Ea. lia.
        * split.
          -- intros vf b X. apply exec_cons in X. destruct X as [o [b1 [b2 [X1 [X2 ->]]]]]. destruct X1 as [_ [X1 ->]]. apply dvar_sem in X1; auto. subst o. fold v in X2. destruct (If vf b2 X2) as [e2 [Y1 Y2]].
             exists (repeat v (S a) ++ e2). rewrite app_assoc. split; auto. apply (exec_app DI). exists v2, true, b2. split; [apply De|]. auto.
          -- intros HU vf' b X. apply (exec_app DI) in X. destruct X as [w [b1 [b2 [X1 [X2 ->]]]]]. destruct (proj2 De HU _ _ X1) as [-> ->]. destruct (Ib HU _ _ X2) as [vf [Y1 Y2]]. exists vf. split; auto.
             apply exec_cons. exists [v], true, b2. split; [|auto]. split; [eapply Forall_impl; [|exact Hrange]; cbn; unfold inb; intros; lia|]. split; auto. apply dvar_sem; auto.
      + (* call *)
        destruct (forallb _ _) eqn:Ef; [|discriminate]. apply obind_some in H. destruct H as [[is2 n3] [H2 H]]. injection H as <- <-. apply Hrest.
        set (vm := fun y => dflt (nth y n1 (q_new 0))) in *.
        assert (Hargs : map (getv v1) (map vm l) = map (getv vals) l /\ Forall (inb v1) (map vm l)).
        { rewrite map_map. split; [apply map_ext_in; intros x Hx; rewrite Forall_forall in Hrange; apply (okq_dflt _ _ _ O1 (Hrange x Hx))|].
          apply Forall_forall. intros y Hy. apply in_map_iff in Hy. destruct Hy as [x [<- Hx]]. rewrite Forall_forall in Hrange. apply (okq_dflt _ _ _ O1 (Hrange x Hx)). }
        destruct Hargs as [Ha1 Ha2]. destruct (Hci id l n eq_refl) as [co [Hco [Hcl Hcn]]]. destruct (Hcall (DCall id l n) id l n (or_introl eq_refl) eq_refl) as [Hf Hb].
        assert (Hrec : forall o, length o = n -> (forall vf b, exec DI E cs is (vals ++ o) vf b -> exists e, exec DI E cs' is2 (v1 ++ o) ((v1 ++ o) ++ e) b /\ okq (PV vf ((v1 ++ o) ++ e)) n3) /\
           (U -> forall vf' b, exec DI E cs' is2 (v1 ++ o) vf' b -> exists vf, exec DI E cs is (vals ++ o) vf b /\ okq (PV vf vf') n3)).
        { intros o Hlo. apply (IH _ _ _ _ (vals ++ o) (v1 ++ o) _ _ H2); auto.
          - rewrite !app_length, map_length, seq_length. lia.
          - apply okq_app.
            { eapply okq_impl; [|exact O1]. intros x y Hx Hp. unfold PV in *. rewrite getv_app_l by lia. apply has_app. auto. }
            intros k q Hk _ y Hy. assert (Hkn : k < n) by (rewrite <- (seq_length n (S new1)), <- (map_length q_new); apply nth_error_Some; congruence).
            rewrite nth_error_map in Hk. rewrite (nth_error_nth' _ 0) in Hk by (rewrite seq_length; auto). rewrite seq_nth in Hk by auto. injection Hk as <-. destruct Hy as [<-|[]]. cbn [dflt q_new].
            unfold PV. rewrite getv_app_r by lia. split; [rewrite app_length; lia|]. rewrite getv_app_r by lia. f_equal. lia.
          - rewrite app_length. lia.
          - rewrite app_length, Hlo. replace (length vals + n - 1) with (length vals - 1 + n) by lia. auto.
          - intros HU. apply Hu2; auto.
          - split; [rewrite app_length; lia|]. intros x Hx Hp. rewrite app_length, map_length, seq_length in Hx. rewrite forallb_forall in Ef. assert (Hz : nth x add 0 = 0) by (apply Nat.eqb_eq, Ef, in_seq; lia). lia. }
        split.
        * intros vf b X. apply exec_cons in X. destruct X as [o [b1 [b2 [X1 [X2 ->]]]]]. destruct X1 as [Xi X1]. cbn [i_call DestI d_call] in X1.
          assert (Hlo : length o = n). { rewrite (run_len DI _ _ _ _ _ _ _ X1 Hco). auto. }
          destruct (proj1 (Hrec o Hlo) _ _ X2) as [e2 [Y1 Y2]]. exists (o ++ e2). rewrite app_assoc. split; auto.
          eapply ECall; [reflexivity|exact Ha2| |exact Y1]. rewrite Ha1. eapply Hf; eauto. rewrite map_length; auto.
        * intros HU vf' b X. apply exec_cons in X. destruct X as [o [b1 [b2 [X1 [X2 ->]]]]]. destruct X1 as [Xi X1]. rewrite Ha1 in X1.
          pose proof (Hb HU co _ _ _ Hco (eq_trans (map_length _ _) Hcl) X1) as X3.
          assert (Hlo : length o = n). { rewrite (run_len DI _ _ _ _ _ _ _ X3 Hco). auto. }
          destruct (proj2 (Hrec o Hlo) HU _ _ X2) as [vf [Y1 Y2]]. exists vf. split; auto. eapply ECall; [reflexivity| |exact X3|exact Y1].
          eapply Forall_impl; [|exact Hrange]; cbn; unfold inb; intros; lia.
      + (* constant *)
        apply obind_some in H. destruct H as [[is2 n3] [H2 H]]. injection H as <- <-. apply Hrest.
        assert (Hrec : forall v, coef_sem E c v -> (forall vf b, exec DI E cs is (vals ++ [v]) vf b -> exists e, exec DI E cs' is2 (v1 ++ [v]) ((v1 ++ [v]) ++ e) b /\ okq (PV vf ((v1 ++ [v]) ++ e)) n3) /\
           (U -> forall vf' b, exec DI E cs' is2 (v1 ++ [v]) vf' b -> exists vf, exec DI E cs is (vals ++ [v]) vf b /\ okq (PV vf vf') n3)).
        { intros v Hv. apply (IH _ _ _ _ (vals ++ [v]) (v1 ++ [v]) _ _ H2); auto.
          - rewrite !app_length. cbn. lia.
          - apply okq_app.
            { eapply okq_impl; [|exact O1]. intros x y Hx Hp. unfold PV in *. rewrite getv_app_l by lia. apply has_app. auto. }
            intros k q Hk _ y Hy. destruct k as [|k]; [|destruct k; discriminate]. injection Hk as <-. destruct Hy as [<-|[]]. cbn [dflt q_new]. rewrite Nat.add_0_r.
            unfold PV. rewrite getv_app_r by lia. replace (length n1 - length vals) with 0 by lia. rewrite <- Hv1. apply has_end.
          - rewrite app_length. cbn. lia.
          - rewrite app_length. cbn [length]. replace (length vals + 1 - 1) with (length vals - 1 + 1) by lia. auto.
          - intros HU. apply Hu2; auto.
          - split; [rewrite app_length; lia|]. intros x Hx Hp. rewrite app_length in *. cbn [length] in *. split; [lia|]. split; [lia|]. exists c. split; auto. assert (x = length vals) by lia. subst x. rewrite getv_app_r by lia. rewrite Nat.sub_diag.
            split; [exact Hv|]. intros HU. apply Hu2; auto. }
        split.
        * intros vf b X. apply exec_cons in X. destruct X as [o [b1 [b2 [X1 [X2 ->]]]]]. destruct X1 as [Xi [X1 ->]]. destruct X1 as [v [-> X1]].
          destruct (proj1 (Hrec v X1) _ _ X2) as [e2 [Y1 Y2]]. exists (v :: e2). change (v :: e2) with ([v] ++ e2). rewrite app_assoc. split; auto.
          eapply ESem; [reflexivity|constructor| |exact Y1]. exists v. auto.
        * intros HU vf' b X. apply exec_cons in X. destruct X as [o [b1 [b2 [X1 [X2 ->]]]]]. destruct X1 as [Xi [X1 ->]]. destruct X1 as [v [-> X1]].
          destruct (proj2 (Hrec v X1) HU _ _ X2) as [vf [Y1 Y2]]. exists vf. split; auto. eapply ESem; [reflexivity|constructor| |exact Y1]. exists v. auto.
  Qed.
  End Plan3.
  End Dyn.

  (* ------------------------------------------------------------ how often a variable is multiplied *)
  Definition cnt (y : nat) (l : list nat) : nat := count_occ Nat.eq_dec l y.
  Definition tq (t : Term F) : list nat := match vars t with VQuad x y => [x; y] | _ => [] end.
  (* number of multiplication operands of the instructions that are the variable y *)
  Definition usage (is : list (DInsn F)) (y : nat) : nat := list_sum (map (fun i => match i with DVar e => cnt y (quads e) | _ => 0 end) is).
  Lemma cnt_app y a b : cnt y (a ++ b) = cnt y a + cnt y b. Proof. apply count_occ_app. Qed.
  Lemma usage_app a b y : usage (a ++ b) y = usage a y + usage b y. Proof. unfold usage. rewrite map_app, list_sum_app. auto. Qed.

  (* from_terms does not add multiplications *)
  Definition vq (y : nat) (v : VarSpec) : nat := match v with VQuad a b => cnt y [a; b] | _ => 0 end.
  Lemma quads_vq y e : cnt y (quads e) = list_sum (map (fun t => vq y (vars t)) e).
  Proof. unfold quads. induction e as [|t e IH]; auto. cbn [flat_map map]. rewrite cnt_app, IH. change (list_sum (?a :: ?b)) with (a + list_sum b). f_equal. unfold vq. destruct (vars t); auto. Qed.
  Lemma vq_normalize y v : vq y (vs_normalize v) = vq y v.
  Proof. destruct v as [|x|a b|g l|x]; auto. cbn [vs_normalize]. destruct (_ <? _)%nat; auto. unfold vq, cnt. cbn [count_occ]. destruct (Nat.eq_dec a y), (Nat.eq_dec b y); auto. Qed.
  Lemma sum_incl {A} (f : A -> nat) (l : list A) : forall l', NoDup l -> incl l l' -> list_sum (map f l) <= list_sum (map f l').
  Proof.
    induction l as [|a l IH]; intros l' Hn Hi; [cbn; lia|]. inversion Hn as [|? ? Ha Hn2]; subst. destruct (in_split a l' (Hi a (or_introl eq_refl))) as [u [v ->]].
    assert (Hi2 : incl l (u ++ v)).
    { intros z Hz. specialize (Hi z (or_intror Hz)). apply in_app_or in Hi. apply in_or_app. destruct Hi as [|[->|]]; auto. contradiction. }
    specialize (IH (u ++ v) Hn2 Hi2). rewrite !map_app, !list_sum_app in *. cbn [map]. change (list_sum (?a :: ?b)) with (a + list_sum b). lia.
  Qed.
  Lemma from_terms_quads ts y : cnt y (quads (from_terms F ts)) <= cnt y (quads ts).
  Proof.
    rewrite !quads_vq. rewrite <- !(map_map vars (vq y)). destruct (from_terms_spec F (env0 F) ts) as [Hc [_ H]].
    transitivity (list_sum (map (vq y) (VConst :: map vs_normalize (map vars ts)))).
    - apply sum_incl.
      + destruct Hc as [_ [_ [Hs _]]]. clear -Hs. induction Hs as [|t l H IH Hf]; cbn [map]; constructor; auto. intros Hin. apply in_map_iff in Hin.
        destruct Hin as [u [Eu Hu]]. rewrite Forall_forall in Hf. specialize (Hf u Hu). rewrite Eu in Hf. eapply vs_lt_irrefl; eauto.
      + intros v Hv. apply in_map_iff in Hv. destruct Hv as [t [<- Ht]]. destruct (H t Ht) as [->|[u [Hu ->]]]; [left; auto|right]. apply in_map, in_map; auto.
    - cbn [map]. change (list_sum (?a :: ?b)) with (a + list_sum b). cbn [vq]. rewrite Nat.add_0_l, map_map. erewrite map_ext; [apply Nat.le_refl|]. intros v. apply vq_normalize.
  Qed.

  Hypothesis Hlim : 2 <= limit.
  Definition incr (us : nat -> nat) (y : nat) : nat -> nat := fun z => us z + cnt z [y].
  Lemma incr_eq us y : incr us y y = S (us y). Proof. unfold incr, cnt; cbn. destruct (Nat.eq_dec y y); [lia|congruence]. Qed.
  Lemma incr_ne us y z : y <> z -> incr us y z = us z. Proof. intros H. unfold incr, cnt; cbn. destruct (Nat.eq_dec y z); [congruence|lia]. Qed.
  (* [led]: new variables that may still be handed out for the old variable x, with how often; [us] how often each was used *)
  Definition led_ok (us own : nat -> nat) (new x : nat) (led : list (nat * nat)) (B : nat) : Prop :=
    NoDup (map fst led) /\ Forall (fun p => 0 < fst p <= new /\ own (fst p) = x /\ us (fst p) + snd p <= limit) led /\ B <= list_sum (map snd led).
  Definition qj us own new x (q : Q) (B : nat) : Prop :=
    (queue q = [] /\ exists r, led_ok us own new x [(dflt q, r)] B) \/ (queue q <> [] /\ led_ok us own new x (queue q) B).
  Lemma q_next_led d l y l' : 0 < list_sum (map snd l) -> q_next d l = (y, l') -> exists pre n post, l = pre ++ (y, S n) :: post /\ l' = (y, n) :: post /\ list_sum (map snd l) = S (list_sum (map snd l')).
  Proof.
    induction l as [|[id [|n]] l IH]; intros Hp H; cbn [q_next map snd] in *; change (list_sum (?a :: ?b)) with (a + list_sum b) in *.
    - cbn in Hp. lia.
    - destruct (IH Hp H) as [pre [n [post [-> [-> Hs]]]]]. exists ((id, 0) :: pre), n, post. auto.
    - injection H as <- <-. exists [], n, l. cbn [map snd]. change (list_sum (?a :: ?b)) with (a + list_sum b). auto.
  Qed.
  Lemma led_get us own new x l y l' d B : led_ok us own new x l (S B) -> q_next d l = (y, l') ->
    (0 < y <= new /\ own y = x) /\ us y < limit /\ l' <> [] /\ led_ok us own new x l' B /\ led_ok (incr us y) own new x l' B.
  Proof.
    intros [H1 [H2 H3]] H. assert (Hpos : 0 < list_sum (map snd l)) by lia. destruct (q_next_led _ _ _ _ Hpos H) as [pre [n [post [-> [-> Hs]]]]].
    rewrite map_app in H1. cbn [map fst] in H1. apply Forall_app in H2. destruct H2 as [_ H2]. inversion H2 as [|? ? [A1 [A2 A3]] H4]; subst. cbn [fst snd] in *.
    assert (H1' : NoDup (y :: map fst post)). { clear -H1. induction pre as [|[? ?] pre IH]; auto. inversion H1; auto. } clear H1. rename H1' into H1. inversion H1 as [|? ? Hny Hnd]; subst. split; auto. split; [lia|]. split; [discriminate|].
    assert (Hb : B <= list_sum (map snd ((y, n) :: post))) by lia.
    split; (split; [constructor; auto|split; auto]).
    - constructor; auto. cbn [fst snd]. split; auto. split; auto. lia.
    - constructor; [cbn [fst snd]; rewrite incr_eq; split; auto; split; auto; lia|]. apply Forall_forall. intros [z r] Hz. rewrite Forall_forall in H4. specialize (H4 _ Hz). cbn [fst snd] in *. rewrite incr_ne; auto.
      intros ->. apply Hny. apply (in_map fst) in Hz. auto.
  Qed.
  Lemma q_get_j us own new x q y q' B : qj us own new x q (S B) -> q_get q = (y, q') -> (0 < y <= new /\ own y = x) /\ us y < limit /\ qj (incr us y) own new x q' B.
  Proof.
    unfold q_get, qj. intros [[Hq [r Hr]]|[Hq Hr]] H.
    - rewrite Hq in H. cbn [q_next] in H. injection H as <- <-. cbn [dflt queue]. destruct Hr as [H1 [H2 H3]]. inversion H2 as [|? ? [A1 [A2 A3]] _]; subst. cbn [fst snd map] in *. change (list_sum (?a :: ?b)) with (a + list_sum b) in *. cbn [list_sum fold_right] in H3.
      split; auto. split; [lia|]. left. split; auto. exists (r - 1). split; [auto|]. split; [constructor; [cbn [fst snd]; rewrite incr_eq; split; auto; split; auto; lia|constructor]|]. cbn. lia.
    - destruct (q_next (dflt q) (queue q)) as [y1 l1] eqn:E1. injection H as <- <-. destruct (led_get _ _ _ _ _ _ _ _ _ Hr E1) as [A [B1 [C [_ D]]]]. split; auto.
  Qed.
  Lemma led_mono us us' own own' new new' x l B B' : (forall y, 0 < y <= new -> own y = x -> us' y <= us y) -> (forall y, y <= new -> own' y = own y) -> new <= new' -> B' <= B ->
    led_ok us own new x l B -> led_ok us' own' new' x l B'.
  Proof.
    intros Hu Ho Hn HB [H1 [H2 H3]]. split; auto. split; [|lia]. eapply Forall_impl; [|exact H2]. cbn. intros [y r]; cbn. intros [A [A2 A3]]. split; [lia|]. split; [rewrite Ho by lia; auto|]. specialize (Hu y ltac:(lia) A2). lia.
  Qed.
  Lemma qj_mono us us' own own' new new' x q B B' : (forall y, 0 < y <= new -> own y = x -> us' y <= us y) -> (forall y, y <= new -> own' y = own y) -> new <= new' -> B' <= B ->
    qj us own new x q B -> qj us' own' new' x q B'.
  Proof. intros H1 H2 H3 H4 [[A [r H]]|[A H]]; [left; split; auto; exists r|right; split; auto]; eapply led_mono; eauto. Qed.

  Definition JJ us own new (nid : list Q) (N : nat -> nat) : Prop :=
    (forall y, us y <= limit) /\ (forall y, new < y -> us y = 0) /\ forall x q, nth_error nid x = Some q -> 0 < x -> qj us own new x q (N x).
  Lemma get_j us own new nid N x y q' : JJ us own new nid (fun z => cnt z [x] + N z) -> 0 < x < length nid -> q_get (nth x nid (q_new 0)) = (y, q') -> JJ (incr us y) own new (upd nid x q') N.
  Proof.
    intros [Hu [Hf HJ]] Hx H. destruct (nth_error_Some_ex nid x) as [q Hq]; [lia|]. rewrite (nth_error_nth nid x (q_new 0) Hq) in H.
    pose proof (HJ x q Hq ltac:(lia)) as H1. replace (cnt x [x] + N x) with (S (N x)) in H1 by (unfold cnt; cbn; destruct (Nat.eq_dec x x); [lia|congruence]).
    destruct (q_get_j _ _ _ _ _ _ _ _ H1 H) as [[A0 A] [B C]]. split; [|split].
    - intros z. destruct (Nat.eq_dec y z) as [<-|Hne]; [rewrite incr_eq; lia|rewrite incr_ne; auto].
    - intros z Hz. rewrite incr_ne; auto. lia.
    - intros z qz Hz Hz0. rewrite nth_error_upd in Hz. destruct ((x =? z) && (x <? length nid)) eqn:Ez.
      + injection Hz as <-. apply andb_true_iff in Ez. destruct Ez as [Ez _]. apply Nat.eqb_eq in Ez. subst z. auto.
      + assert (Hxz : x <> z). { intros ->. rewrite Nat.eqb_refl in Ez. cbn [andb] in Ez. apply Nat.ltb_ge in Ez. lia. }
        specialize (HJ z qz Hz Hz0). eapply qj_mono; [| | | |exact HJ]; auto; [|lia]. intros y0 _ Ho. rewrite incr_ne; auto. congruence.
  Qed.
  Lemma JJ_ext us us' own new nid N N' : (forall y, us y = us' y) -> (forall x, N' x <= N x) -> JJ us own new nid N -> JJ us' own new nid N'.
  Proof. intros Hu Hn [A [A2 B]]. split; [intros y; rewrite <- Hu; auto|]. split; [intros y Hy; rewrite <- Hu; auto|]. intros x q Hq Hx. eapply qj_mono; [| | | |apply (B x q Hq Hx)]; auto. intros y _ _. rewrite Hu; auto. Qed.
  Lemma fo_term_j us own new nid N t t' nid' : fo_term nid t = (t', nid') -> Forall (fun x => 0 < x < length nid) (vs_vars (vars t)) -> JJ us own new nid (fun z => cnt z (tq t) + N z) ->
    JJ (fun z => us z + cnt z (tq t')) own new nid' N /\ length nid' = length nid.
  Proof.
    intros H Hv HJ. unfold fo_term in H. unfold tq in *. destruct (vars t) as [|x|x y|g l|x] eqn:Ev; cbn [vs_vars] in Hv;
      try (injection H as <- <-; cbn [vars vs_replace]; split; auto; eapply JJ_ext; [| |exact HJ]; cbn; intros; lia).
    destruct (q_get (nth x nid (q_new 0))) as [x' q1] eqn:E1. destruct (q_get (nth y (upd nid x q1) (q_new 0))) as [y' q2] eqn:E2. injection H as <- <-. cbn [vars].
    inversion Hv as [|? ? Hx Hv2]; subst. inversion Hv2 as [|? ? Hy _]; subst.
    assert (J1 : JJ (incr us x') own new (upd nid x q1) (fun z => cnt z [y] + N z)).
    { apply (get_j us own new nid (fun z => cnt z [y] + N z) x x' q1); auto. eapply JJ_ext; [| |exact HJ]; auto. intros z. cbv beta. change [x; y] with ([x] ++ [y]). rewrite cnt_app. lia. }
    pose proof (get_j _ own new _ N y y' q2 J1 ltac:(rewrite upd_length; auto) E2) as J2. split; [|rewrite !upd_length; auto].
    eapply JJ_ext; [| |exact J2]; auto. intros z. unfold incr. cbv beta. change [x'; y'] with ([x'] ++ [y']). rewrite cnt_app. lia.
  Qed.
  Lemma fo_terms_j own new ts : forall us nid N ts' nid', fo_terms nid ts = (ts', nid') -> Forall (fun x => 0 < x < length nid) (e_vars F ts) -> JJ us own new nid (fun z => cnt z (quads ts) + N z) ->
    JJ (fun z => us z + cnt z (quads ts')) own new nid' N /\ length nid' = length nid.
  Proof.
    induction ts as [|t ts IH]; intros us nid N ts' nid' H Hv HJ; cbn [fo_terms] in H.
    - injection H as <- <-. split; auto. eapply JJ_ext; [| |exact HJ]; cbn; intros; lia.
    - destruct (fo_term nid t) as [t1 n1] eqn:E1. destruct (fo_terms n1 ts) as [ts1 n2] eqn:E2. injection H as <- <-. unfold e_vars in Hv. cbn [flat_map] in Hv. apply Forall_app in Hv. destruct Hv as [Hv1 Hv2].
      assert (Hq : forall (a : Term F) b z, cnt z (quads (a :: b)) = cnt z (tq a) + cnt z (quads b)) by (intros; unfold quads; cbn [flat_map]; rewrite cnt_app; auto).
      destruct (fo_term_j us own new nid (fun z => cnt z (quads ts) + N z) t t1 n1 E1 Hv1) as [J1 L1].
      { eapply JJ_ext; [| |exact HJ]; auto. intros z. cbv beta. rewrite Hq. lia. }
      rewrite <- L1 in Hv2. destruct (IH _ _ _ _ _ E2 Hv2 J1) as [J2 L2]. split; [|congruence]. eapply JJ_ext; [| |exact J2]; auto. intros z. cbv beta. rewrite Hq. lia.
  Qed.
  Lemma fo_exprs_j own new k e : forall us nid N es nid', fo_exprs k e nid = (es, nid') -> Forall (fun x => 0 < x < length nid) (e_vars F e) -> JJ us own new nid (fun z => k * cnt z (quads e) + N z) ->
    exists us', JJ us' own new nid' N /\ length nid' = length nid /\ length es = k /\ (forall z, us z + usage es z <= us' z).
  Proof.
    induction k as [|k IH]; intros us nid N es nid' H Hv HJ; cbn [fo_exprs] in H.
    - injection H as <- <-. exists us. split; [eapply JJ_ext; [| |exact HJ]; cbn; intros; lia|]. split; auto. split; auto. intros z. unfold usage; cbn. lia.
    - destruct (fo_terms nid e) as [ts n1] eqn:E1. destruct (fo_exprs k e n1) as [es1 n2] eqn:E2. injection H as <- <-.
      destruct (fo_terms_j own new e us nid (fun z => k * cnt z (quads e) + N z) ts n1 E1 Hv) as [J1 L1].
      { eapply JJ_ext; [| |exact HJ]; auto. intros z. cbv beta. lia. }
      rewrite <- L1 in Hv. destruct (IH _ _ _ _ _ E2 Hv J1) as [us' [J2 [L2 [L3 U1]]]]. exists us'. split; auto. split; [congruence|]. split; [cbn; auto|].
      intros z. specialize (U1 z). unfold usage in *. cbn [map]. change (list_sum (?a :: ?b)) with (a + list_sum b). pose proof (from_terms_quads ts z). lia.
  Qed.

  Lemma fo_relays_j us x k : forall own q new is q' B, fo_relays limit k q new = (is, q') -> queue q <> [] -> led_ok us own new x (queue q) (S B) -> (forall y, new < y -> us y = 0) ->
    exists own', (forall y, y <= new -> own' y = own y) /\ queue q' <> [] /\ led_ok us own' (new + k) x (queue q') (S B + k * (limit - 1)) /\ length is = k /\ (forall y, usage is y = 0).
  Proof.
    induction k as [|k IH]; intros own q new is q' B H Hq HL Hf; cbn [fo_relays] in H.
    - injection H as <- <-. exists own. rewrite !Nat.add_0_r. repeat (split; auto).
    - unfold q_get in H. destruct (q_next (dflt q) (queue q)) as [y l] eqn:E1. destruct (fo_relays limit k _ (S new)) as [is1 q2] eqn:E2. injection H as <- <-.
      destruct (led_get _ _ _ _ _ _ _ _ _ HL E1) as [_ [_ [Hl [HL2 _]]]].
      set (own1 := fun z => if z =? S new then x else own z).
      destruct (IH own1 _ _ _ _ (B + limit - 1) E2) as [own' [A1 [A2 [A3 [A4 A5]]]]].
      { unfold q_push; cbn [queue]. destruct l; discriminate. }
      { unfold q_push; cbn [queue]. destruct HL2 as [N1 [N2 N3]]. split; [|split].
        - rewrite map_app. cbn [map fst]. apply NoDup_app_iff. split; auto. split; [constructor; auto; constructor|]. intros z Hz [<-|[]]. apply in_map_iff in Hz. destruct Hz as [[z r] [Ez Hz]]. cbn in Ez. subst z. rewrite Forall_forall in N2. apply N2 in Hz. cbn in Hz. lia.
        - apply Forall_app. split.
          + eapply Forall_impl; [|exact N2]. intros [z r]; cbn [fst snd]. intros [Z1 [Z2 Z3]]. split; [lia|]. split; auto. unfold own1. destruct (Nat.eqb_spec z (S new)); auto.
          + constructor; [|constructor]. cbn [fst snd]. split; [lia|]. unfold own1. rewrite Nat.eqb_refl, Hf by lia. lia.
        - rewrite map_app, list_sum_app. cbn [map snd]. change (list_sum [limit]) with (limit + 0). lia. }
      { intros; apply Hf; lia. }
      exists own'. split; [intros z Hz; rewrite A1 by lia; unfold own1; destruct (Nat.eqb_spec z (S new)); auto; lia|]. split; auto.
      replace (new + S k) with (S new + k) by lia. split; [destruct A3 as [X [Y Z]]; split; auto; split; auto; lia|]. split; [cbn; auto|]. intros z. unfold usage in *. cbn [map]. change (list_sum (?a :: ?b)) with (a + list_sum b). rewrite A5. reflexivity.
  Qed.
  Lemma usage_const c n y : usage (repeat (DConst c) n) y = 0.
  Proof. unfold usage. induction n as [|n IH]; auto. Qed.
  Lemma fo_pend1_j us own x a r lst q new ks q' N : fo_pend1 limit a r lst q new = Some (ks, q') -> queue q = [] -> 0 < dflt q <= new -> own (dflt q) = x -> us (dflt q) = 0 -> (forall y, new < y -> us y = 0) ->
    (0 < a -> exists c, lst = Some (DConst c)) -> N <= limit * (1 + a) + r * (limit - 1) ->
    exists own', (forall y, y <= new -> own' y = own y) /\ qj us own' (new + length ks) x q' N /\ (forall y, usage ks y = 0).
  Proof.
    intros H Hq Hd Ho Hu Hf Ha HN. unfold fo_pend1 in H. destruct ((a =? 0) && (r =? 0)) eqn:Ez.
    - injection H as <- <-. apply andb_true_iff in Ez. destruct Ez as [Ea Er]. apply Nat.eqb_eq in Ea, Er. subst a r. exists own. split; auto. split; auto. left. split; auto. exists limit. cbn [length]. rewrite Nat.add_0_r.
      split; [constructor; auto; constructor|]. split; [constructor; [cbn [fst snd]; split; auto; split; auto; lia|constructor]|]. cbn. lia.
    - apply obind_some in H. destruct H as [k1 [H1 H2]]. destruct (fo_relays limit r _ (new + a)) as [rs q2] eqn:E2. injection H2 as <- <-.
      assert (Hk : length k1 = a /\ forall y, usage k1 y = 0).
      { destruct a as [|a]; [injection H1 as <-; split; auto|]. destruct Ha as [c ->]; [lia|]. cbn [obind] in H1. injection H1 as <-. split; [change (length (repeat (DConst c : DInsn F) (S a)) = S a); apply repeat_length|apply (usage_const c (S a))]. }
      destruct Hk as [Hk1 Hk2]. rewrite Hq in E2. cbn [app] in E2.
      set (own1 := fun z => if (new <? z) && (z <=? new + a) then x else own z).
      destruct (fo_relays_j us x r own1 _ _ _ _ (limit * (1 + a) - 1) E2) as [own' [A1 [A2 [A3 [A4 A5]]]]].
      { discriminate. }
      { cbn [queue]. split; [|split].
        - cbn [map fst]. rewrite map_map. cbn [fst]. rewrite map_id. constructor; [|apply seq_NoDup]. intros Hin. apply in_seq in Hin. lia.
        - constructor.
          + cbn [fst snd]. split; [lia|]. unfold own1. destruct (Nat.ltb_spec new (dflt q)); [lia|]. cbn [andb]. split; auto. lia.
          + apply Forall_forall. intros [z n] Hz. apply in_map_iff in Hz. destruct Hz as [z2 [Ez2 Hz]]. injection Ez2 as -> <-. apply in_seq in Hz. cbn [fst snd]. split; [lia|]. unfold own1. destruct (Nat.ltb_spec new z); [|lia]. destruct (Nat.leb_spec z (new + a)); [|lia]. cbn [andb]. rewrite Hf by lia. split; auto.
        - cbn [map snd]. change (list_sum (?a :: ?b)) with (a + list_sum b). rewrite map_map. cbn [snd]. assert (Hs : forall n st, list_sum (map (fun _ : nat => limit) (seq st n)) = limit * n).
          { clear. induction n as [|n IH]; intros st; cbn [seq map]; [cbn; lia|]. change (list_sum (?a :: ?b)) with (a + list_sum b). rewrite IH. lia. } rewrite Hs. lia. }
      { intros; apply Hf; lia. }
      exists own'. split; [intros z Hz; rewrite A1 by lia; unfold own1; destruct (Nat.ltb_spec new z); [lia|]; auto|]. rewrite app_length, Hk1, A4, Nat.add_assoc. split.
      + right. split; auto. destruct A3 as [X [Y Z]]. split; auto. split; auto. lia.
      + intros y. rewrite usage_app, Hk2, A5. auto.
  Qed.

  Section Plan4.
  Variable add relay : list nat.
  Definition JS us own new (nid : list Q) (solved : nat) (N : nat -> nat) : Prop :=
    (forall y, us y <= limit) /\ (forall y, new < y -> us y = 0) /\ forall x q, nth_error nid x = Some q -> 0 < x ->
      if x <=? solved then qj us own new x q (N x) else queue q = [] /\ 0 < dflt q <= new /\ own (dflt q) = x /\ us (dflt q) = 0.
  Lemma fo_pend_j us N n : forall own s nid lst new ks nid', fo_pend limit add relay (seq (S s) n) nid lst new = Some (ks, nid') -> length nid = S s + n -> JS us own new nid s N ->
    (forall x, In x (seq (S s) n) -> 0 < nth x add 0 -> seq (S s) n = [x] /\ exists c, lst = Some (DConst c)) ->
    (forall x, N x <= limit * (1 + nth x add 0) + nth x relay 0 * (limit - 1)) ->
    exists own', (forall y, y <= new -> own' y = own y) /\ JJ us own' (new + length ks) nid' N /\ length nid' = length nid /\ (forall y, usage ks y = 0).
  Proof.
    induction n as [|n IH]; intros own s nid lst new ks nid' H Hl HJ Ha HN; cbn [seq fo_pend] in H.
    - injection H as <- <-. exists own. split; auto. split; auto. cbn [length]. rewrite Nat.add_0_r. destruct HJ as [A [B C]]. split; auto. split; auto. intros x q Hq Hx. specialize (C x q Hq Hx).
      assert (x < length nid) by (apply nth_error_Some; congruence). destruct (Nat.leb_spec x s); [auto|lia].
    - apply obind_some in H. destruct H as [q [Hq H]]. apply obind_some in H. destruct H as [[k1 q1] [H1 H]]. apply obind_some in H. destruct H as [[k2 n2] [H2 H]]. injection H as <- <-.
      destruct HJ as [HA [HB HC]]. pose proof (HC (S s) q Hq ltac:(lia)) as HCx. destruct (Nat.leb_spec (S s) s); [lia|]. destruct HCx as [Q1 [Q2 [Q3 Q4]]].
      destruct (fo_pend1_j us own (S s) _ _ _ _ _ _ _ (N (S s)) H1 Q1 Q2 Q3 Q4 HB) as [own1 [A1 [A2 A3]]]; auto.
      { intros Hp. apply (Ha (S s)); auto. left; auto. }
      destruct (IH own1 _ _ _ _ _ _ H2) as [own2 [B1 [B2 [B3 B4]]]]; auto.
      { rewrite upd_length. lia. }
      { split; auto. split; [intros; apply HB; lia|]. intros x qx Hx Hx0. rewrite nth_error_upd in Hx. destruct ((S s =? x) && (S s <? length nid)) eqn:Ez.
        - injection Hx as <-. apply andb_true_iff in Ez. destruct Ez as [Ez _]. apply Nat.eqb_eq in Ez. subst x. rewrite Nat.leb_refl. auto.
        - assert (Hne : S s <> x). { intros <-. rewrite Nat.eqb_refl in Ez. cbn [andb] in Ez. apply Nat.ltb_ge in Ez. lia. }
          specialize (HC x qx Hx Hx0). destruct (Nat.leb_spec x s); destruct (Nat.leb_spec x (S s)); try lia.
          + eapply qj_mono; [| | | |exact HC]; auto. lia.
          + destruct HC as [C1 [C2 [C3 C4]]]. split; auto. split; [lia|]. split; auto. rewrite A1 by lia. auto. }
      { intros z Hz Hp. destruct (Ha z) as [E1 _]; auto; [right; auto|]. injection E1 as E0 E1. rewrite E1 in Hz. destruct Hz. }
      exists own2. split; [intros y Hy; rewrite B1 by lia; auto|]. rewrite app_length, Nat.add_assoc. split; auto. rewrite B3, upd_length. split; auto. intros y. rewrite usage_app, A3, B4. auto.
  Qed.

  (* how often the queue of x is still consulted by the instructions from variable p on *)
  Fixpoint need (is : list (DInsn F)) (p x : nat) : nat :=
    match is with
    | [] => 0
    | i :: is => match i with DVar e => S (nth p add 0) * cnt x (quads e) | _ => 0 end + need is (p + d_nout F i) x
    end.
  Hypothesis P2' : forall x, 0 < nth x add 0 -> nth x relay 0 = 0.
  Lemma fo_insns_j (M : nat -> nat) : (forall x, M x <= limit * (1 + nth x add 0) + nth x relay 0 * (limit - 1)) ->
    forall is us own nid lst new solved is' nid', fo_insns limit add relay is nid lst new solved = Some (is', nid') -> wf_insns DI is (length nid - 1) ->
    JS us own new nid solved (need is (length nid)) -> (forall x, need is (length nid) x <= M x) -> PI add nid lst solved -> forall y, us y + usage is' y <= limit.
  Proof.
    intros HM. induction is as [|i is IH]; intros us own nid lst new solved is' nid' H Hw HJ HN HP y; cbn [fo_insns] in H.
    - injection H as <- <-. destruct HJ as [HJ _]. specialize (HJ y). unfold usage; cbn. lia.
    - apply obind_some in H. destruct H as [[ks n1] [H1 H]]. destruct HP as [HP1 HP2].
      destruct (fo_pend_j us (need (i :: is) (length nid)) (length nid - S solved) own solved nid lst new ks n1 H1) as [own1 [A1 [A2 [A3 A4]]]]; auto.
      { lia. }
      { apply PI_pend. split; auto. }
      { intros x. etransitivity; [apply HN|apply HM]. }
      set (new1 := new + length ks) in *. cbn [need] in A2, HN. cbn [wf_insns] in Hw. destruct Hw as [Hi Hw]. change (@i_nout F DI i) with (d_nout F i) in *. change (@i_inputs F DI i) with (d_inputs F i) in Hi.
      rewrite <- A3 in *.
      destruct i as [e|id l n|c]; cbn [d_nout d_inputs] in *.
      + destruct ((nth (length n1) add 0 =? 0) || _); [|discriminate]. set (a := nth (length n1) add 0) in *.
        destruct (fo_exprs (S a) e n1) as [es n2] eqn:E2. apply obind_some in H. destruct H as [[is2 n3] [H2 H]]. injection H as <- <-.
        destruct (fo_exprs_j own1 new1 (S a) e us n1 (need is (length n1 + 1)) es n2 E2) as [us' [B1 [B2 [B3 B4]]]]; auto.
        { eapply Forall_impl; [|exact Hi]. cbn; intros; lia. }
        assert (Hx : length n2 = length n1) by auto.
        set (own2 := fun z => if (new1 <? z) && (z <=? new1 + S a) then length n1 else own1 z).
        assert (Hrec : forall z, us' z + usage is2 z <= limit).
        { destruct B1 as [C1 [C2 C3]]. apply (IH us' own2 _ _ _ _ _ _ H2).
          - rewrite app_length, Hx. cbn [length]. replace (length n1 + 1 - 1) with (length n1 - 1 + 1) by lia. auto.
          - rewrite app_length, Hx. cbn [length]. split; auto. split; [intros; apply C2; lia|]. intros x q Hq Hx0. destruct (Nat.lt_ge_cases x (length n2)) as [Hlt|Hge].
            + rewrite nth_error_app1 in Hq by auto. specialize (C3 x q Hq Hx0). assert (Hle : x <=? (if a =? 0 then length n1 - 1 else length n1) = true) by (apply Nat.leb_le; destruct (a =? 0); lia). rewrite Hle.
              eapply qj_mono; [| | | |exact C3]; auto; [|lia]. intros z Hz. unfold own2. destruct (Nat.ltb_spec new1 z); [lia|auto].
            + rewrite nth_error_app2 in Hq by auto. assert (x = length n1). { destruct (x - length n2) as [|k] eqn:Ek; [lia|]. destruct k; discriminate Hq. } subst x. rewrite Hx, Nat.sub_diag in Hq. injection Hq as <-. cbn [dflt queue].
              destruct (Nat.eqb_spec a 0) as [Ea|Ea].
              * assert (Hgt : length n1 <=? length n1 - 1 = false) by (apply Nat.leb_gt; lia). rewrite Hgt. split; auto. split; [lia|]. unfold own2. destruct (Nat.ltb_spec new1 (new1 + S a)); [|lia]. destruct (Nat.leb_spec (new1 + S a) (new1 + S a)); [|lia]. cbn [andb]. split; [auto|apply C2; lia].
              * rewrite Nat.leb_refl. right. split; [discriminate|]. match goal with |- led_ok ?u ?o ?n ?x ?q ?B => change (led_ok u o n x (map (fun y => (y, limit)) (seq (S new1) (S a))) B) end. split; [|split].
                -- rewrite map_map. cbn [fst]. rewrite map_id. apply seq_NoDup.
                -- apply Forall_forall. intros [z r] Hz. apply in_map_iff in Hz. destruct Hz as [z2 [Ez2 Hz]]. injection Ez2 as -> <-. apply in_seq in Hz. cbn [fst snd]. split; [lia|]. unfold own2. destruct (Nat.ltb_spec new1 z); [|lia]. destruct (Nat.leb_spec z (new1 + S a)); [|lia]. cbn [andb]. split; auto. rewrite C2 by lia. lia.
                -- rewrite map_map. cbn [snd]. assert (Hs : forall n st, list_sum (map (fun _ : nat => limit) (seq st n)) = limit * n).
                   { clear. induction n as [|n IH]; intros st; cbn [seq map]; [cbn; lia|]. change (list_sum (?a :: ?b)) with (a + list_sum b). rewrite IH. lia. } rewrite Hs.
                   specialize (HN (length n1)). specialize (HM (length n1)). fold a in HM. assert (Hr0 : nth (length n1) relay 0 = 0) by (apply P2'; fold a; lia). rewrite Hr0 in HM. lia.
          - intros x. rewrite app_length, Hx. cbn [length]. specialize (HN x). lia.
          - split; [rewrite app_length; cbn [length]; destruct (a =? 0); lia|]. intros x Hxx Hp. rewrite app_length in Hxx. cbn [length] in Hxx. exfalso. destruct (Nat.eqb_spec a 0) as [Ea|Ea]; [|lia]. assert (x = length n1) by lia. subst x. unfold a in Ea. lia. }
        specialize (Hrec y). specialize (B4 y). rewrite !usage_app, A4. lia.
      + destruct (forallb _ _) eqn:Ef; [|discriminate]. apply obind_some in H. destruct H as [[is2 n3] [H2 H]]. injection H as <- <-.
        set (own2 := fun z => if (new1 <? z) && (z <=? new1 + n) then length n1 + (z - S new1) else own1 z).
        destruct A2 as [C1 [C2 C3]]. rewrite usage_app, A4. unfold usage. cbn [map]. change (list_sum (?a :: ?b)) with (a + list_sum b). cbn [Nat.add]. fold (usage is2 y).
        apply (IH us own2 _ _ _ _ _ _ H2).
        * rewrite app_length, map_length, seq_length. replace (length n1 + n - 1) with (length n1 - 1 + n) by lia. auto.
        * rewrite app_length, map_length, seq_length. split; auto. split; [intros; apply C2; lia|]. intros x q Hq Hx0. destruct (Nat.lt_ge_cases x (length n1)) as [Hlt|Hge].
          -- rewrite nth_error_app1 in Hq by auto. specialize (C3 x q Hq Hx0). assert (Hle : x <=? length n1 - 1 = true) by (apply Nat.leb_le; lia). rewrite Hle.
             eapply qj_mono; [| | | |exact C3]; auto; [|lia]. intros z Hz. unfold own2. destruct (Nat.ltb_spec new1 z); [lia|auto].
          -- rewrite nth_error_app2 in Hq by auto. assert (Hk : x - length n1 < n). { rewrite <- (seq_length n (S new1)), <- (map_length q_new). apply nth_error_Some. congruence. }
             rewrite nth_error_map, (nth_error_nth' _ 0) in Hq by (rewrite seq_length; auto). rewrite seq_nth in Hq by auto. injection Hq as <-. assert (Hgt : x <=? length n1 - 1 = false) by (apply Nat.leb_gt; lia). rewrite Hgt. cbn [dflt queue q_new].
             assert (Ho2 : own2 (S new1 + (x - length n1)) = x). { unfold own2. replace ((new1 <? S new1 + (x - length n1)) && (S new1 + (x - length n1) <=? new1 + n)) with true; [lia|]. symmetry. apply andb_true_iff. rewrite Nat.ltb_lt, Nat.leb_le. lia. }
             split; auto. split; [lia|]. split; [exact Ho2|apply C2; lia].
        * intros x. rewrite app_length, map_length, seq_length. specialize (HN x). lia.
        * split; [rewrite app_length; lia|]. intros x Hx Hp. rewrite app_length, map_length, seq_length in Hx. rewrite forallb_forall in Ef. assert (Hz : nth x add 0 = 0) by (apply Nat.eqb_eq, Ef, in_seq; lia). lia.
      + apply obind_some in H. destruct H as [[is2 n3] [H2 H]]. injection H as <- <-.
        set (own2 := fun z => if z =? S new1 then length n1 else own1 z).
        destruct A2 as [C1 [C2 C3]]. rewrite usage_app, A4. unfold usage. cbn [map]. change (list_sum (?a :: ?b)) with (a + list_sum b). cbn [Nat.add]. fold (usage is2 y).
        apply (IH us own2 _ _ _ _ _ _ H2).
        * rewrite app_length. cbn [length]. replace (length n1 + 1 - 1) with (length n1 - 1 + 1) by lia. auto.
        * rewrite app_length. cbn [length]. split; auto. split; [intros; apply C2; lia|]. intros x q Hq Hx0. destruct (Nat.lt_ge_cases x (length n1)) as [Hlt|Hge].
          -- rewrite nth_error_app1 in Hq by auto. specialize (C3 x q Hq Hx0). assert (Hle : x <=? length n1 - 1 = true) by (apply Nat.leb_le; lia). rewrite Hle.
             eapply qj_mono; [| | | |exact C3]; auto. intros z Hz. unfold own2. destruct (Nat.eqb_spec z (S new1)); [lia|auto].
          -- rewrite nth_error_app2 in Hq by auto. assert (x = length n1). { destruct (x - length n1) as [|k] eqn:Ek; [lia|]. destruct k; discriminate Hq. } subst x. rewrite Nat.sub_diag in Hq. injection Hq as <-. cbn [dflt queue q_new].
             assert (Hgt : length n1 <=? length n1 - 1 = false) by (apply Nat.leb_gt; lia). rewrite Hgt. split; auto. split; [lia|]. unfold own2. rewrite Nat.eqb_refl. split; auto.
        * intros x. rewrite app_length. cbn [length]. specialize (HN x). lia.
        * split; [rewrite app_length; lia|]. intros x Hx Hp. rewrite app_length in *. cbn [length] in *. split; [lia|]. split; [lia|]. eauto.
  Qed.
  End Plan4.

  (* ------------------------------------------------------------ the plan *)
  Definition quadsd (o : option (Expression F)) : list nat := match o with Some e => quads e | None => [] end.
  Lemma bump_spec k xs : forall l, Forall (fun x => x < length l) xs -> length (bump k l xs) = length l /\ forall x, nth x (bump k l xs) 0 = nth x l 0 + k * cnt x xs.
  Proof.
    unfold bump. induction xs as [|a xs IH]; intros l Hx; cbn [fold_left].
    - split; auto. intros x. cbn. lia.
    - inversion Hx as [|? ? Ha Hx2]; subst. destruct (IH (upd l a (nth a l 0 + k))) as [A B].
      { rewrite upd_length. auto. }
      rewrite upd_length in A. split; auto. intros x. rewrite B, nth_upd. change (a :: xs) with ([a] ++ xs). rewrite cnt_app. unfold cnt at 2. cbn [count_occ].
      destruct (Nat.eqb_spec a x) as [->|Hne]; cbn [andb].
      + destruct (Nat.ltb_spec x (length l)); [|lia]. destruct (Nat.eq_dec x x); [lia|congruence].
      + destruct (Nat.eq_dec a x); [congruence|]. lia.
  Qed.
  Lemma cnt_lt x xs : Forall (fun z => z < x) xs -> cnt x xs = 0.
  Proof. intros H. apply count_occ_not_In. intros Hin. rewrite Forall_forall in H. specialize (H x Hin). lia. Qed.
  Lemma plan_add_arith m a mc : m <= Nat.max mc 1 * limit -> a = Nat.max ((m + limit - 1) / limit) 1 - 1 -> m <= limit * (1 + a) /\ (0 < a -> 0 < mc).
  Proof.
    intros Hm ->. pose proof (Nat.div_mod (m + limit - 1) limit ltac:(lia)) as D. pose proof (Nat.mod_upper_bound (m + limit - 1) limit ltac:(lia)) as R. set (d := (m + limit - 1) / limit) in *. set (r := (m + limit - 1) mod limit) in *.
    split.
    - assert (m <= limit * d) by lia. destruct (Nat.max_spec d 1) as [[X ->]|[X ->]].
      + assert (limit * d <= limit * 1) by (apply Nat.mul_le_mono_l; lia). lia.
      + replace (1 + (d - 1)) with d by lia. lia.
    - intros Hp. destruct mc as [|mc]; [|lia]. exfalso. assert (Hd : 2 <= d) by lia. cbn [Nat.max] in Hm. assert (limit * 2 <= limit * d) by (apply Nat.mul_le_mono_l; lia). lia.
  Qed.
  Lemma plan_relay_arith m mc : Nat.max mc 1 * limit < m -> m <= limit + (m - 2) / (limit - 1) * (limit - 1).
  Proof.
    intros Hm. assert (limit < m). { assert (1 * limit <= Nat.max mc 1 * limit) by (apply Nat.mul_le_mono_r; lia). lia. }
    pose proof (Nat.div_mod (m - 2) (limit - 1) ltac:(lia)) as D. pose proof (Nat.mod_upper_bound (m - 2) (limit - 1) ltac:(lia)) as R. rewrite Nat.mul_comm in D. lia.
  Qed.
  Lemma fo_plan_spec mcopy defs k : forall mref add relay m' a' r', fo_plan limit mcopy defs k mref add relay = (m', a', r') -> k < length add -> k < length relay -> k < length mref ->
    (forall i, i <= k -> nth i add 0 = 0 /\ nth i relay 0 = 0) -> (forall i, i <= k -> Forall (fun x => x < i) (quadsd (nth i defs None))) ->
    (forall i, k < i \/ i = 0 -> nth i a' 0 = nth i add 0 /\ nth i r' 0 = nth i relay 0) /\ (forall i, k < i -> nth i m' 0 = nth i mref 0) /\
    (forall i, 1 <= i <= k -> (0 < nth i a' 0 -> 0 < nth i mcopy 0 /\ nth i r' 0 = 0) /\ nth i m' 0 <= limit * (1 + nth i a' 0) + nth i r' 0 * (limit - 1)) /\
    (forall x, nth x m' 0 = nth x mref 0 + list_sum (map (fun i => nth i a' 0 * cnt x (quadsd (nth i defs None))) (seq 1 k))).
  Proof.
    induction k as [|k IH]; intros mref add relay m' a' r' H La Lr Lm H0 Hd; cbn [fo_plan] in H.
    - injection H as <- <- <-. split; auto. split; auto. split; [intros; lia|]. intros x. cbn. lia.
    - set (m := nth (S k) mref 0) in *.
      assert (Hq : Forall (fun x => x < S k) (quadsd (nth (S k) defs None))) by (apply Hd; lia).
      assert (Hnew : forall mref1 add1 relay1, (forall x, nth x mref1 0 = nth x mref 0 + nth (S k) add1 0 * cnt x (quadsd (nth (S k) defs None))) -> length mref1 = length mref -> length add1 = length add -> length relay1 = length relay ->
        (forall i, i <> S k -> nth i add1 0 = nth i add 0) -> (forall i, i <> S k -> nth i relay1 0 = nth i relay 0) ->
        (0 < nth (S k) add1 0 -> 0 < nth (S k) mcopy 0 /\ nth (S k) relay1 0 = 0) -> m <= limit * (1 + nth (S k) add1 0) + nth (S k) relay1 0 * (limit - 1) ->
        fo_plan limit mcopy defs k mref1 add1 relay1 = (m', a', r') -> 
        (forall i, S k < i \/ i = 0 -> nth i a' 0 = nth i add 0 /\ nth i r' 0 = nth i relay 0) /\ (forall i, S k < i -> nth i m' 0 = nth i mref 0) /\
        (forall i, 1 <= i <= S k -> (0 < nth i a' 0 -> 0 < nth i mcopy 0 /\ nth i r' 0 = 0) /\ nth i m' 0 <= limit * (1 + nth i a' 0) + nth i r' 0 * (limit - 1)) /\
        (forall x, nth x m' 0 = nth x mref 0 + list_sum (map (fun i => nth i a' 0 * cnt x (quadsd (nth i defs None))) (seq 1 (S k))))).
      { intros mref1 add1 relay1 Hm1 L1 L2 L3 Ha1 Hr1 Hp1 Hp2 HP. destruct (IH _ _ _ _ _ _ HP) as [A [B [C D]]]; try lia.
        { intros i Hi. rewrite Ha1, Hr1 by lia. apply H0. lia. } { intros i Hi. apply Hd. lia. }
        destruct (A (S k) (or_introl (Nat.lt_succ_diag_r k))) as [Ak Rk].
        assert (Mk : nth (S k) m' 0 = m). { rewrite B by lia. rewrite Hm1. fold m. rewrite (cnt_lt (S k)) by auto. lia. }
        split; [|split; [|split]].
        - intros i Hi. destruct (A i) as [X Y]; [lia|]. rewrite X, Y, Ha1, Hr1 by lia. auto.
        - intros i Hi. rewrite B by lia. rewrite Hm1. rewrite cnt_lt; [lia|]. eapply Forall_impl; [|exact Hq]. cbn; intros; lia.
        - intros i Hi. destruct (Nat.eq_dec i (S k)) as [->|Hne]; [rewrite Ak, Rk, Mk; auto|]. apply C. lia.
        - intros x. rewrite D, Hm1. rewrite (seq_S k 1), map_app, list_sum_app. cbn [map]. change (1 + k) with (S k). rewrite Ak. change (list_sum [?a]) with (a + 0). lia. }
      destruct (Nat.leb_spec m (Nat.max (nth (S k) mcopy 0) 1 * limit)) as [Hle|Hgt].
      + set (a := Nat.max ((m + limit - 1) / limit) 1 - 1) in *. destruct (plan_add_arith m a _ Hle eq_refl) as [P3 P4].
        assert (Hu : nth (S k) (upd add (S k) a) 0 = a). { rewrite nth_upd, Nat.eqb_refl. destruct (Nat.ltb_spec (S k) (length add)); [auto|lia]. }
        refine (Hnew _ (upd add (S k) a) relay _ _ _ _ _ _ _ _ H).
        * intros x. rewrite Hu. destruct (nth (S k) defs None) as [e|]; cbn [quadsd] in *; [|cbn; lia]. apply bump_spec. eapply Forall_impl; [|exact Hq]. cbn; intros; lia.
        * destruct (nth (S k) defs None) as [e|]; auto. apply bump_spec. eapply Forall_impl; [|exact Hq]. cbn; intros; lia.
        * apply upd_length.
        * auto.
        * intros i Hi. rewrite nth_upd. destruct (Nat.eqb_spec (S k) i); [congruence|auto].
        * auto.
        * rewrite Hu. intros Hp. split; auto. apply H0. lia.
        * rewrite Hu. lia.
      + assert (Hu : nth (S k) (upd relay (S k) ((m - 2) / (limit - 1))) 0 = (m - 2) / (limit - 1)). { rewrite nth_upd, Nat.eqb_refl. destruct (Nat.ltb_spec (S k) (length relay)); [auto|lia]. }
        destruct (H0 (S k) ltac:(lia)) as [Z1 Z2].
        refine (Hnew _ _ (upd relay (S k) ((m - 2) / (limit - 1))) _ _ _ _ _ _ _ _ H).
        * intros x. rewrite Z1. lia.
        * auto.
        * auto.
        * apply upd_length.
        * auto.
        * intros i Hi. rewrite nth_upd. destruct (Nat.eqb_spec (S k) i); [congruence|auto].
        * rewrite Z1. lia.
        * rewrite Z1, Hu. pose proof (plan_relay_arith m _ Hgt). lia.
  Qed.

  (* mul_ref_cnt before the plan *)
  Lemma fo_refs_spec is : forall l, wf_insns DI is (length l - 1) -> 0 < length l ->
    length (fo_refs is l) = length l + nouts DI is /\ forall x, nth x (fo_refs is l) 0 = nth x l 0 + usage is x.
  Proof.
    unfold fo_refs. induction is as [|i is IH]; intros l Hw Hl; cbn [fold_left wf_insns nouts] in *.
    - split; [lia|]. intros x. unfold usage. cbn. lia.
    - change (@i_nout F DI i) with (d_nout F i) in *. change (@i_inputs F DI i) with (d_inputs F i) in Hw. destruct Hw as [Hi Hw].
      match goal with |- context [fold_left _ is ?l1] => set (l2 := l1) end.
      assert (H2 : length l2 = length l + d_nout F i /\ forall x, nth x l2 0 = nth x l 0 + match i with DVar e => cnt x (quads e) | _ => 0 end).
      { unfold l2. destruct i as [e|id a n|c]; cbn [d_nout d_inputs] in *.
        - destruct (bump_spec 1 (quads e) l) as [A B].
          { apply Forall_forall. intros x Hx. unfold quads in Hx. apply in_flat_map in Hx. destruct Hx as [t [Ht Hx]]. rewrite Forall_forall in Hi. specialize (Hi x). assert (In x (e_vars F e)); [|specialize (Hi H); lia].
            unfold e_vars. apply in_flat_map. exists t. split; auto. destruct (vars t); cbn in *; tauto. }
          split; [rewrite app_length, A; auto|]. intros x. destruct (Nat.lt_ge_cases x (length l)).
          + rewrite app_nth1 by lia. rewrite B. lia.
          + rewrite app_nth2 by lia. rewrite A. rewrite (nth_overflow l) by lia. assert (Hz : nth (x - length l) [0] 0 = 0) by (destruct (x - length l) as [|[|k]]; auto). rewrite Hz.
            specialize (B x). rewrite (nth_overflow (bump 1 l (quads e))), (nth_overflow l) in B by lia. lia.
        - split; [rewrite app_length, repeat_length; auto|]. intros x. destruct (Nat.lt_ge_cases x (length l)); [rewrite app_nth1 by lia; lia|]. rewrite app_nth2 by lia. rewrite (nth_overflow l) by lia. rewrite nth_repeat. auto.
        - split; [rewrite app_length; auto|]. intros x. destruct (Nat.lt_ge_cases x (length l)); [rewrite app_nth1 by lia; lia|]. rewrite app_nth2 by lia. rewrite (nth_overflow l) by lia. destruct (x - length l) as [|[|k]]; auto. }
      destruct H2 as [L2 N2]. destruct (IH l2) as [A B]; [rewrite L2; replace (length l + d_nout F i - 1) with (length l - 1 + d_nout F i) by lia; auto|lia|].
      split; [rewrite A, L2; lia|]. intros x. rewrite B, N2. unfold usage. cbn [map]. change (list_sum (?a :: ?b)) with (a + list_sum b). lia.
  Qed.
  Lemma def_of_len i : length (def_of i) = d_nout F i. Proof. destruct i; cbn; auto. apply repeat_length. Qed.
  Lemma copy_of_len i : length (copy_of i) = d_nout F i. Proof. destruct i; cbn; auto. apply repeat_length. Qed.
  Lemma flat_len {A} (f : DInsn F -> list A) is : (forall i, length (f i) = d_nout F i) -> length (flat_map f is) = nouts DI is.
  Proof. intros H. induction is as [|i is IH]; cbn [flat_map nouts]; auto. rewrite app_length, H, IH. auto. Qed.
  (* the number of uses planned for is the number of uses *)
  Lemma need_sum add defs x is : forall pre, defs = pre ++ flat_map def_of is ->
    need add is (length pre) x = usage is x + list_sum (map (fun i => nth i add 0 * cnt x (quadsd (nth i defs None))) (seq (length pre) (nouts DI is))).
  Proof.
    induction is as [|i is IH]; intros pre Hd; cbn [need nouts flat_map] in *; [reflexivity|].
    rewrite app_assoc in Hd. specialize (IH _ Hd). rewrite app_length, def_of_len in IH. rewrite IH. rewrite seq_app, map_app, list_sum_app. change (@i_nout F DI i) with (d_nout F i).
    unfold usage. cbn [map]. change (list_sum (?a :: ?b)) with (a + list_sum b). fold (usage is x).
    assert (H : list_sum (map (fun j => nth j add 0 * cnt x (quadsd (nth j defs None))) (seq (length pre) (d_nout F i))) = match i with DVar e => nth (length pre) add 0 * cnt x (quads e) | _ => 0 end).
    { assert (Hn : forall j, length pre <= j < length pre + d_nout F i -> nth j defs None = nth (j - length pre) (def_of i) None).
      { intros j Hj. rewrite Hd. rewrite app_nth1 by (rewrite app_length, def_of_len; lia). apply app_nth2. lia. }
      destruct i as [e|id l n|c]; cbn [d_nout def_of] in *.
      - cbn [seq map]. rewrite Hn by lia. rewrite Nat.sub_diag. cbn [nth quadsd]. change (list_sum [?a]) with (a + 0). lia.
      - rewrite (map_ext_in _ (fun _ => 0)). { generalize (seq (length pre) n). clear. induction l as [|z l IH]; auto. }
        intros j Hj. apply in_seq in Hj. rewrite Hn by lia. rewrite nth_repeat. cbn. lia.
      - cbn [seq map]. rewrite Hn by lia. rewrite Nat.sub_diag. cbn. lia. }
    rewrite H. destruct i; lia.
  Qed.

  Lemma quads_vars e x : In x (quads e) -> In x (e_vars F e).
  Proof. unfold quads, e_vars. rewrite !in_flat_map. intros [t [Ht Hx]]. exists t. split; auto. destruct (vars t); cbn in *; tauto. Qed.
  Lemma need_0 add is : forall p cur, wf_insns DI is cur -> need add is p 0 = 0.
  Proof.
    induction is as [|i is IH]; intros p cur Hw; cbn [need wf_insns] in *; auto. destruct Hw as [Hi Hw]. rewrite (IH _ _ Hw). destruct i as [e|id l n|c]; auto.
    assert (Hz : cnt 0 (quads e) = 0); [|rewrite Hz; lia]. apply count_occ_not_In. intros Hin. apply quads_vars in Hin. change (Forall (fun x => 0 < x <= cur) (e_vars F e)) in Hi. rewrite Forall_forall in Hi. specialize (Hi 0 Hin). lia.
  Qed.
  Lemma defs_wf is : forall pre, wf_insns DI is (length pre - 1) -> 0 < length pre -> (forall i, i < length pre -> Forall (fun x => x < i) (quadsd (nth i pre None))) ->
    forall i, Forall (fun x => x < i) (quadsd (nth i (pre ++ flat_map def_of is) None)).
  Proof.
    induction is as [|j is IH]; intros pre Hw Hl Hp i; cbn [flat_map wf_insns] in *.
    - rewrite app_nil_r. destruct (Nat.lt_ge_cases i (length pre)); auto. rewrite nth_overflow by auto. constructor.
    - destruct Hw as [Hi Hw]. rewrite app_assoc. change (@i_nout F DI j) with (d_nout F j) in *. apply IH.
      + rewrite app_length, def_of_len. replace (length pre + d_nout F j - 1) with (length pre - 1 + d_nout F j) by lia. auto.
      + rewrite app_length. lia.
      + intros k Hk. rewrite app_length, def_of_len in Hk. destruct (Nat.lt_ge_cases k (length pre)); [rewrite app_nth1 by auto; auto|]. rewrite app_nth2 by auto. destruct j as [e|id l n|c]; cbn [d_nout def_of] in *.
        * assert (k = length pre) by lia. subst k. rewrite Nat.sub_diag. cbn [nth quadsd]. apply Forall_forall. intros x Hx. apply quads_vars in Hx. change (Forall (fun x => 0 < x <= length pre - 1) (e_vars F e)) in Hi. rewrite Forall_forall in Hi. specialize (Hi x Hx). lia.
        * rewrite nth_repeat. constructor.
        * destruct (k - length pre) as [|[|z]]; constructor.
  Qed.

  Definition fo_state (c : Circuit DI) : list nat * list nat * list nat :=
    let is : list (DInsn F) := instructions c in
    let mcopy := repeat 0 (S (num_inputs c)) ++ flat_map copy_of is in
    fo_plan limit mcopy (repeat None (S (num_inputs c)) ++ flat_map def_of is) (length mcopy - 1) (fo_refs is (repeat 0 (S (num_inputs c)))) (repeat 0 (length mcopy)) (repeat 0 (length mcopy)).
  Lemma fo_state_spec (c : Circuit DI) m' a' r' : wf_circuit DI c -> fo_state c = (m', a', r') ->
    (forall x, 0 < nth x a' 0 -> 0 < nth x (repeat 0 (S (num_inputs c)) ++ flat_map copy_of (instructions c : list (DInsn F))) 0) /\ (forall x, 0 < nth x a' 0 -> nth x r' 0 = 0) /\
    (forall x, need a' (instructions c) (S (num_inputs c)) x <= limit * (1 + nth x a' 0) + nth x r' 0 * (limit - 1)).
  Proof.
    intros Wc H. unfold fo_state in H. set (is := instructions c : list (DInsn F)) in *. set (n := num_inputs c) in *.
    set (mcopy := repeat 0 (S n) ++ flat_map copy_of is) in *. set (defs := repeat None (S n) ++ flat_map def_of is) in *.
    assert (Lm : length mcopy = S (n + nouts DI is)). { unfold mcopy. rewrite app_length, repeat_length, (flat_len _ _ copy_of_len). lia. }
    pose proof (wf_is _ _ Wc) as Wi. fold is n in Wi.
    destruct (fo_refs_spec is (repeat 0 (S n))) as [R1 R2]. { rewrite repeat_length. replace (S n - 1) with n by lia. auto. } { rewrite repeat_length. lia. }
    rewrite repeat_length in R1.
    destruct (fo_plan_spec mcopy defs _ _ _ _ _ _ _ H) as [A [B [C D]]]; try (rewrite ?repeat_length; lia).
    { intros i _. rewrite !nth_repeat. auto. }
    { intros i _. unfold defs. apply defs_wf.
      - rewrite repeat_length. replace (S n - 1) with n by lia. auto.
      - rewrite repeat_length. lia.
      - intros k _. rewrite nth_repeat. constructor. }
    rewrite Lm in *. replace (S (n + nouts DI is) - 1) with (n + nouts DI is) in * by lia.
    assert (Hout : forall x, ~ (1 <= x <= n + nouts DI is) -> nth x a' 0 = 0). { intros x Hx. destruct (A x) as [X _]; [lia|]. rewrite X. apply nth_repeat. }
    split; [|split].
    - intros x Hp. destruct (Nat.le_gt_cases 1 x); [destruct (Nat.le_gt_cases x (n + nouts DI is))|]; try (rewrite Hout in Hp by lia; lia). apply C; auto.
    - intros x Hp. destruct (Nat.le_gt_cases 1 x); [destruct (Nat.le_gt_cases x (n + nouts DI is))|]; try (rewrite Hout in Hp by lia; lia). apply C; auto.
    - intros x. destruct (Nat.eq_dec x 0) as [->|Hx]; [rewrite (need_0 _ _ _ _ Wi); lia|].
      assert (Hnd : need a' is (S n) x = nth x m' 0).
      { rewrite D, R2, nth_repeat. cbn [Nat.add]. pose proof (need_sum a' defs x is (repeat None (S n)) eq_refl) as Hs. rewrite repeat_length in Hs. rewrite Hs. f_equal.
        assert (Hsq : seq 1 (n + nouts DI is) = seq 1 n ++ seq (S n) (nouts DI is)) by (rewrite seq_app; auto). rewrite Hsq. rewrite map_app, list_sum_app.
        rewrite (map_ext_in (fun i => nth i a' 0 * cnt x (quadsd (nth i defs None))) (fun _ => 0) (seq 1 n)).
        - generalize (seq 1 n). intros l. assert (Hz : list_sum (map (fun _ : nat => 0) l) = 0) by (induction l; auto). rewrite Hz. auto.
        - intros i Hi. apply in_seq in Hi. unfold defs. rewrite app_nth1 by (rewrite repeat_length; lia). rewrite nth_repeat. cbn. lia. }
      rewrite Hnd. destruct (Nat.le_gt_cases x (n + nouts DI is)) as [Hle|Hgt]; [apply C; lia|]. rewrite B by lia. rewrite nth_overflow by lia. lia.
  Qed.

  Lemma nid0_nth n x q : nth_error (map q_new (seq 0 (S n))) x = Some q -> q = q_new x /\ x <= n.
  Proof.
    intros H. assert (Hx : x < S n). { rewrite <- (seq_length (S n) 0), <- (map_length q_new). apply nth_error_Some. congruence. }
    rewrite nth_error_map, (nth_error_nth' _ 0) in H by (rewrite seq_length; auto). rewrite seq_nth in H by auto. cbn [option_map Nat.add] in H. injection H as <-. split; auto. lia.
  Qed.
  Lemma usage_empty (is : list (DInsn F)) : nouts DI is = 0 -> forall y, usage is y = 0.
  Proof.
    induction is as [|i is IH]; intros H y; auto. cbn [nouts] in H. unfold usage. cbn [map]. change (list_sum (?a :: ?b)) with (a + list_sum b). fold (usage is y). rewrite IH by lia. destruct i; auto. change (1 + nouts DI is = 0) in H. lia.
  Qed.
  Lemma fo_circuit_ok cs (c : Circuit DI) : wf_circuit DI c -> Forall (call_wf DI cs) (instructions c) ->
    exists c', fo_circuit limit c = Some c' /\ local_ok DI DI c c' /\ (forall y, usage (instructions c' : list (DInsn F)) y <= limit).
  Proof.
    intros Wc Wl. unfold fo_circuit. set (is := instructions c : list (DInsn F)) in *. set (n := num_inputs c) in *.
    assert (Lm : length (repeat 0 (S n) ++ flat_map copy_of is) = S (n + nouts DI is)). { rewrite app_length, repeat_length, (flat_len _ _ copy_of_len). lia. }
    destruct (Nat.eqb_spec (length (repeat 0 (S n) ++ flat_map copy_of is)) 1) as [E1|E1].
    - exists c. split; auto. split.
      + split; auto. split; auto. split; auto. intros i' o l' m Hi Ec. exists i', l'. auto.
      + intros y. fold is. rewrite usage_empty by lia. lia.
    - fold is n. destruct (fo_plan limit _ _ _ _ _ _) as [[m' a'] r'] eqn:Ep.
      destruct (fo_state_spec c m' a' r' Wc Ep) as [P1 [P2 P3]]. fold is n in P1, P3.
      assert (HPI : PI a' (map q_new (seq 0 (S n))) None 0).
      { split; [rewrite map_length, seq_length; lia|]. intros x Hx Hp. rewrite map_length, seq_length in Hx. exfalso. apply P1 in Hp. rewrite app_nth1 in Hp by (rewrite repeat_length; lia). rewrite nth_repeat in Hp. lia. }
      assert (Hok : okS (map q_new (seq 0 (S n))) n). { intros x q Hq Hx y Hy. destruct (nid0_nth _ _ _ Hq) as [-> Hxn]. destruct Hy as [<-|[]]. cbn. lia. }
      destruct (fo_insns_static a' r' _ P1 P2 is (map q_new (seq 0 (S n))) None n 0 n (repeat 0 (S n)) Hok) as [is' [nid' [A [B [C [D K]]]]]]; auto.
      { rewrite map_length, seq_length. auto. } { apply (wf_is _ _ Wc). } { rewrite map_length, seq_length, repeat_length. auto. }
      rewrite A. cbn [obind]. eexists. split; [reflexivity|].
      assert (Hmap : forall l, Forall (fun x => 0 < x <= n + nouts DI is) l -> Forall (fun y => 0 < y <= n + nouts DI is') (map (fun x => dflt (nth x nid' (q_new 0))) l)).
      { intros l Hl. apply Forall_forall. intros y Hy. apply in_map_iff in Hy. destruct Hy as [x [<- Hx]]. rewrite Forall_forall in Hl. specialize (Hl x Hx). apply (okq_dflt _ nid' x D). lia. }
      split; [split; [|split; [|split]]|].
      + split; cbn [instructions constraints outputs num_inputs]; auto.
        * apply (Hmap (constraints c : list nat)). apply (wf_con _ _ Wc).
        * apply Hmap. apply (wf_out _ _ Wc).
      + auto.
      + cbn. apply map_length.
      + exact K.
      + cbn [instructions]. intros y.
        apply (fo_insns_j a' r' P2 (need a' is (S n)) P3 is (fun _ => 0) (fun z => z) _ _ _ _ _ _ A) with (y := y).
        * rewrite map_length, seq_length. replace (S n - 1) with n by lia. apply (wf_is _ _ Wc).
        * rewrite map_length, seq_length. split; [intros; lia|]. split; auto. intros x q Hq Hx. destruct (nid0_nth _ _ _ Hq) as [-> Hxn]. destruct (Nat.leb_spec x 0); [lia|]. cbn. repeat split; auto.
        * rewrite map_length, seq_length. auto.
        * auto.
  Qed.

  Lemma fo_bwdfwd E cs cs' id c c' (U : Prop) : wf_circuits DI cs -> lookup id cs = Some c -> lookup id cs' = Some c' -> fo_circuit limit c = Some c' ->
    Forall no_random_term (instructions c : list (DInsn F)) -> (U -> Forall (quiet E) (instructions c : list (DInsn F))) ->
    (forall o, In o (calls c) -> fwd DI DI E cs cs' o /\ (U -> bwd DI DI E cs cs' o)) -> fwd DI DI E cs cs' id /\ (U -> bwd DI DI E cs cs' id).
  Proof.
    intros W Hc Hc' Hf Hn Hu Ho. pose proof (wf_each _ _ W _ _ Hc) as Wc. pose proof (wf_calls _ _ W _ _ Hc) as Wl.
    destruct (fo_circuit_ok cs c Wc Wl) as [c2 [X [Wc' _]]]. rewrite Hf in X. injection X as <-. destruct Wc' as [Wc' _].
    unfold fo_circuit in Hf. set (is := instructions c : list (DInsn F)) in *. set (n := num_inputs c) in *.
    destruct (length (repeat 0 (S n) ++ flat_map copy_of is) =? 1) eqn:E1.
    - injection Hf as <-.
      assert (Hst : forall ks : list (Insn DI), incl ks is -> (forall v vf b, Forall (call_wf DI cs) ks -> exec DI E cs ks v vf b -> exec DI E cs' ks v vf b) /\ (U -> forall v vf b, exec DI E cs' ks v vf b -> exec DI E cs ks v vf b)).
      { induction ks as [|k ks IH]; intros Hi; [split; [intros v vf b _ H|intros _ v vf b H]; apply exec_nil in H; destruct H as [-> ->]; constructor|].
        destruct IH as [IHf IHb]; [intros z Hz; apply Hi; right; auto|]. assert (Hk : In k is) by (apply Hi; left; auto). rewrite Forall_forall in Wl.
        split.
        - intros v vf b Hcw H. inversion Hcw; subst. apply exec_cons in H. destruct H as [o [b1 [b2 [A [B ->]]]]]. apply exec_cons. exists o, b1, b2. split; [|split; auto]. unfold step in *. destruct (i_call k) as [[[sb l] m]|] eqn:Ec; [|exact A].
          destruct A as [A1 A2]. split; [exact A1|]. destruct (Wl k Hk sb l m Ec) as [co [Q1 [Q2 Q3]]]. destruct (Ho sb) as [Hof _]; [eapply (in_calls DI); eauto|]. eapply Hof; eauto. rewrite map_length; auto.
        - intros HU v vf b H. apply exec_cons in H. destruct H as [o [b1 [b2 [A [B ->]]]]]. apply exec_cons. exists o, b1, b2. split; [|split; auto]. unfold step in *. destruct (i_call k) as [[[sb l] m]|] eqn:Ec; [|exact A].
          destruct A as [A1 A2]. split; [exact A1|]. destruct (Wl k Hk sb l m Ec) as [co [Q1 [Q2 Q3]]]. destruct (Ho sb) as [_ Hob]; [eapply (in_calls DI); eauto|]. eapply (Hob HU); eauto. rewrite map_length; auto. }
      destruct (Hst is (incl_refl _)) as [Sf Sb]. split.
      + intros c1 ins outs b Hc1 Hl H. apply run_iff in H. destruct H as [c3 [v [b0 [A [B R]]]]]. rewrite Hc in A. injection A as <-. apply run_iff. exists c, v, b0. split; auto.
      + intros HU c1 ins outs b Hc1 Hl H. apply run_iff in H. destruct H as [c3 [v [b0 [A [B R]]]]]. rewrite Hc' in A. injection A as <-. apply run_iff. exists c, v, b0. split; auto.
    - fold is n in Hf. destruct (fo_plan limit _ _ _ _ _ _) as [[m' a'] r'] eqn:Ep.
      destruct (fo_state_spec c m' a' r' Wc Ep) as [P1 [P2 P3]]. fold is n in P1, P3. apply obind_some in Hf. destruct Hf as [[is' nid'] [Hi Hf]]. injection Hf as <-.
      assert (Hdyn : forall ins, length ins = n -> (forall vf b, exec DI E cs is (f0 :: ins) vf b -> exists e, exec DI E cs' is' (f0 :: ins) ((f0 :: ins) ++ e) b /\ okq (PV vf ((f0 :: ins) ++ e)) nid') /\
        (U -> forall vf' b, exec DI E cs' is' (f0 :: ins) vf' b -> exists vf, exec DI E cs is (f0 :: ins) vf b /\ okq (PV vf vf') nid')).
      { intros ins Hl. apply (fo_insns_dyn E cs cs' U a' r' is _ _ _ _ (f0 :: ins) (f0 :: ins) is' nid' Hi); auto.
        - rewrite map_length, seq_length. cbn; auto.
        - intros x q Hq Hx y Hy. destruct (nid0_nth _ _ _ Hq) as [-> Hxn]. destruct Hy as [<-|[]]. cbn [dflt q_new]. split; auto. cbn. lia.
        - cbn; auto.
        - cbn [length]. rewrite Hl. replace (S n - 1) with n by lia. apply (wf_is _ _ Wc).
        - split; [rewrite map_length, seq_length; lia|]. intros x Hx Hp. rewrite map_length, seq_length in Hx. exfalso. apply P1 in Hp. rewrite app_nth1 in Hp by (rewrite repeat_length; lia). rewrite nth_repeat in Hp. lia.
        - intros i o l m Hin Ed. apply Ho. eapply (in_calls DI); eauto. }
      assert (Hfin : forall vf vf' l, okq (PV vf vf') nid' -> length nid' = length vf -> Forall (fun x => 0 < x < length vf) l -> map (getv vf') (map (fun x => dflt (nth x nid' (q_new 0))) l) = map (getv vf) l /\ Forall (inb vf') (map (fun x => dflt (nth x nid' (q_new 0))) l)).
      { intros vf vf' l Hok Hln Hl. rewrite Forall_forall in Hl. split.
        - rewrite map_map. apply map_ext_in. intros x Hx. apply (okq_dflt _ _ x Hok). rewrite Hln. auto.
        - apply Forall_forall. intros y Hy. apply in_map_iff in Hy. destruct Hy as [x [<- Hx]]. apply (okq_dflt _ _ x Hok). rewrite Hln. auto. }
      assert (Hnl : length nid' = S (n + nouts DI is)).
      { destruct (fo_insns_static a' r' _ P1 P2 is (map q_new (seq 0 (S n))) None n 0 n (repeat 0 (S n))) as [is2 [nid2 [A [_ [C _]]]]]; auto.
        - intros x q Hq Hx y Hy. destruct (nid0_nth _ _ _ Hq) as [-> Hxn]. destruct Hy as [<-|[]]. cbn. lia.
        - rewrite map_length, seq_length. auto.
        - apply (wf_is _ _ Wc).
        - split; [rewrite map_length, seq_length; lia|]. intros x Hx Hp. rewrite map_length, seq_length in Hx. exfalso. apply P1 in Hp. rewrite app_nth1 in Hp by (rewrite repeat_length; lia). rewrite nth_repeat in Hp. lia.
        - rewrite map_length, seq_length, repeat_length. auto.
        - rewrite Hi in A. injection A as <- <-. auto. }
      assert (Hcon : forall (v v' : list F) (l : list nat), map (getv v') (map (fun x => dflt (nth x nid' (q_new 0))) l) = map (getv v) l ->
         forallb (fun k => is0 F (getv v' k)) (map (fun x => dflt (nth x nid' (q_new 0))) l) = forallb (fun k => is0 F (getv v k)) l).
      { intros v v' l. rewrite map_map. induction l as [|x l IH]; intros H; auto. cbn [map] in *. injection H as H1 H2. cbn [forallb]. rewrite H1. f_equal; auto. }
      split.
      + intros c1 ins outs b Hc1 Hl H. rewrite Hc in Hc1. injection Hc1 as <-. apply run_iff in H. destruct H as [c3 [v [b0 [A [B [R1 [R2 [-> ->]]]]]]]]. rewrite Hc in A. injection A as <-.
        destruct (proj1 (Hdyn ins Hl) v b0 B) as [e [X1 X2]]. pose proof (exec_len DI (DestL F false) _ _ _ _ _ _ Wl B) as L1. cbn [length] in L1. fold is in L1.
        assert (Lv : length nid' = length v) by lia.
        destruct (Hfin v _ (outputs c) X2 Lv) as [O1 O2]. { eapply Forall_impl; [|apply (wf_out _ _ Wc)]. cbn; fold is n; intros; lia. }
        destruct (Hfin v _ (constraints c : list nat) X2 Lv) as [K1 K2]. { eapply Forall_impl; [|apply (wf_con _ _ Wc)]. cbn; fold is n; intros; lia. }
        apply run_iff. eexists _, _, b0. split; [exact Hc'|]. split; [exact X1|]. cbn [constraints outputs]. split; [exact K2|]. split; [exact O2|]. split; [symmetry; exact O1|].
        f_equal. symmetry. apply (Hcon v). exact K1.
      + intros HU c1 ins outs b Hc1 Hl H. rewrite Hc in Hc1. injection Hc1 as <-. apply run_iff in H. destruct H as [c3 [v' [b0 [A [B [R1 [R2 [-> ->]]]]]]]]. rewrite Hc' in A. injection A as <-. cbn [instructions constraints outputs] in *.
        destruct (proj2 (Hdyn ins Hl) HU v' b0 B) as [v [X1 X2]]. pose proof (exec_len DI (DestL F false) _ _ _ _ _ _ Wl X1) as L1. cbn [length] in L1. fold is in L1.
        assert (Lv : length nid' = length v) by lia.
        assert (G1 : Forall (fun x => 0 < x < length v) (outputs c)). { eapply Forall_impl; [|apply (wf_out _ _ Wc)]. cbn; fold is n; intros; lia. }
        assert (G2 : Forall (fun x => 0 < x < length v) (constraints c : list nat)). { eapply Forall_impl; [|apply (wf_con _ _ Wc)]. cbn; fold is n; intros; lia. }
        destruct (Hfin v _ (outputs c) X2 Lv G1) as [O1 O2]. destruct (Hfin v _ (constraints c : list nat) X2 Lv G2) as [K1 K2].
        apply run_iff. exists c, v, b0. split; auto. split; auto. split; [eapply Forall_impl; [|exact G2]; cbn; unfold inb; intros; lia|]. split; [eapply Forall_impl; [|exact G1]; cbn; unfold inb; intros; lia|]. split; [exact O1|].
        f_equal. apply (Hcon v). exact K1.
  Qed.

  Theorem solve_mul_fanout_spec (rc : RootCircuit DI) : wf_root DI rc -> (forall id c, lookup id (circuits rc) = Some c -> Forall no_random_term (instructions c : list (DInsn F))) ->
    exists rc', solve_mul_fanout_limit limit rc = Some rc' /\ wf_root DI rc' /\ num_public_inputs rc' = num_public_inputs rc /\ expected_num_output_zeroes rc' = expected_num_output_zeroes rc /\
      (forall id c', lookup id (circuits rc') = Some c' -> (forall y, usage (instructions c' : list (DInsn F)) y <= limit) /\
         exists c, lookup id (circuits rc) = Some c /\ num_inputs c' = num_inputs c /\ length (outputs c') = length (outputs c)) /\
      (forall E ins outs b, root_run DI E rc ins outs b -> root_run DI E rc' ins outs b) /\
      (forall E, (forall id c, lookup id (circuits rc) = Some c -> Forall (quiet E) (instructions c : list (DInsn F))) ->
         forall ins outs b, root_run DI E rc' ins outs b -> root_run DI E rc ins outs b).
  Proof.
    intros W Hn. destruct (local_pass_spec DI DI (fo_circuit limit) rc W) as [rc' [A [B [C [D [K1 [K2 [Hf Hb]]]]]]]].
    { intros id c Hc. destruct (fo_circuit_ok (circuits rc) c) as [c' [X [Y _]]]; eauto; [apply (wr_cs _ _ W) in Hc; auto|]. eapply (wf_calls _ _ (wr_cs _ _ W)); eauto. }
    exists rc'. unfold solve_mul_fanout_limit. destruct (Nat.leb_spec limit 1); [lia|]. split; auto. split; auto. split; auto. split; auto. split; [|split].
    - intros id c' Hc'. destruct (K1 id c' Hc') as [c [Hc [X Y]]]. destruct (fo_circuit_ok (circuits rc) c) as [c2 [X2 [Y2 Z2]]]; eauto; [apply (wr_cs _ _ W) in Hc; auto|eapply (wf_calls _ _ (wr_cs _ _ W)); eauto|].
      rewrite X in X2. injection X2 as <-. split; auto. exists c. split; auto. split; apply Y2.
    - intros E. apply Hf. intros id c c' Hc Hc' Hs Ho. apply (fo_bwdfwd E _ _ id c c' False (wr_cs _ _ W) Hc Hc' Hs (Hn id c Hc)); [tauto|]. intros o Hoo. split; auto. tauto.
    - intros E Hq. apply Hb. 
      assert (G : forall id, fwd DI DI E (circuits rc) (circuits rc') id /\ (True -> bwd DI DI E (circuits rc) (circuits rc') id)).
      { destruct W as [W [rank R] _]. apply (rank_ind rank). intros id IH. destruct (lookup id (circuits rc)) as [c|] eqn:Hc.
        - destruct (K2 id c Hc) as [c' [Hc' [Hs _]]]. apply (fo_bwdfwd E _ _ id c c' True W Hc Hc' Hs (Hn id c Hc)).
          + intros _. apply (Hq id c Hc).
          + intros o Ho. apply IH. eapply R; eauto.
        - split; [|intros _]; intros c ins outs b Hc2; congruence. }
      intros id c c' Hc Hc' Hs Ho. apply G. auto.
  Qed.
  End L2.
End FO.
