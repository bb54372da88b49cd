(* Model of RootCircuitRelaxed::solve_duplicates, circuit/ir/dest/mod.rs:164-238, 296-311: makes the inputs of every call pairwise distinct by
   copying the instruction that defines a repeated one. *)
From Verif Require Import Prelude Field Expr Topo Ir IrFacts IrInst Sim RemoveUnreachable ReassignDup VarMap LocalPass.

(* ---------- when an instruction of the dest IR has at most one outcome ---------- *)
Section Quiet.
  Context {F : Fld}.
  Add Field Fsd : (fth F).
  Definition no_random_term (i : DInsn F) : Prop := match i with DVar e => no_random F e | _ => True end.
  (* no random coefficient is drawn, or the environment offers only one *)
  Definition quiet (E : Env F) (i : DInsn F) : Prop :=
    (forall r r', e_rnd E r -> e_rnd E r' -> r = r') \/ no_random_term i /\ i <> DConst CRandom.
  Lemma quiet_det E (i : DInsn F) g o1 o2 : quiet E i -> d_sem F E i g o1 -> d_sem F E i g o2 -> o1 = o2.
  Proof.
    intros Hq. destruct i as [e|id l n|c]; cbn [d_sem]; [|tauto|].
    - intros [v1 [-> [s1 [H1 ->]]]] [v2 [-> [s2 [H2 ->]]]]. do 2 f_equal.
      assert (G : forall t a b, In t e -> term_sem F E g t a -> term_sem F E g t b -> a = b).
      { intros t a b Ht. unfold term_sem. destruct (vars t) eqn:Ev; try congruence. intros [r [R1 ->]] [r' [R2 ->]]. destruct Hq as [Hq|[Hq _]].
        - rewrite (Hq r r'); auto.
        - cbn in Hq. unfold no_random in Hq. rewrite Forall_forall in Hq. specialize (Hq t Ht). rewrite Ev in Hq. destruct Hq. }
      clear Hq. revert s2 H2. induction H1 as [|t a e s1 Ha H1 IH]; intros s2 H2; inversion H2 as [|? b ? s2' Hb H2']; subst; auto.
      f_equal; [eapply G; eauto; left; auto|]. apply IH; auto. intros; eapply G; eauto. right; auto.
    - intros [v1 [-> H1]] [v2 [-> H2]]. do 2 f_equal. destruct c; cbn in *; try congruence. destruct Hq as [Hq|[_ Hq]]; [apply Hq; auto|congruence].
  Qed.
  Lemma quiet_replace E f (i : DInsn F) : quiet E i -> quiet E (d_replace F f i).
  Proof.
    intros [H|[H1 H2]]; [left; auto|right]. destruct i; cbn in *; split; auto; try discriminate. unfold no_random, e_replace in *. rewrite Forall_map. eapply Forall_impl; [|exact H1]. cbn. intros t. destruct (vars t); auto.
  Qed.
  Lemma quiet_linear E k x : quiet E (DVar (e_linear F k x)).
  Proof. right. split; [|discriminate]. repeat constructor. Qed.
  Lemma linear_sem (E : Env F) x g outs : d_sem F E (DVar (e_linear F f1 x)) g outs <-> outs = [g x].
  Proof.
    cbn [d_sem]. assert (Hn : no_random F (e_linear F f1 x)) by (repeat constructor).
    assert (Hv : expr_val F E g (e_linear F f1 x) = g x). { unfold expr_val, e_linear, fsum, term_val; cbn. ring. }
    split.
    - intros [v [-> H]]. apply expr_sem_val in H; auto. congruence.
    - intros ->. eexists. split; [reflexivity|]. apply expr_sem_val; auto.
  Qed.
End Quiet.

(* a circuit that calls nothing after its first draw *)
Section Calm.
  Context {F : Fld}.
  Definition calm (E : Env F) (is : list (DInsn F)) : Prop := exists a b, is = a ++ b /\ Forall (quiet E) a /\ Forall (fun i => d_call F i = None) b.
  Lemma quiet_calm E is : Forall (quiet E) is -> calm E is.
  Proof. intros H. exists is, []. rewrite app_nil_r. auto. Qed.
  Lemma calm_cons E i is : calm E (i :: is) -> quiet E i /\ calm E is \/ Forall (fun i => d_call F i = None) (i :: is).
  Proof. intros [[|j a] [b [H1 [H2 H3]]]]; [right; rewrite H1; auto|left]. injection H1 as <- ->. inversion H2; subst. split; auto. exists a, b. auto. Qed.
End Calm.

Section SD.
  Context {F : Fld}.
  Notation DI := (DestI F false). Notation DS := (DestI F true).
  Notation getv := (getv (F := F)).

  (* mod.rs:190-212: [iov] is insn_of_var, holding the instruction itself instead of its index; [new] is new_var_max.
     Returns the copies and the new inputs *)
  Fixpoint sd_args (iov : list (option (DInsn F))) (seen l : list nat) (new : nat) : list (DInsn F) * list nat :=
    match l with
    | [] => ([], [])
    | i :: l =>
        if memb i seen then
          let k := match nth i iov None with Some j => j | None => DVar (e_linear F f1 i) end in
          let '(ks, a) := sd_args iov seen l (S new) in (k :: ks, S new :: a)
        else let '(ks, a) := sd_args iov (i :: seen) l new in (ks, i :: a)
    end.
  (* mod.rs:172-225: the loop over instructions *)
  Fixpoint sd_insns (is : list (DInsn F)) (vm : list nat) (iov : list (option (DInsn F))) (new : nat) : list (DInsn F) * list nat :=
    match is with
    | [] => ([], vm)
    | i :: is =>
        match d_replace F (vmap vm) i with
        | DCall id l n =>
            let '(ks, a) := sd_args iov [] l new in
            let new := new + length ks in
            let '(is', vm') := sd_insns is (vm ++ seq (S new) n) (iov ++ repeat None (length ks + n)) (new + n) in
            (ks ++ DCall id a n :: is', vm')
        | j => let '(is', vm') := sd_insns is (vm ++ [S new]) (iov ++ [Some j]) (S new) in (j :: is', vm')
        end
    end.
  (* mod.rs:164-238; None is the panic on duplicate outputs.  The constraints are collected through a HashSet: their order is
     not specified, here that of their last occurrences *)
  Definition sd_circuit (c : Circuit DI) : option (Circuit DS) :=
    let '(is', vm) := sd_insns (instructions c) (seq 0 (S (num_inputs c))) (repeat None (S (num_inputs c))) (num_inputs c) in
    if nodupb (outputs c) then
      Some {| instructions := is' : list (Insn DS); outputs := map (vmap vm) (outputs c);
              constraints := nodup Nat.eq_dec (map (vmap vm) (constraints c : list nat)) : list (Con DS); num_inputs := num_inputs c |}
    else None.
  (* mod.rs:296-311 *)
  Definition solve_duplicates (rc : RootCircuit DI) : option (RootCircuit DS) := local_pass DI DS sd_circuit rc.

  (* ------------------------------------------------------------ statics *)
  Definition siov (iov : list (option (DInsn F))) (new : nat) : Prop := length iov = S new /\
    forall i j, nth i iov None = Some j -> d_call F j = None /\ Forall (fun x => 0 < x <= new) (d_inputs F j).
  Lemma siov_more iov new new' e : siov iov new -> length e = new' - new -> new <= new' -> (forall j, In (Some j) e -> d_call F j = None /\ Forall (fun x => 0 < x <= new') (d_inputs F j)) -> siov (iov ++ e) new'.
  Proof.
    intros [H1 H2] He Hle Hj. split; [rewrite app_length; lia|]. intros i j Hn. destruct (Nat.lt_ge_cases i (length iov)).
    - rewrite app_nth1 in Hn by auto. destruct (H2 i j Hn) as [A B]. split; auto. eapply Forall_impl; [|exact B]. cbn; intros; lia.
    - rewrite app_nth2 in Hn by lia. apply Hj. rewrite <- Hn. apply nth_In. destruct (Nat.lt_ge_cases (i - length iov) (length e)); auto. rewrite nth_overflow in Hn by auto. discriminate.
  Qed.
  Lemma in_Some_repeat_None {A} (j : A) n : ~ In (Some j) (repeat None n).
  Proof. intros H. apply repeat_spec in H. discriminate. Qed.
  Lemma d_nout1 (k : DInsn F) : d_call F k = None -> d_nout F k = 1. Proof. destruct k; cbn; auto; discriminate. Qed.

  Definition sd_copy (iov : list (option (DInsn F))) (i : nat) : DInsn F := match nth i iov None with Some j => j | None => DVar (e_linear F f1 i) end.
  Lemma sd_copy_static iov new i : siov iov new -> 0 < i <= new -> d_call F (sd_copy iov i) = None /\ Forall (fun x => 0 < x <= new) (d_inputs F (sd_copy iov i)).
  Proof.
    intros [_ H] Hi. unfold sd_copy. destruct (nth i iov None) as [j|] eqn:Ej; [apply (H i j Ej)|]. split; auto. cbn. repeat constructor; lia.
  Qed.
  Lemma sd_args_static iov new0 : siov iov new0 -> forall l seen new ks a, sd_args iov seen l new = (ks, a) -> new0 <= new -> Forall (fun x => 0 < x <= new0) l ->
    wf_insns DS ks new /\ Forall (fun k => d_call F k = None) ks /\ nouts DS ks = length ks /\ length a = length l /\
    Forall (fun x => 0 < x <= new + length ks) a /\ NoDup a /\ Forall (fun x => In x l /\ ~ In x seen \/ new < x) a.
  Proof.
    intros Hs. induction l as [|i l IH]; intros seen new ks a H Hle Hl; cbn [sd_args] in H.
    - injection H as <- <-. cbn. repeat split; auto; constructor.
    - inversion Hl as [|? ? Hi Hl2]; subst. destruct (memb i seen) eqn:Em.
      + destruct (sd_args iov seen l (S new)) as [ks1 a1] eqn:E1. injection H as <- <-. fold (sd_copy iov i). destruct (IH _ _ _ _ E1) as [A [B [C [D [E0 [G K]]]]]]; auto; try lia.
        destruct (sd_copy_static iov new0 i Hs Hi) as [S1 S2]. cbn [wf_insns nouts length]. change (@i_nout F DS (sd_copy iov i)) with (d_nout F (sd_copy iov i)). rewrite (d_nout1 _ S1).
        change (@i_inputs F DS (sd_copy iov i)) with (d_inputs F (sd_copy iov i)). replace (new + 1) with (S new) by lia.
        split; [split; auto; eapply Forall_impl; [|exact S2]; cbn; intros; lia|]. split; auto. split; [rewrite C; auto|]. split; auto.
        split; [constructor; [lia|]; eapply Forall_impl; [|exact E0]; cbn; intros; lia|]. split.
        * constructor; auto. intros Hin. rewrite Forall_forall in K. destruct (K _ Hin) as [[K1 _]|K1]; [|lia]. rewrite Forall_forall in Hl2. specialize (Hl2 _ K1). lia.
        * constructor; [right; lia|]. eapply Forall_impl; [|exact K]. cbn. intros x [[X Y]|X]; [left; auto|right; lia].
      + destruct (sd_args iov (i :: seen) l new) as [ks1 a1] eqn:E1. injection H as <- <-. destruct (IH _ _ _ _ E1) as [A [B [C [D [E0 [G K]]]]]]; auto. cbn [length].
        split; auto. split; auto. split; auto. split; auto. split; [constructor; auto; lia|]. split.
        * constructor; auto. intros Hin. rewrite Forall_forall in K. destruct (K _ Hin) as [[_ K1]|K1]; [apply K1; left; auto|]. lia.
        * constructor. { left. split; [left; auto|]. intros Hin. apply memb_spec in Hin. congruence. }
          eapply Forall_impl; [|exact K]. cbn. intros x [[X Y]|X]; [left; split; [auto|tauto]|right; lia].
  Qed.

  Lemma sd_static cs is : forall cur vm iov new is' vm', sd_insns is vm iov new = (is', vm') -> Forall (call_wf DI cs) is -> wf_insns DI is cur -> length vm = S cur -> vpos vm new -> siov iov new ->
    wf_insns DS is' new /\ length vm' = S (cur + nouts DI is) /\ vpos vm' (new + nouts DS is') /\
    (forall i' o l' n, In i' is' -> d_call F i' = Some (o, l', n) -> NoDup l' /\ exists i l, In i is /\ d_call F i = Some (o, l, n) /\ length l' = length l).
  Proof.
    induction is as [|i is IH]; intros cur vm iov new is' vm' H Hc Hw Hl Hv Hs; cbn [sd_insns] in H.
    - injection H as <- <-. cbn. rewrite !Nat.add_0_r. split; auto. split; auto. split; auto. intros ? ? ? ? [].
    - cbn [wf_insns nouts] in Hw |- *. destruct Hw as [Hi Hw]. inversion Hc as [|? ? Hci Hc2]; subst.
      assert (Hin1 : Forall (fun y => 0 < y <= new) (map (vmap vm) (d_inputs F i))) by (apply vpos_map; auto; eapply Forall_impl; [|exact Hi]; cbn; intros; lia).
      assert (Hone : forall j, d_call F i = None -> d_call F j = None -> d_inputs F j = map (vmap vm) (d_inputs F i) ->
        forall is1 vm1, sd_insns is (vm ++ [S new]) (iov ++ [Some j]) (S new) = (is1, vm1) ->
        wf_insns DS (j :: is1) new /\ length vm1 = S (cur + (d_nout F i + nouts DI is)) /\ vpos vm1 (new + nouts DS (j :: is1)) /\
        (forall i' o l' n, In i' (j :: is1) -> d_call F i' = Some (o, l', n) -> NoDup l' /\ exists i0 l, In i0 (i :: is) /\ d_call F i0 = Some (o, l, n) /\ length l' = length l)).
      { intros j Ci Cj Ej is1 vm1 H1. pose proof (d_nout1 _ Ci) as Ni. pose proof (d_nout1 _ Cj) as Nj. change (@i_nout F DI i) with (d_nout F i) in Hw. rewrite Ni in *.
        destruct (IH (cur + 1) _ _ _ _ _ H1) as [A [B [C D]]]; auto.
        - rewrite app_length; cbn; lia.
        - eapply vpos_app; eauto; try lia. constructor; [lia|constructor].
        - apply (siov_more iov new (S new)); [auto|cbn [length]; lia|lia|]. intros j0 [Hj|[]]. injection Hj as ->. split; auto. rewrite Ej. eapply Forall_impl; [|exact Hin1]. cbn; intros; lia.
        - cbn [wf_insns nouts]. change (@i_nout F DS j) with (d_nout F j). change (@i_inputs F DS j) with (d_inputs F j). rewrite Nj, Ej. replace (new + 1) with (S new) by lia.
          split; auto. split; [lia|]. split; [replace (new + (1 + nouts DS is1)) with (S new + nouts DS is1) by lia; auto|].
          intros i' o l' n [<-|Hi'] Ed; [congruence|]. destruct (D i' o l' n Hi' Ed) as [X [i0 [l [Y Z]]]]. split; auto. exists i0, l. split; [right|]; auto. }
      destruct i as [e|id l n|c]; cbn [d_replace] in H.
      + destruct (sd_insns is (vm ++ [S new]) _ (S new)) as [is1 vm1] eqn:E1. injection H as <- <-. eapply Hone; eauto; auto. cbn. apply e_replace_vars.
      + clear Hone. destruct (sd_args iov [] (map (vmap vm) l) new) as [ks a] eqn:Ea. destruct (sd_insns is _ _ (new + length ks + n)) as [is1 vm1] eqn:E1. injection H as <- <-.
        destruct (sd_args_static iov new Hs _ _ _ _ _ Ea (le_n _) Hin1) as [A [B [C [D [E0 [G _]]]]]]. change (@i_nout F DI (DCall id l n)) with n in *.
        destruct (IH (cur + n) _ _ _ _ _ E1) as [A1 [B1 [C1 D1]]]; auto.
        { rewrite app_length, seq_length. lia. }
        { eapply vpos_app; eauto; try lia. apply Forall_seq. intros; lia. }
        { apply (siov_more iov new (new + length ks + n)); [auto|rewrite repeat_length; lia|lia|]. intros j Hj. exfalso. eapply in_Some_repeat_None; eauto. }
        rewrite nouts_app. cbn [nouts]. change (@i_nout F DS (DCall id a n)) with n. rewrite C.
        split; [apply wf_insns_app; cbn [wf_insns]; rewrite C; split; auto|]. split; [lia|]. split; [replace (new + (length ks + (n + nouts DS is1))) with (new + length ks + n + nouts DS is1) by lia; auto|].
        intros i' o l' n' Hi' Ed. apply in_app_or in Hi'. destruct Hi' as [Hi'|[<-|Hi']].
        * rewrite Forall_forall in B. rewrite (B _ Hi') in Ed. discriminate.
        * injection Ed as <- <- <-. split; auto. exists (DCall id l n), l. split; [left; auto|]. split; auto. rewrite map_length in D. auto.
        * destruct (D1 i' o l' n' Hi' Ed) as [X [i0 [l0 [Y Z]]]]. split; auto. exists i0, l0. split; [right|]; auto.
      + destruct (sd_insns is (vm ++ [S new]) _ (S new)) as [is1 vm1] eqn:E1. injection H as <- <-. eapply Hone; eauto; auto.
  Qed.

  (* ------------------------------------------------------------ behaviour *)
  Section Exec.
    Variable E : Env F.
    Variable cs : list (nat * Circuit DI). Variable cs' : list (nat * Circuit DS).
    Definition diov (iov : list (option (DInsn F))) (vals : list F) : Prop :=
      forall i j, nth i iov None = Some j -> i < length vals /\ d_sem F E j (getv vals) [getv vals i].
    Definition qiov (iov : list (option (DInsn F))) : Prop := forall i j, nth i iov None = Some j -> quiet E j.
    Lemma sem_more (j : DInsn F) vals e outs : Forall (inb vals) (d_inputs F j) -> (d_sem F E j (getv (vals ++ e)) outs <-> d_sem F E j (getv vals) outs).
    Proof.
      intros H. rewrite Forall_forall in H. split; apply (l_sem_ext DI (DestL F false)); intros x Hx; [|symmetry]; apply getv_app_l; apply H; auto.
    Qed.
    Lemma exec_plain k ks vals vf b : d_call F k = None -> exec DS E cs' (k :: ks) vals vf b <->
      exists v, Forall (inb vals) (d_inputs F k) /\ d_sem F E k (getv vals) [v] /\ exec DS E cs' ks (vals ++ [v]) vf b.
    Proof.
      intros Hk. rewrite exec_cons. unfold step. change (@i_call F DS k) with (d_call F k). rewrite Hk. split.
      - intros [outs [b1 [b2 [[A [B ->]] [C ->]]]]]. pose proof (l_sem_len DS (DestL F true) _ _ _ _ B) as Hl. change (length outs = d_nout F k) in Hl. rewrite (d_nout1 _ Hk) in Hl.
        destruct outs as [|v [|]]; try discriminate. exists v. auto.
      - intros [v [A [B C]]]. exists [v], true, b. auto.
    Qed.
    Lemma sd_args_exec iov vals new0 : siov iov new0 -> diov iov vals -> length vals = S new0 ->
      forall l seen e0 ks a, sd_args iov seen l (new0 + length e0) = (ks, a) -> Forall (fun x => 0 < x <= new0) l ->
      (exists e, length e = length ks /\ exec DS E cs' ks (vals ++ e0) ((vals ++ e0) ++ e) true /\ map (getv ((vals ++ e0) ++ e)) a = map (getv vals) l) /\
      (qiov iov -> forall vf b, exec DS E cs' ks (vals ++ e0) vf b -> b = true /\ exists e, vf = (vals ++ e0) ++ e /\ length e = length ks /\ map (getv vf) a = map (getv vals) l).
    Proof.
      intros Hs Hd Hlv. induction l as [|i l IH]; intros seen e0 ks a H Hl; cbn [sd_args] in H.
      - injection H as <- <-. split.
        + exists []. rewrite app_nil_r. split; auto. split; [constructor|auto].
        + intros _ vf b Hx. apply exec_nil in Hx. destruct Hx as [-> ->]. split; auto. exists []. rewrite app_nil_r. auto.
      - inversion Hl as [|? ? Hi Hl2]; subst. destruct (memb i seen) eqn:Em.
        + destruct (sd_args iov seen l (S (new0 + length e0))) as [ks1 a1] eqn:E1. injection H as <- <-. fold (sd_copy iov i).
          destruct (sd_copy_static iov new0 i Hs Hi) as [S1 S2].
          assert (S2' : Forall (inb vals) (d_inputs F (sd_copy iov i))) by (eapply Forall_impl; [|exact S2]; unfold inb; cbn; intros; lia).
          assert (S3 : Forall (inb (vals ++ e0)) (d_inputs F (sd_copy iov i))) by (eapply Forall_impl; [|exact S2']; intros; apply inb_app; auto).
          assert (Hsem : d_sem F E (sd_copy iov i) (getv (vals ++ e0)) [getv vals i]).
          { apply sem_more; auto. unfold sd_copy. destruct (nth i iov None) as [j|] eqn:Ej; [apply (Hd i j Ej)|]. apply linear_sem. auto. }
          assert (E1' : sd_args iov seen l (new0 + length (e0 ++ [getv vals i])) = (ks1, a1)) by (rewrite app_length; cbn; rewrite <- E1; f_equal; lia).
          destruct (IH _ _ _ _ E1' Hl2) as [Hf Hb]. rewrite app_assoc in Hf, Hb.
          assert (Hg : forall e, getv (((vals ++ e0) ++ [getv vals i]) ++ e) (S (new0 + length e0)) = getv vals i).
          { intros e. rewrite getv_app_l by (rewrite !app_length; cbn; lia). rewrite getv_app_r by (rewrite app_length; lia). rewrite app_length. replace (S (new0 + length e0) - (length vals + length e0)) with 0 by lia. reflexivity. }
          split.
          * destruct Hf as [e [A [B C]]]. exists (getv vals i :: e). split; [cbn; auto|].
            replace ((vals ++ e0) ++ getv vals i :: e) with (((vals ++ e0) ++ [getv vals i]) ++ e) by (rewrite <- app_assoc; auto). split.
            -- apply exec_plain; auto. exists (getv vals i). auto.
            -- cbn [map]. rewrite Hg, C. auto.
          * intros Hq vf b Hx. apply exec_plain in Hx; auto. destruct Hx as [v [_ [A B]]].
            assert (Hqc : quiet E (sd_copy iov i)). { unfold sd_copy. destruct (nth i iov None) as [j|] eqn:Ej; [eapply Hq; eauto|apply quiet_linear]. }
            pose proof (quiet_det E _ _ _ _ Hqc A Hsem) as Hv. injection Hv as ->. destruct (Hb Hq _ _ B) as [-> [e [-> [C D]]]]. split; auto. exists (getv vals i :: e).
            split; [rewrite <- app_assoc; auto|]. split; [cbn; auto|]. cbn [map]. rewrite Hg, D. auto.
        + destruct (sd_args iov (i :: seen) l (new0 + length e0)) as [ks1 a1] eqn:E1. injection H as <- <-. destruct (IH _ _ _ _ E1 Hl2) as [Hf Hb].
          assert (Hg : forall e, getv ((vals ++ e0) ++ e) i = getv vals i) by (intros e; rewrite <- app_assoc; apply getv_app_l; lia).
          split.
          * destruct Hf as [e [A [B C]]]. exists e. split; auto. split; auto. cbn [map]. rewrite Hg, C. auto.
          * intros Hq vf b Hx. destruct (Hb Hq _ _ Hx) as [-> [e [-> [C D]]]]. split; auto. exists e. split; auto. split; auto. cbn [map]. rewrite Hg, D. auto.
    Qed.

    Lemma diov_more iov vals vals' e : siov iov (length vals - 1) -> 0 < length vals -> diov iov vals -> vals' = vals ++ e -> diov iov vals'.
    Proof.
      intros [_ Hs] Hl H -> i j Hj. destruct (H i j Hj) as [A B]. rewrite app_length. split; [lia|]. rewrite getv_app_l by auto. apply sem_more; auto.
      destruct (Hs i j Hj) as [_ C]. eapply Forall_impl; [|exact C]. unfold inb; cbn; intros; lia.
    Qed.
    Lemma diov_app iov vals x : diov iov vals -> (forall i j, nth i x None = Some j -> length iov + i < length vals /\ d_sem F E j (getv vals) [getv vals (length iov + i)]) -> diov (iov ++ x) vals.
    Proof.
      intros H Hx i j Hj. destruct (Nat.lt_ge_cases i (length iov)).
      - rewrite app_nth1 in Hj by auto. apply H; auto.
      - rewrite app_nth2 in Hj by auto. specialize (Hx _ _ Hj). replace (length iov + (i - length iov)) with i in Hx by lia. auto.
    Qed.
    Lemma qiov_app iov x : qiov iov -> (forall j, In (Some j) x -> quiet E j) -> qiov (iov ++ x).
    Proof.
      intros H Hx i j Hj. destruct (Nat.lt_ge_cases i (length iov)).
      - rewrite app_nth1 in Hj by auto. eapply H; eauto.
      - rewrite app_nth2 in Hj by auto. apply Hx. rewrite <- Hj. apply nth_In. destruct (Nat.lt_ge_cases (i - length iov) (length x)); auto. rewrite nth_overflow in Hj by auto. discriminate.
    Qed.

    Lemma sd_exec_fwd is : forall vm iov new vals vals' is' vm' vf b, sd_insns is vm iov new = (is', vm') -> rel vm vals vals' -> vpos vm new -> length vals' = S new -> vals <> [] ->
      siov iov new -> diov iov vals' -> wf_insns DI is (length vals - 1) -> Forall (call_wf DI cs) is ->
      (forall i o l n, In i is -> d_call F i = Some (o, l, n) -> fwd DI DS E cs cs' o) ->
      exec DI E cs is vals vf b -> exists e, exec DS E cs' is' vals' (vals' ++ e) b /\ rel vm' vf (vals' ++ e).
    Proof.
      induction is as [|i is IH]; intros vm iov new vals vals' is' vm' vf b H Hr Hv Hl Hne Hs Hd Hw Hcw Hc Hx; cbn [sd_insns] in H.
      - injection H as <- <-. apply exec_nil in Hx. destruct Hx as [-> ->]. exists []. rewrite app_nil_r. split; auto. constructor.
      - cbn [wf_insns] in Hw. destruct Hw as [Hi Hw]. inversion Hcw as [|? ? Hci Hcw2]; subst. change (@i_nout F DI i) with (d_nout F i) in Hw. change (@i_inputs F DI i) with (d_inputs F i) in Hi.
        assert (Hlen : 0 < length vals) by (destruct vals; [contradiction|cbn; lia]).
        assert (Hlv : length vm = length vals) by (apply (rel_len _ _ _ Hr)).
        assert (Hin : Forall (fun x => x < length vals) (d_inputs F i)) by (eapply Forall_impl; [|exact Hi]; cbn; intros; lia).
        assert (Hpos : Forall (fun y => 0 < y <= new) (map (vmap vm) (d_inputs F i))) by (apply vpos_map; auto; eapply Forall_impl; [|exact Hi]; cbn; intros; lia).
        apply exec_cons in Hx. destruct Hx as [outs [b1 [b2 [S1 [X1 ->]]]]]. pose proof (step_len DI (DestL F false) _ _ _ _ _ _ Hci S1) as Ho. change (length outs = d_nout F i) in Ho.
        assert (Hc' : forall i o l n, In i is -> d_call F i = Some (o, l, n) -> fwd DI DS E cs cs' o) by (intros; eapply Hc; eauto; right; auto).
        assert (Hw' : wf_insns DI is (length (vals ++ outs) - 1)) by (rewrite app_length, Ho; replace (length vals + d_nout F i - 1) with (length vals - 1 + d_nout F i) by lia; auto).
        assert (Hone : d_call F i = None -> forall is1 vm1, sd_insns is (vm ++ [S new]) (iov ++ [Some (d_replace F (vmap vm) i)]) (S new) = (is1, vm1) ->
          exists e, exec DS E cs' (d_replace F (vmap vm) i :: is1) vals' (vals' ++ e) (b1 && b2) /\ rel vm1 vf (vals' ++ e)).
        { intros Ec is1 vm1 H1. rewrite (d_nout1 _ Ec) in Ho. destruct outs as [|v [|]]; try discriminate.
          unfold step in S1. change (@i_call F DI i) with (d_call F i) in S1. rewrite Ec in S1. destruct S1 as [_ [S1 ->]]. change (d_sem F E i (getv vals) [v]) in S1.
          set (j := d_replace F (vmap vm) i) in *. assert (Cj : d_call F j = None) by (unfold j; destruct i; cbn in *; congruence).
          assert (Ej : d_inputs F j = map (vmap vm) (d_inputs F i)) by (apply (l_repl_inputs DI (DestL F false))).
          assert (Hinj : Forall (inb vals') (d_inputs F j)) by (rewrite Ej; eapply rel_inb_l; eauto).
          assert (Sj : d_sem F E j (getv vals') [v]).
          { apply (l_sem_repl DI (DestL F false)). eapply (l_sem_ext DI (DestL F false)); [|exact S1]. intros x Hx. symmetry. eapply rel_get; eauto. rewrite Forall_forall in Hin. apply Hin; auto. }
          destruct (IH _ _ _ (vals ++ [v]) (vals' ++ [v]) _ _ vf b2 H1) as [e [A B]]; auto.
          - apply (rel_seq vm vals vals' [v] new); auto.
          - eapply vpos_app; eauto; try lia. constructor; [lia|constructor].
          - rewrite app_length; cbn; lia.
          - destruct vals; discriminate.
          - apply (siov_more iov new (S new)); [auto|cbn [length]; lia|lia|]. intros j0 [Hj|[]]. injection Hj as <-. split; auto. rewrite Ej. eapply Forall_impl; [|exact Hpos]. cbn; intros; lia.
          - apply diov_app; [apply (diov_more iov vals' _ [v]); [replace (length vals' - 1) with new by lia; auto|lia|auto|reflexivity]|]. destruct Hs as [Hs _]. intros k j0 Hk. destruct k as [|[|k]]; try discriminate. injection Hk as <-.
            rewrite Hs, app_length, Hl, Nat.add_0_r. split; [cbn; lia|]. rewrite getv_app_r by lia. rewrite Hl, Nat.sub_diag. change (getv [v] 0) with v. apply sem_more; auto.
          - exists (v :: e). replace (vals' ++ v :: e) with ((vals' ++ [v]) ++ e) by (rewrite <- app_assoc; auto). split; auto. apply exec_plain; auto. exists v. auto. }
        destruct i as [e|id l n|c]; cbn [d_replace] in *.
        + destruct (sd_insns is (vm ++ [S new]) _ (S new)) as [is1 vm1] eqn:E1. injection H as <- <-. apply Hone; auto.
        + clear Hone. destruct (sd_args iov [] (map (vmap vm) l) new) as [ks a] eqn:Ea. destruct (sd_insns is _ _ (new + length ks + n)) as [is1 vm1] eqn:E1. injection H as <- <-.
          cbn [d_inputs d_nout] in *. destruct S1 as [_ S1]. destruct (Hci id l n eq_refl) as [cc [Hcc [Hll Hn]]].
          assert (Ea' : sd_args iov [] (map (vmap vm) l) (new + length (@nil F)) = (ks, a)) by (cbn; rewrite Nat.add_0_r; auto).
          destruct (sd_args_exec iov vals' new Hs Hd Hl _ _ _ _ _ Ea' Hpos) as [[e1 [L1 [X2 Ha]]] _]. rewrite app_nil_r in X2, Ha.
          destruct (sd_args_static iov new Hs _ _ _ _ _ Ea (le_n _) Hpos) as [_ [_ [_ [_ [E0 _]]]]].
          rewrite (rel_map vm vals vals') in Ha by auto.
          destruct (IH _ _ _ (vals ++ outs) ((vals' ++ e1) ++ outs) _ _ vf b2 E1) as [e [A B]]; auto.
          * rewrite <- Ho. apply rel_seq; [apply rel_more; auto|rewrite app_length; lia].
          * eapply vpos_app; eauto; try lia. apply Forall_seq. intros; lia.
          * rewrite !app_length. lia.
          * destruct vals; [contradiction|discriminate].
          * apply (siov_more iov new (new + length ks + n)); [auto|rewrite repeat_length; lia|lia|]. intros j Hj. exfalso. eapply in_Some_repeat_None; eauto.
          * apply diov_app; [apply (diov_more iov vals' _ (e1 ++ outs)); [replace (length vals' - 1) with new by lia; auto|lia|auto|rewrite <- app_assoc; auto]|]. intros k j Hk. exfalso. rewrite nth_repeat in Hk. discriminate.
          * exists ((e1 ++ outs) ++ e). rewrite !app_assoc. split; auto. apply exec_app. exists (vals' ++ e1), true, (b1 && b2). split; auto. split; auto. apply exec_cons. exists outs, b1, b2. split; [|auto].
            split; [eapply Forall_impl; [|exact E0]; unfold inb; rewrite app_length; cbn; intros; lia|]. rewrite Ha. apply (Hc (DCall id l n) id l n (or_introl eq_refl) eq_refl cc); [exact Hcc|rewrite map_length; auto|exact S1].
        + destruct (sd_insns is (vm ++ [S new]) _ (S new)) as [is1 vm1] eqn:E1. injection H as <- <-. apply Hone; auto.
    Qed.
    Lemma sd_exec_bwd is : forall vm iov new vals vals' is' vm' vf' b, sd_insns is vm iov new = (is', vm') -> rel vm vals vals' -> vpos vm new -> length vals' = S new -> vals <> [] ->
      siov iov new -> diov iov vals' -> qiov iov /\ calm E is \/ Forall (fun i => d_call F i = None) is -> wf_insns DI is (length vals - 1) -> Forall (call_wf DI cs) is ->
      (forall i o l n, In i is -> d_call F i = Some (o, l, n) -> bwd DI DS E cs cs' o) ->
      exec DS E cs' is' vals' vf' b -> exists vf, exec DI E cs is vals vf b /\ rel vm' vf vf'.
    Proof.
      induction is as [|i is IH]; intros vm iov new vals vals' is' vm' vf' b H Hr Hv Hl Hne Hs Hd Hqs Hw Hcw Hc Hx; cbn [sd_insns] in H.
      - injection H as <- <-. apply exec_nil in Hx. destruct Hx as [-> ->]. exists vals. split; auto. constructor.
      - cbn [wf_insns] in Hw. destruct Hw as [Hi Hw]. inversion Hcw as [|? ? Hci Hcw2]; subst. 
        assert (Hq : qiov iov /\ quiet E i /\ calm E is \/ Forall (fun i => d_call F i = None) (i :: is)) by (destruct Hqs as [[Q1 Q2]|Q]; [destruct (calm_cons _ _ _ Q2) as [[Q3 Q4]|Q3]|]; auto). clear Hqs. change (@i_nout F DI i) with (d_nout F i) in Hw. change (@i_inputs F DI i) with (d_inputs F i) in Hi.
        assert (Hlen : 0 < length vals) by (destruct vals; [contradiction|cbn; lia]).
        assert (Hlv : length vm = length vals) by (apply (rel_len _ _ _ Hr)).
        assert (Hin : Forall (fun x => x < length vals) (d_inputs F i)) by (eapply Forall_impl; [|exact Hi]; cbn; intros; lia).
        assert (Hpos : Forall (fun y => 0 < y <= new) (map (vmap vm) (d_inputs F i))) by (apply vpos_map; auto; eapply Forall_impl; [|exact Hi]; cbn; intros; lia).
        assert (Hc' : forall i o l n, In i is -> d_call F i = Some (o, l, n) -> bwd DI DS E cs cs' o) by (intros; eapply Hc; eauto; right; auto).
        assert (Hw' : forall outs, length outs = d_nout F i -> wf_insns DI is (length (vals ++ outs) - 1)) by (intros outs Ho; rewrite app_length, Ho; replace (length vals + d_nout F i - 1) with (length vals - 1 + d_nout F i) by lia; auto).
        assert (Hone : d_call F i = None -> forall is1 vm1, sd_insns is (vm ++ [S new]) (iov ++ [Some (d_replace F (vmap vm) i)]) (S new) = (is1, vm1) ->
          exec DS E cs' (d_replace F (vmap vm) i :: is1) vals' vf' b -> exists vf, exec DI E cs (i :: is) vals vf b /\ rel vm1 vf vf').
        { intros Ec is1 vm1 H1 Hx1. set (j := d_replace F (vmap vm) i) in *. assert (Cj : d_call F j = None) by (unfold j; destruct i; cbn in *; congruence).
          assert (Ej : d_inputs F j = map (vmap vm) (d_inputs F i)) by (apply (l_repl_inputs DI (DestL F false))).
          apply exec_plain in Hx1; auto. destruct Hx1 as [v [Hinj [Sj X1]]].
          assert (S1 : d_sem F E i (getv vals) [v]).
          { pose proof (proj1 (l_sem_repl DI (DestL F false) E (vmap vm) i (getv vals') [v]) Sj) as Sj'. eapply (l_sem_ext DI (DestL F false)); [|exact Sj']. intros x Hx1. cbn beta. eapply rel_get; eauto. rewrite Forall_forall in Hin. apply Hin; auto. }
          destruct (IH _ _ _ (vals ++ [v]) (vals' ++ [v]) _ _ vf' b H1) as [vf [A B]]; auto.
          - apply (rel_seq vm vals vals' [v] new); auto.
          - eapply vpos_app; eauto; try lia. constructor; [lia|constructor].
          - rewrite app_length; cbn; lia.
          - destruct vals; discriminate.
          - apply (siov_more iov new (S new)); [auto|cbn [length]; lia|lia|]. intros j0 [Hj|[]]. injection Hj as <-. split; auto. rewrite Ej. eapply Forall_impl; [|exact Hpos]. cbn; intros; lia.
          - apply diov_app; [apply (diov_more iov vals' _ [v]); [replace (length vals' - 1) with new by lia; auto|lia|auto|reflexivity]|]. destruct Hs as [Hs _]. intros k j0 Hk. destruct k as [|[|k]]; try discriminate. injection Hk as <-.
            rewrite Hs, app_length, Hl, Nat.add_0_r. split; [cbn; lia|]. rewrite getv_app_r by lia. rewrite Hl, Nat.sub_diag. change (getv [v] 0) with v. apply sem_more; auto.
          - destruct Hq as [[Q1 [Q2 Q3]]|Q]; [left|right; inversion Q; auto]. split; auto. apply qiov_app; auto. intros j0 [Hj|[]]. injection Hj as <-. apply quiet_replace; auto.
          - apply Hw'. rewrite (d_nout1 _ Ec). auto.
          - exists vf. split; auto. apply exec_cons. exists [v], true, b. split; [|auto]. unfold step. change (@i_call F DI i) with (d_call F i). rewrite Ec. split; auto. }
        destruct i as [e|id l n|c]; cbn [d_replace] in *.
        + destruct (sd_insns is (vm ++ [S new]) _ (S new)) as [is1 vm1] eqn:E1. injection H as <- <-. eapply Hone; eauto.
        + clear Hone. destruct Hq as [[Hq [_ Hqs]]|Hq]; [|inversion Hq; discriminate]. destruct (sd_args iov [] (map (vmap vm) l) new) as [ks a] eqn:Ea. destruct (sd_insns is _ _ (new + length ks + n)) as [is1 vm1] eqn:E1. injection H as <- <-.
          cbn [d_inputs d_nout] in *. destruct (Hci id l n eq_refl) as [cc [Hcc [Hll Hn]]].
          assert (Ea' : sd_args iov [] (map (vmap vm) l) (new + length (@nil F)) = (ks, a)) by (cbn; rewrite Nat.add_0_r; auto).
          apply exec_app in Hx. destruct Hx as [mid [b1 [b2 [X1 [X2 ->]]]]].
          destruct (sd_args_exec iov vals' new Hs Hd Hl _ _ _ _ _ Ea' Hpos) as [_ Hb]. rewrite app_nil_r in Hb. destruct (Hb Hq _ _ X1) as [-> [e1 [-> [L1 Ha]]]].
          rewrite (rel_map vm vals vals') in Ha by auto.
          apply exec_cons in X2. destruct X2 as [outs [c1 [c2 [S1 [X3 ->]]]]]. destruct S1 as [_ S1]. rewrite Ha in S1.
          assert (S2 : run DI E cs id (map (getv vals) l) outs c1) by (apply (Hc (DCall id l n) id l n (or_introl eq_refl) eq_refl cc); [exact Hcc|rewrite map_length; auto|exact S1]).
          assert (Ho : length outs = n) by (rewrite Hn; exact (run_len DI _ _ _ _ _ _ _ S2 Hcc)).
          destruct (IH _ _ _ (vals ++ outs) ((vals' ++ e1) ++ outs) _ _ vf' c2 E1) as [vf [A B]]; auto.
          * rewrite <- Ho. apply rel_seq; [apply rel_more; auto|rewrite app_length; lia].
          * eapply vpos_app; eauto; try lia. apply Forall_seq. intros; lia.
          * rewrite !app_length. lia.
          * destruct vals; [contradiction|discriminate].
          * apply (siov_more iov new (new + length ks + n)); [auto|rewrite repeat_length; lia|lia|]. intros j Hj. exfalso. eapply in_Some_repeat_None; eauto.
          * apply diov_app; [apply (diov_more iov vals' _ (e1 ++ outs)); [replace (length vals' - 1) with new by lia; auto|lia|auto|rewrite <- app_assoc; auto]|]. intros k j Hk. exfalso. rewrite nth_repeat in Hk. discriminate.
          * left. split; auto. apply qiov_app; auto. intros j Hj. exfalso. eapply in_Some_repeat_None; eauto.
          * exists vf. split; auto. apply exec_cons. exists outs, c1, c2. split; [|auto]. split; auto.
        + destruct (sd_insns is (vm ++ [S new]) _ (S new)) as [is1 vm1] eqn:E1. injection H as <- <-. eapply Hone; eauto.
    Qed.
  End Exec.

  Lemma nodupb_iff l : nodupb l = true <-> NoDup l.
  Proof.
    induction l as [|x l IH]; cbn [nodupb]; [split; [constructor|auto]|]. rewrite andb_true_iff, IH, negb_true_iff. split.
    - intros [A B]. constructor; auto. intros H. apply memb_spec in H. congruence.
    - intros H. inversion H as [|? ? A B]; subst. split; auto. destruct (memb x l) eqn:Em; auto. apply memb_spec in Em. contradiction.
  Qed.
  Lemma sd_vm_nodup is : forall vm iov new is' vm', sd_insns is vm iov new = (is', vm') -> NoDup vm -> Forall (fun y => y <= new) vm -> NoDup vm'.
  Proof.
    induction is as [|i is IH]; intros vm iov new is' vm' H Hn Hle; cbn [sd_insns] in H; [injection H as <- <-; auto|].
    assert (Happ : forall a n, new <= a -> NoDup (vm ++ seq (S a) n)).
    { intros a n Ha. apply NoDup_app_iff. split; auto. split; [apply seq_NoDup|]. intros x Hx Hx2. rewrite Forall_forall in Hle. specialize (Hle x Hx). apply in_seq in Hx2. lia. }
    assert (Hle' : forall a n, new <= a -> Forall (fun y => y <= a + n) (vm ++ seq (S a) n)).
    { intros a n Ha. apply Forall_app. split; [eapply Forall_impl; [|exact Hle]; cbn; intros; lia|]. apply Forall_forall. intros y Hy. apply in_seq in Hy. lia. }
    assert (Hone : forall j is1 vm1, sd_insns is (vm ++ [S new]) (iov ++ [Some j]) (S new) = (is1, vm1) -> NoDup vm1).
    { intros j is1 vm1 H1. eapply IH; [exact H1|apply (Happ new 1); auto|]. specialize (Hle' new 1 (le_n _)). cbn [seq] in Hle'. rewrite Nat.add_1_r in Hle'. auto. }
    destruct (d_replace F (vmap vm) i) as [e|id l n|c].
    - destruct (sd_insns is _ _ (S new)) as [is1 vm1] eqn:E1. injection H as <- <-. eauto.
    - destruct (sd_args iov [] l new) as [ks a]. destruct (sd_insns is _ _ (new + length ks + n)) as [is1 vm1] eqn:E1. injection H as <- <-.
      eapply IH; [exact E1|apply Happ; lia|apply Hle'; lia].
    - destruct (sd_insns is _ _ (S new)) as [is1 vm1] eqn:E1. injection H as <- <-. eauto.
  Qed.
  Lemma nodup_vmap vm l : NoDup vm -> Forall (fun x => x < length vm) l -> NoDup l -> NoDup (map (vmap vm) l).
  Proof.
    intros Hv Hl Hn. induction Hn as [|x l Hx Hn IH]; cbn; constructor.
    - intros Hin. apply in_map_iff in Hin. destruct Hin as [y [Hy Hin]]. inversion Hl as [|? ? Hlx Hl2]; subst. rewrite Forall_forall in Hl2. assert (y = x); [|congruence].
      apply (proj1 (NoDup_nth vm 0) Hv); auto.
    - apply IH. inversion Hl; auto.
  Qed.
  Lemma siov_init n : siov (repeat None (S n)) n.
  Proof. split; [apply repeat_length|]. intros i j H. rewrite nth_repeat in H. discriminate. Qed.
  Lemma forallb_nodup (f : nat -> bool) l : forallb f (nodup Nat.eq_dec l) = forallb f l.
  Proof.
    apply eq_true_iff_eq. rewrite !forallb_forall. split; intros H x Hx; apply H; [apply nodup_In; auto|apply nodup_In in Hx; auto].
  Qed.

  (* what Irc demands in addition to IrcRelaxed (dest/mod.rs:37-61) *)
  Definition strict (c : Circuit DS) : Prop :=
    NoDup (outputs c) /\ NoDup (constraints c : list nat) /\ forall i id l n, In i (instructions c) -> d_call F i = Some (id, l, n) -> NoDup l.

  Lemma sd_circuit_ok cs (c : Circuit DI) : wf_circuit DI c -> Forall (call_wf DI cs) (instructions c) -> NoDup (outputs c) ->
    exists c', sd_circuit c = Some c' /\ local_ok DI DS c c' /\ strict c'.
  Proof.
    intros Wc Wl Ho. unfold sd_circuit. destruct (sd_insns _ _ _ _) as [is' vm] eqn:E1. rewrite (proj2 (nodupb_iff _) Ho).
    destruct (sd_static cs _ _ _ _ _ _ _ E1 Wl (wf_is _ _ Wc) (seq_length _ _) (vpos_id _) (siov_init _)) as [A [B [C D]]].
    assert (Hvm : NoDup vm). { eapply sd_vm_nodup; eauto; [apply seq_NoDup|]. apply Forall_forall. intros y Hy. apply in_seq in Hy. lia. }
    eexists. split; [reflexivity|]. split.
    - split; [split; cbn [instructions num_inputs constraints outputs]|split; [auto|split; [cbn; apply map_length|]]].
      + auto.
      + apply Forall_forall. intros y Hy. apply nodup_In in Hy. assert (Hf : Forall (fun y => 0 < y <= num_inputs c + nouts DS is') (map (vmap vm) (constraints c : list nat))).
        { apply vpos_map; auto. eapply Forall_impl; [|apply (wf_con _ _ Wc)]. cbn; intros; lia. } rewrite Forall_forall in Hf. apply Hf; auto.
      + apply vpos_map; auto. eapply Forall_impl; [|apply (wf_out _ _ Wc)]. cbn; intros; lia.
      + intros i' o l' n Hi' Ed. cbn [instructions] in Hi'. destruct (D i' o l' n Hi' Ed) as [_ X]. exact X.
    - split; [|split]; cbn [outputs constraints instructions].
      + apply nodup_vmap; auto. eapply Forall_impl; [|apply (wf_out _ _ Wc)]. cbn; intros; lia.
      + apply NoDup_nodup.
      + intros i' o l' n Hi' Ed. apply (D i' o l' n Hi' Ed).
  Qed.
  Lemma sd_fwd E cs cs' id c c' : wf_circuits DI cs -> lookup id cs = Some c -> lookup id cs' = Some c' -> sd_circuit c = Some c' ->
    (forall o, In o (calls c) -> fwd DI DS E cs cs' o) -> fwd DI DS E cs cs' id.
  Proof.
    intros W Hc Hc' Hs Ho c1 ins outs b Hc1 Hl Hr. rewrite Hc in Hc1. injection Hc1 as <-. pose proof (wf_each _ _ W _ _ Hc) as Wc. pose proof (wf_calls _ _ W _ _ Hc) as Wl.
    unfold sd_circuit in Hs. destruct (sd_insns _ _ _ _) as [is' vm] eqn:E1. destruct (nodupb (outputs c)); [|discriminate]. injection Hs as <-.
    apply run_iff in Hr. destruct Hr as [c2 [vf [b0 [H1 [H2 [H3 [H4 [-> ->]]]]]]]]. rewrite Hc in H1. injection H1 as <-.
    destruct (sd_exec_fwd E cs cs' _ _ _ _ (f0 :: ins) (f0 :: ins) _ _ vf b0 E1) as [e [X R]]; auto.
    - apply rel_id'. cbn; auto.
    - apply vpos_id.
    - cbn; auto.
    - discriminate.
    - apply siov_init.
    - intros i j H. rewrite nth_repeat in H. discriminate.
    - cbn [length]. rewrite Nat.sub_succ, Nat.sub_0_r, Hl. apply Wc.
    - intros i o l n Hi Ed. apply Ho. eapply (in_calls DI); eauto.
    - pose proof (exec_len DI (DestL F false) _ _ _ _ _ _ Wl H2) as L1. cbn [length] in L1.
      assert (G : Forall (fun x => x < length vf) (outputs c)) by (eapply Forall_impl; [|apply (wf_out _ _ Wc)]; cbn; intros; lia).
      assert (G2 : Forall (fun x => x < length vf) (constraints c : list nat)) by (eapply Forall_impl; [|apply (wf_con _ _ Wc)]; cbn; intros; lia).
      apply run_iff. eexists _, _, b0. split; [exact Hc'|]. split; [exact X|]. cbn [constraints outputs].
      split. { apply Forall_forall. intros y Hy. apply nodup_In in Hy. pose proof (rel_inb_l _ _ _ _ R G2) as Hf. rewrite Forall_forall in Hf. apply Hf; auto. }
      split; [eapply rel_inb_l; eauto|]. split; [symmetry; apply rel_map; auto|]. f_equal. cbn [c_verify c_var DestI]. rewrite (forallb_nodup (fun k => is0 F (getv ((f0 :: ins) ++ e) k))).
      clear -R G2. induction (constraints c : list nat) as [|k l IH]; cbn [map forallb]; auto. inversion G2; subst. f_equal; [rewrite (rel_get _ _ _ _ R); auto|auto].
  Qed.
  Lemma sd_bwd E cs cs' id c c' : wf_circuits DI cs -> lookup id cs = Some c -> lookup id cs' = Some c' -> sd_circuit c = Some c' -> calm E (instructions c) ->
    (forall o, In o (calls c) -> bwd DI DS E cs cs' o) -> bwd DI DS E cs cs' id.
  Proof.
    intros W Hc Hc' Hs Hq Ho c1 ins outs b Hc1 Hl Hr. rewrite Hc in Hc1. injection Hc1 as <-. pose proof (wf_each _ _ W _ _ Hc) as Wc. pose proof (wf_calls _ _ W _ _ Hc) as Wl.
    unfold sd_circuit in Hs. destruct (sd_insns _ _ _ _) as [is' vm] eqn:E1. destruct (nodupb (outputs c)); [|discriminate]. injection Hs as <-.
    apply run_iff in Hr. destruct Hr as [c2 [vf' [b0 [H1 [H2 [H3 [H4 [-> ->]]]]]]]]. rewrite Hc' in H1. injection H1 as <-. cbn [instructions constraints outputs] in *.
    destruct (sd_exec_bwd E cs cs' _ _ _ _ (f0 :: ins) (f0 :: ins) _ _ vf' b0 E1) as [vf [X R]]; auto.
    - apply rel_id'. cbn; auto.
    - apply vpos_id.
    - cbn; auto.
    - discriminate.
    - apply siov_init.
    - intros i j H. rewrite nth_repeat in H. discriminate.
    - left. split; [|exact Hq]. intros i j H. rewrite nth_repeat in H. discriminate.
    - cbn [length]. rewrite Nat.sub_succ, Nat.sub_0_r, Hl. apply Wc.
    - intros i o l n Hi Ed. apply Ho. eapply (in_calls DI); eauto.
    - pose proof (exec_len DI (DestL F false) _ _ _ _ _ _ Wl X) as L1. cbn [length] in L1.
      assert (G : Forall (fun x => x < length vf) (outputs c)) by (eapply Forall_impl; [|apply (wf_out _ _ Wc)]; cbn; intros; lia).
      assert (G2 : Forall (fun x => x < length vf) (constraints c : list nat)) by (eapply Forall_impl; [|apply (wf_con _ _ Wc)]; cbn; intros; lia).
      apply run_iff. eexists _, _, b0. split; [exact Hc|]. split; [exact X|].
      split; auto. split; auto. split; [apply rel_map; auto|]. f_equal. cbn [c_verify c_var DestI]. rewrite (forallb_nodup (fun k => is0 F (getv vf' k))).
      clear -R G2. induction (constraints c : list nat) as [|k l IH]; cbn [map forallb]; auto. inversion G2; subst. f_equal; [rewrite (rel_get _ _ _ _ R); auto|auto].
  Qed.

  Theorem solve_duplicates_spec (rc : RootCircuit DI) : wf_root DI rc -> (forall id c, lookup id (circuits rc) = Some c -> NoDup (outputs c)) ->
    exists rc', solve_duplicates rc = Some rc' /\ wf_root DS rc' /\ num_public_inputs rc' = num_public_inputs rc /\
      expected_num_output_zeroes rc' = expected_num_output_zeroes rc /\
      (forall id c', lookup id (circuits rc') = Some c' -> strict c' /\ exists c, lookup id (circuits rc) = Some c /\ num_inputs c' = num_inputs c /\ length (outputs c') = length (outputs c)) /\
      (forall E ins outs b, root_run DI E rc ins outs b -> root_run DS E rc' ins outs b) /\
      (forall E, (forall id c, lookup id (circuits rc) = Some c -> calm E (instructions c)) ->
         forall ins outs b, root_run DS E rc' ins outs b -> root_run DI E rc ins outs b).
  Proof.
    intros W Ho. destruct (local_pass_spec DI DS sd_circuit rc W) as [rc' [A [B [C [D [K1 [K2 [Hf Hb]]]]]]]].
    { intros id c Hc. destruct (sd_circuit_ok (circuits rc) c) as [c' [X [Y _]]]; eauto; [apply (wr_cs _ _ W) in Hc; auto|]. eapply (wf_calls _ _ (wr_cs _ _ W)); eauto. }
    exists rc'. split; auto. split; auto. split; auto. split; auto. split; [|split].
    - intros id c' Hc'. destruct (K1 id c' Hc') as [c [Hc [X Y]]]. destruct (sd_circuit_ok (circuits rc) c) as [c2 [X2 [Y2 Z2]]]; eauto; [apply (wr_cs _ _ W) in Hc; auto|eapply (wf_calls _ _ (wr_cs _ _ W)); eauto|].
      rewrite X in X2. injection X2 as <-. split; auto. exists c. split; auto. split; apply Y2.
    - intros E. apply Hf. intros id c c' Hc Hc' Hs. eapply sd_fwd; eauto. apply W.
    - intros E Hq. apply Hb. intros id c c' Hc Hc' Hs. eapply sd_bwd; eauto. apply W.
  Qed.
End SD.
