(* What the schedule of a circuit promises (ctx_ok), the meaning of a circuit layer by layer (LS), and its equivalence with running the circuit. *)
From Verif Require Import Prelude Field Zp Sorting Expr Topo Ir IrInst InputMapping Layered IrFacts Sim Layering.
Open Scope nat_scope.

Section LaySem.
  Context {F : Fld}.
  Add Field LayF : (fth F).
  Notation DI := (DestI F true).
  Variable cross : bool.
  Variable cs : list (nat * Circuit DI).
  Variable ctxs : list (nat * Ctx (F := F)).

  (* the layer a variable is relayed from *)
  Definition prevl (X : Ctx (F := F)) (x i : nat) : nat :=
    if cross then match find (fun p => snd p =? i) (pairs (nth x (x_occ X) [])) with Some p => fst p | None => 0 end else i - 1.

  Record ctx_ok (id : nat) (X : Ctx (F := F)) : Prop := {
    ok_c : lookup id cs = Some (x_c X);
    ok_kinds : x_kinds X = kinds (x_c X);
    ok_calls : x_calls X = calls_of (x_c X);
    ok_sub : forall k l, nth_error (x_calls X) k = Some l -> cl_sub l <> 0 /\ exists Y, lookup (cl_sub l) ctxs = Some Y /\ getn (x_deps X) k = x_out Y;
    ok_out : 1 <= x_out X;
    ok_in : forall x, 1 <= x <= num_inputs (x_c X) -> getn (x_min X) x = 0;
    ok_expr : forall x e, nth_error (x_kinds X) x = Some (OExpr e) -> 1 <= getn (x_min X) x;
    ok_coef : forall x c, nth_error (x_kinds X) x = Some (OCoef c) -> 1 <= getn (x_min X) x;
    ok_osub : forall x k, nth_error (x_kinds X) x = Some (OSub k) -> getn (x_min X) x = end_of X k;
    ok_le : forall x, 1 <= x < x_nv X -> getn (x_min X) x <= x_out X;
    ok_occ : cross = true -> forall x, 1 <= x < x_nv X -> exists t, nth x (x_occ X) [] = getn (x_min X) x :: t /\ StronglySorted lt (getn (x_min X) x :: t);
    ok_max : cross = false -> forall x, 1 <= x < x_nv X -> getn (x_min X) x <= getn (x_max X) x;
    ok_outs : forall x, In x (outputs (x_c X)) -> in_layer cross X x (x_out X) = true;
    ok_use : forall x e v, nth_error (x_kinds X) x = Some (OExpr e) -> In v (e_vars F e) -> in_layer cross X v (getn (x_min X) x - 1) = true;
    ok_args : forall k l v, nth_error (x_calls X) k = Some l -> In v (cl_ins l) -> in_layer cross X v (start_of X k) = true;
    ok_end : forall k l, nth_error (x_calls X) k = Some l -> end_of X k <= x_out X;
    ok_used1 : forall i, 1 <= i <= x_out X -> getn (x_used X) i <= i - 1;
    ok_used2 : forall x a b, 1 <= x < x_nv X -> In (a, b) (pairs (nth x (x_occ X) [])) -> b <= x_out X -> getn (x_used X) b <= a;
    ok_used3 : forall k l Y j, nth_error (x_calls X) k = Some l -> lookup (cl_sub l) ctxs = Some Y -> 1 <= j <= x_out Y -> getn (x_used X) (j + start_of X k) <= getn (x_used Y) j + start_of X k;
    ok_lcs : length (x_lcs X) = S (x_out X);
    ok_lc : forall i C, nth_error (x_lcs X) i = Some C -> vars_at cross X i = Some (lc_vars C) /\
              lc_mid C = filter (fun k => (start_of X k <? i) && (i <? end_of X k)) (seq 0 (length (x_calls X)));
    ok_cc : forall i c, nth_error (x_cc X) i = Some (Some c) -> 1 <= i /\ x_nv X <= cc_id c /\ NoDup (cc_subs c) /\
              (forall k, In k (cc_subs c) -> k < length (x_calls X) /\ start_of X k < i) /\
              exists l ch, cc_vars c = l ++ ch /\ (forall v, In v l -> In v (constraints (x_c X)) /\ in_layer cross X v (i - 1) = true) /\
                (ch = [] \/ exists v, ch = [v] /\ x_nv X <= v) /\ (ch <> [] <-> id = 0 /\ cc_at (x_cc X) (i - 1) = true);
    ok_cc_chain : forall i c v, nth_error (x_cc X) i = Some (Some c) -> In v (cc_vars c) -> x_nv X <= v -> exists c', nth_error (x_cc X) (i - 1) = Some (Some c') /\ cc_id c' = v;
    ok_cc_con : forall x, In x (constraints (x_c X)) -> exists i c, i <= x_out X /\ nth_error (x_cc X) i = Some (Some c) /\ In x (cc_vars c);
    ok_cc_sub : forall k l Y j, nth_error (x_calls X) k = Some l -> lookup (cl_sub l) ctxs = Some Y -> cc_at (x_cc Y) j = true ->
                exists c, j + start_of X k + 1 <= x_out X /\ nth_error (x_cc X) (j + start_of X k + 1) = Some (Some c) /\ In k (cc_subs c);
    ok_cc_root : id = 0 -> forall i, cc_at (x_cc X) i = true -> i <= x_out X /\ (i < x_out X -> cc_at (x_cc X) (S i) = true);
    ok_cc_inner : id <> 0 -> forall i, cc_at (x_cc X) i = true -> i < x_out X
  }.

  (* ------------------------------------------------------------ layer by layer *)
  Variable E : Env F.
  (* w: the combined constraint of a layer *)
  Definition con_val (X : Ctx (F := F)) (W : nat -> nat -> F) (w : nat -> F) (i v : nat) (a : F) : Prop :=
    if x_nv X <=? v then a = w (i - 1) else exists r, e_rnd E r /\ a = fmul (W (i - 1) v) r.
  Definition var_sem (X : Ctx (F := F)) (W : nat -> nat -> F) (i x : nat) : Prop :=
    if getn (x_min X) x =? i then
      match nth_error (x_kinds X) x with
      | Some (OCoef c) => coef_sem E c (W i x)
      | Some (OExpr e) => expr_sem F E (W (i - 1)) e (W i x)
      | _ => True
      end
    else W i x = W (prevl X x i) x.
  Fixpoint LS (n : nat) (id : nat) (ins outs : list F) (w : nat -> F) : Prop :=
    match n with
    | 0 => False
    | S n => exists (X : Ctx (F := F)) (W : nat -> nat -> F) (co : nat -> list F) (cw : nat -> nat -> F),
        lookup id ctxs = Some X /\ length ins = num_inputs (x_c X) /\ (forall t v, nth_error ins t = Some v -> W 0 (S t) = v) /\
        outs = map (W (x_out X)) (outputs (x_c X)) /\
        (forall k l, nth_error (x_calls X) k = Some l ->
           LS n (cl_sub l) (map (W (start_of X k)) (cl_ins l)) (co k) (cw k) /\ map (W (end_of X k)) (cl_outs l) = co k) /\
        (forall i x, 1 <= i <= x_out X -> 1 <= x < x_nv X -> in_layer cross X x i = true -> var_sem X W i x) /\
        (forall i, cc_at (x_cc X) i = false -> w i = f0) /\
        (forall i c, i <= x_out X -> nth_error (x_cc X) i = Some (Some c) -> exists vs,
           Forall2 (con_val X W w i) (cc_vars c) vs /\ w i = fadd (fsum F vs) (fsum F (map (fun k => cw k (i - 1 - start_of X k)) (cc_subs c))))
    end.
  (* nesting *)
  Fixpoint deep (n : nat) (id : nat) : Prop :=
    match n with
    | 0 => False
    | S n => exists X : Ctx (F := F), lookup id ctxs = Some X /\ forall k l, nth_error (x_calls X) k = Some l -> deep n (cl_sub l)
    end.

  (* ------------------------------------------------------------ running, as equations *)
  Lemma kinds_from_len (is : list (DInsn F)) : forall k, length (kinds_from is k) = nouts DI is.
  Proof. induction is as [|[e|id l n|c] is IH]; intros k; cbn [kinds_from nouts]; auto; cbn [length]; [rewrite IH; auto|rewrite app_length, repeat_length, IH; auto|rewrite IH; auto]. Qed.
  Definition kind_sem (v : nat -> F) (x : nat) (k : VK (F := F)) : Prop :=
    match k with OCoef c => coef_sem E c (v x) | OExpr e => expr_sem F E v e (v x) | _ => True end.
  Lemma map_seq_app {A} (f : nat -> A) a n : map f (seq 0 a) ++ map f (seq a n) = map f (seq 0 (a + n)).
  Proof. rewrite seq_app, map_app. auto. Qed.
  Lemma getv_map (v : nat -> F) n x : x < n -> getv (map v (seq 0 n)) x = v x.
  Proof. intros H. unfold getv. rewrite nth_indep with (d' := v 0) by (rewrite map_length, seq_length; auto). rewrite map_nth, seq_nth; auto. Qed.
  Lemma exec_eqs (v : nat -> F) (is : list (DInsn F)) : forall cur k b, Forall (call_wf DI cs) is -> wf_insns DI is (cur - 1) -> 1 <= cur ->
    (exec DI E cs is (map v (seq 0 cur)) (map v (seq 0 (cur + nouts DI is))) b <->
     (forall j kd, nth_error (kinds_from is k) j = Some kd -> kind_sem v (cur + j) kd) /\
     exists bs, Forall2 (fun l b => run DI E cs (cl_sub l) (map v (cl_ins l)) (map v (cl_outs l)) b) (calls_from is cur) bs /\ b = forallb (fun b => b) bs).
  Proof.
    induction is as [|i is IH]; intros cur k b Hc Hw Hcur.
    - cbn [nouts kinds_from calls_from]. rewrite Nat.add_0_r, exec_nil. split.
      + intros [_ ->]. split; [intros j kd H; destruct j; discriminate|]. exists []. split; [constructor|auto].
      + intros [_ [bs [H ->]]]. inversion H; subst. auto.
    - inversion Hc as [|? ? Hi Hc']; subst. destruct Hw as [Hin Hw].
      assert (Hb : Forall (inb (map v (seq 0 cur))) (i_inputs (i := DI) i)).
      { eapply Forall_impl; [|exact Hin]. cbn. intros x Hx. unfold inb. rewrite map_length, seq_length. lia. }
      assert (Hg : forall x, In x (i_inputs (i := DI) i) -> getv (map v (seq 0 cur)) x = v x).
      { intros x Hx. rewrite Forall_forall in Hin. apply Hin in Hx. apply getv_map. lia. }
      assert (Hout : forall n outs, i_nout (i := DI) i = n -> length outs = n ->
        (exists b', exec DI E cs is (map v (seq 0 cur) ++ outs) (map v (seq 0 (cur + nouts DI (i :: is)))) b') -> outs = map v (seq cur n)).
      { intros n outs Hn Hl [b' Hx]. destruct (exec_prefix DI E cs is _ _ _ Hx) as [ext Hext].
        cbn [nouts] in Hext. rewrite Hn in Hext. rewrite seq_app, seq_app, !map_app, <- app_assoc in Hext. apply app_inv_head in Hext. cbn [Nat.add] in Hext.
        assert (Hq : length outs = length (map v (seq cur n))) by (rewrite map_length, seq_length; auto).
        clear -Hext Hq. revert Hext Hq. generalize (map v (seq cur n)). revert ext. generalize (map v (seq (cur + n) (nouts DI is))).
        induction outs as [|x outs IHo]; intros tl ext [|y l] H Hq; cbn in *; try discriminate; auto. injection H as -> H. f_equal. eapply IHo; eauto. }
      assert (Hleaf : forall kd, i_call (i := DI) i = None -> i_nout (i := DI) i = 1 -> kinds_from (i :: is) k = kd :: kinds_from is k -> calls_from (i :: is) cur = calls_from is (S cur) ->
        (forall v', (forall x, In x (i_inputs (i := DI) i) -> v' x = v x) -> (kind_sem v cur kd <-> i_sem (i := DI) E i v' [v cur])) ->
        (exec DI E cs (i :: is) (map v (seq 0 cur)) (map v (seq 0 (cur + nouts DI (i :: is)))) b <->
         (forall j kd, nth_error (kinds_from (i :: is) k) j = Some kd -> kind_sem v (cur + j) kd) /\
         exists bs, Forall2 (fun l b => run DI E cs (cl_sub l) (map v (cl_ins l)) (map v (cl_outs l)) b) (calls_from (i :: is) cur) bs /\ b = forallb (fun b => b) bs)).
      { intros kd Hnc Hn Hk Hcl Hsem. rewrite Hk, Hcl, exec_cons. specialize (IH (S cur) k b Hc').
        assert (Hw' : wf_insns DI is (S cur - 1)) by (rewrite Hn in Hw; replace (S cur - 1) with (cur - 1 + 1) by lia; auto). specialize (IH Hw' ltac:(lia)).
        assert (Hq : cur + nouts DI (i :: is) = S cur + nouts DI is) by (cbn [nouts]; rewrite Hn; lia).
        assert (Hap : map v (seq 0 cur) ++ [v cur] = map v (seq 0 (S cur))) by (rewrite seq_S, map_app; auto).
        unfold step. rewrite Hnc. split.
        - intros [outs [b1 [b2 [[_ [Hs ->]] [Hx ->]]]]]. assert (outs = [v cur]).
          { apply (Hout 1 outs Hn); [rewrite (l_sem_len _ (DestL F true) _ _ _ _ Hs); auto|eauto]. }
          subst outs. rewrite Hap, Hq in Hx. cbn [andb]. apply IH in Hx. destruct Hx as [X1 X2]. split; auto.
          intros [|j] kd' Hj; cbn in Hj.
          + injection Hj as <-. rewrite Nat.add_0_r. apply (Hsem _ Hg). auto.
          + replace (cur + S j) with (S cur + j) by lia. auto.
        - intros [X1 X2]. exists [v cur], true, b. split; [split; auto; split; auto|].
          + apply (Hsem _ Hg). specialize (X1 0 kd eq_refl). rewrite Nat.add_0_r in X1. auto.
          + split; auto. rewrite Hap, Hq. apply IH. split; auto. intros j kd' Hj. replace (S cur + j) with (cur + S j) by lia. apply X1. auto. }
      destruct i as [e|id l n|c].
      + apply (Hleaf (OExpr e)); auto. intros v' Hv'. cbn [kind_sem]. change (i_sem (i := DI) E (DVar e) v' [v cur]) with (exists w, [v cur] = [w] /\ expr_sem F E v' e w). split.
        * intros H. exists (v cur). split; auto. eapply expr_sem_ext; [|exact H]. intros x Hx. symmetry. apply Hv'. auto.
        * intros [w [H1 H2]]. injection H1 as ->. eapply expr_sem_ext; [|exact H2]. auto.
      + clear Hleaf. rewrite exec_cons. change (kinds_from (DCall id l n :: is) k) with (repeat (OSub (F := F) k) n ++ kinds_from is (S k)).
        change (calls_from (DCall id l n :: is) cur) with ({| cl_sub := id; cl_ins := l; cl_outs := seq cur n |} :: calls_from is (cur + n)).
        change (wf_insns DI is (cur - 1 + n)) in Hw. specialize (IH (cur + n) (S k)). replace (cur - 1 + n) with (cur + n - 1) in Hw by lia.
        assert (Hap : map v (seq 0 cur) ++ map v (seq cur n) = map v (seq 0 (cur + n))) by apply map_seq_app.
        assert (Hq : cur + nouts DI (DCall id l n :: is) = cur + n + nouts DI is) by (change (nouts DI (DCall id l n :: is)) with (n + nouts DI is); lia).
        unfold step. change (i_call (i := DI) (DCall id l n)) with (Some (id, l, n)). cbv beta iota.
        assert (Hm : map (getv (map v (seq 0 cur))) l = map v l) by (apply map_ext_in; auto).
        split.
        * intros [outs [b1 [b2 [[_ Hr] [Hx ->]]]]]. rewrite Hm in Hr. assert (outs = map v (seq cur n)).
          { apply (Hout n outs eq_refl); eauto. destruct (Hi id l n eq_refl) as [c [Hl [_ ->]]]. apply run_iff in Hr. destruct Hr as [c' [vals [b0 [Hl' [_ [_ [_ [-> _]]]]]]]].
            rewrite Hl in Hl'. injection Hl' as <-. apply map_length. }
          subst outs. rewrite Hap, Hq in Hx. apply (IH b2 Hc' Hw ltac:(lia)) in Hx. destruct Hx as [X1 [bs [X2 ->]]]. split.
          -- intros j kd Hj. destruct (Nat.lt_ge_cases j n) as [Hlt|Hge].
             ++ rewrite nth_error_app1 in Hj by (rewrite repeat_length; auto). apply nth_error_In in Hj. apply repeat_spec in Hj. subst kd. exact I.
             ++ rewrite nth_error_app2 in Hj by (rewrite repeat_length; auto). rewrite repeat_length in Hj. replace (cur + j) with (cur + n + (j - n)) by lia. auto.
          -- exists (b1 :: bs). split; auto.
        * intros [X1 [bs0 [X2 ->]]]. inversion X2 as [|? b1 ? bs Hr X2']; subst. cbn [cl_sub cl_ins cl_outs] in Hr. exists (map v (seq cur n)), b1, (forallb (fun b => b) bs).
          split; [split; auto; rewrite Hm; auto|]. split; auto. rewrite Hap, Hq. apply (IH _ Hc' Hw ltac:(lia)). split; eauto.
          intros j kd Hj. replace (cur + n + j) with (cur + (n + j)) by lia. apply X1. rewrite nth_error_app2 by (rewrite repeat_length; lia). rewrite repeat_length. replace (n + j - n) with j by lia. auto.
      + apply (Hleaf (OCoef c)); auto. intros v' _. cbn [kind_sem]. change (i_sem (i := DI) E (DConst c) v' [v cur]) with (exists w, [v cur] = [w] /\ coef_sem E c w). split.
        * intros H. eauto.
        * intros [w [H1 H2]]. injection H1 as ->. auto.
  Qed.
  Lemma map_nth_seq (l : list F) : map (getv l) (seq 0 (length l)) = l.
  Proof.
    apply list_eq_nth_error. intros i. destruct (Nat.lt_ge_cases i (length l)) as [H|H].
    - rewrite nth_error_map, nth_error_seq by auto. cbn. unfold getv. symmetry. apply nth_error_nth'. auto.
    - rewrite (proj2 (nth_error_None l i) H). apply nth_error_None. rewrite map_length, seq_length. auto.
  Qed.
  Hypothesis Hwf : wf_circuits DI cs.

  Lemma run_eqs id (c : Circuit DI) (ins outs : list F) b : lookup id cs = Some c -> length ins = num_inputs c ->
    (run DI E cs id ins outs b <->
     exists v : nat -> F, v 0 = f0 /\ (forall t x, nth_error ins t = Some x -> v (S t) = x) /\
       (forall x kd, nth_error (kinds c) x = Some kd -> kind_sem v x kd) /\ outs = map v (outputs c) /\
       exists bs, Forall2 (fun l b => run DI E cs (cl_sub l) (map v (cl_ins l)) (map v (cl_outs l)) b) (calls_of c) bs /\
         b = forallb (fun b => b) bs && forallb (fun x => is0 F (v x)) (constraints c)).
  Proof.
    intros Hl Hn. pose proof (wf_each _ _ Hwf _ _ Hl) as [W1 W2 W3]. pose proof (wf_calls _ _ Hwf _ _ Hl) as Wc.
    assert (Hk : forall v : nat -> F, (forall x kd, nth_error (kinds c) x = Some kd -> kind_sem v x kd) <->
      (forall j kd, nth_error (kinds_from (instructions c) 0) j = Some kd -> kind_sem v (S (num_inputs c) + j) kd)).
    { intros v. unfold kinds. split; intros H.
      - intros j kd Hj. apply H. rewrite nth_error_app2 by (rewrite repeat_length; lia). rewrite repeat_length. replace (S (num_inputs c) + j - S (num_inputs c)) with j by lia. auto.
      - intros x kd Hx. destruct (Nat.lt_ge_cases x (S (num_inputs c))) as [Hlt|Hge].
        + rewrite nth_error_app1 in Hx by (rewrite repeat_length; auto). apply nth_error_In, repeat_spec in Hx. subst. exact I.
        + rewrite nth_error_app2 in Hx by (rewrite repeat_length; auto). rewrite repeat_length in Hx. replace x with (S (num_inputs c) + (x - S (num_inputs c))) by lia. auto. }
    pose proof (exec_eqs) as HE. rewrite run_iff. split.
    - intros [c' [vals [b0 [Hl' [Hx [_ [_ [-> ->]]]]]]]]. rewrite Hl in Hl'. injection Hl' as <-.
      pose proof (exec_len DI (DestL F true) _ _ _ _ _ _ Wc Hx) as Hlen. cbn [length] in Hlen. rewrite Hn in Hlen.
      destruct (exec_prefix DI _ _ _ _ _ _ Hx) as [ext Hext].
      assert (Hin : f0 :: ins = map (getv vals) (seq 0 (S (num_inputs c)))).
      { rewrite <- Hn. rewrite Hext. transitivity (map (getv (f0 :: ins)) (seq 0 (length (f0 :: ins)))); [symmetry; apply map_nth_seq|]. cbn [length].
        apply map_ext_in. intros x Hx'. apply in_seq in Hx'. symmetry. apply getv_app_l. cbn [length]. lia. }
      exists (getv vals). split; [rewrite Hext; auto|]. split; [|split; [|split; auto]].
      + intros t x Ht. rewrite Hext. unfold getv. cbn. rewrite app_nth1 by (eapply nth_error_Some_lt; eauto). apply nth_error_nth. auto.
      + apply Hk. rewrite <- (map_nth_seq vals), Hin, Hlen in Hx. apply (HE (getv vals)) with (k := 0) in Hx; auto; [|replace (S (num_inputs c) - 1) with (num_inputs c) by lia; auto|lia]. destruct Hx as [Hx _]. auto.
      + rewrite <- (map_nth_seq vals), Hin, Hlen in Hx. apply (HE (getv vals)) with (k := 0) in Hx; auto; [|replace (S (num_inputs c) - 1) with (num_inputs c) by lia; auto|lia]. destruct Hx as [_ [bs [Hx ->]]].
        exists bs. split; auto.
    - intros [v [H0 [Hin [Hks [-> [bs [Hc ->]]]]]]].
      assert (Hi0 : f0 :: ins = map v (seq 0 (S (num_inputs c)))).
      { cbn [seq map]. rewrite H0. f_equal. rewrite <- Hn. apply list_eq_nth_error. intros t. rewrite nth_error_map. destruct (nth_error ins t) as [x|] eqn:Et.
        - rewrite nth_error_seq by (eapply nth_error_Some_lt; eauto). cbn. f_equal. symmetry. auto.
        - replace (nth_error (seq 1 (length ins)) t) with (@None nat); auto. symmetry. apply nth_error_None. rewrite seq_length. apply nth_error_None. auto. }
      assert (Hg : forall x, 0 < x <= num_inputs c + nouts DI (instructions c) -> getv (map v (seq 0 (S (num_inputs c) + nouts DI (instructions c)))) x = v x) by (intros x Hx; apply getv_map; lia).
      exists c, (map v (seq 0 (S (num_inputs c) + nouts DI (instructions c)))), (forallb (fun b => b) bs). split; auto. split; [|split; [|split; [|split]]].
      + rewrite Hi0. apply HE with (k := 0); auto; [replace (S (num_inputs c) - 1) with (num_inputs c) by lia; auto|lia|]. split; [apply Hk; auto|]. exists bs. split; auto.
      + eapply Forall_impl; [|exact W2]. intros x Hx. unfold inb. rewrite map_length, seq_length. cbn in Hx |- *. lia.
      + eapply Forall_impl; [|exact W3]. intros x Hx. unfold inb. rewrite map_length, seq_length. cbn in Hx |- *. lia.
      + apply map_ext_in. intros x Hx. rewrite Forall_forall in W3. symmetry. apply Hg. auto.
      + f_equal. assert (Hfe : forall l, Forall (fun k => 0 < k <= num_inputs c + nouts DI (instructions c)) l -> forallb (fun x => is0 F (v x)) l = forallb (fun k => is0 F (getv (map v (seq 0 (S (num_inputs c) + nouts DI (instructions c)))) k)) l).
        { intros l. induction 1 as [|x l Hx _ IH]; auto. cbn [forallb]. rewrite Hg, IH by auto. auto. }
        apply Hfe. exact W2.
  Qed.

  (* ------------------------------------------------------------ consequences of the schedule *)
  Hypothesis Hok : forall id X, lookup id ctxs = Some X -> ctx_ok id X.
  Lemma nv_eq id X : ctx_ok id X -> x_nv X = S (num_inputs (x_c X)) + nouts DI (instructions (x_c X)).
  Proof. intros H. unfold x_nv. rewrite (ok_kinds _ _ H). unfold kinds. rewrite app_length, repeat_length, kinds_from_len. auto. Qed.
  Lemma find_pairs : forall l a i, StronglySorted lt (a :: l) -> In i l ->
    exists p, find (fun p => snd p =? i) (pairs (a :: l)) = Some (p, i) /\ In p (a :: l) /\ p < i /\ In (p, i) (pairs (a :: l)).
  Proof.
    induction l as [|b l IH]; intros a i Hs Hi; [destruct Hi|]. inversion Hs as [|? ? Hs' Hf]; subst. cbn [pairs find snd].
    change (pairs (a :: b :: l)) with ((a, b) :: pairs (b :: l)). cbn [find snd]. destruct (Nat.eqb_spec b i) as [->|Hne].
    - exists a. split; auto. inversion Hf; subst. split; [left; auto|]. split; auto. left; auto.
    - destruct Hi as [->|Hi]; [congruence|]. destruct (IH b i Hs' Hi) as [p [H1 [H2 [H3 H4]]]]. exists p. split; auto. split; [right; auto|]. split; auto. right; auto.
  Qed.
  Lemma sorted_ge a l i : StronglySorted lt (a :: l) -> In i (a :: l) -> a <= i.
  Proof. intros H [->|Hi]; auto. inversion H as [|? ? _ Hf]; subst. rewrite Forall_forall in Hf. apply Hf in Hi. lia. Qed.
  Lemma layer_min id X x : ctx_ok id X -> 1 <= x < x_nv X -> in_layer cross X x (getn (x_min X) x) = true.
  Proof.
    intros H Hx. unfold in_layer. destruct cross eqn:Ec.
    - destruct (ok_occ _ _ H Ec x Hx) as [t [-> _]]. apply memb_spec. left; auto.
    - rewrite Nat.leb_refl. apply Nat.leb_le. apply (ok_max _ _ H Ec x Hx).
  Qed.
  Lemma layer_ge id X x i : ctx_ok id X -> 1 <= x < x_nv X -> in_layer cross X x i = true -> getn (x_min X) x <= i.
  Proof.
    intros H Hx. unfold in_layer. destruct cross eqn:Ec.
    - destruct (ok_occ _ _ H Ec x Hx) as [t [-> Hs]]. intros Hi. apply memb_spec in Hi. eapply sorted_ge; eauto.
    - intros Hi. apply andb_true_iff in Hi. destruct Hi as [Hi _]. apply Nat.leb_le; auto.
  Qed.
  Lemma layer_prev id X x i : ctx_ok id X -> 1 <= x < x_nv X -> in_layer cross X x i = true -> getn (x_min X) x <> i ->
    getn (x_min X) x <= prevl X x i < i /\ in_layer cross X x (prevl X x i) = true.
  Proof.
    intros H Hx Hi Hne. pose proof (layer_ge _ _ _ _ H Hx Hi) as Hge. unfold in_layer, prevl in *. destruct cross eqn:Ec.
    - destruct (ok_occ _ _ H Ec x Hx) as [t [Ho Hs]]. rewrite Ho in *. apply memb_spec in Hi. destruct Hi as [Hi|Hi]; [congruence|].
      destruct (find_pairs _ _ _ Hs Hi) as [p [-> [H2 [H3 _]]]]. cbn [fst]. split; [split; auto; eapply sorted_ge; eauto|]. apply memb_spec; auto.
    - apply andb_true_iff in Hi. destruct Hi as [Hi1 Hi2]. apply Nat.leb_le in Hi2. split; [lia|]. apply andb_true_iff. split; apply Nat.leb_le; lia.
  Qed.
  Lemma cc_at_iff {A} (cc : list (option A)) i : cc_at cc i = true <-> exists c, nth_error cc i = Some (Some c).
  Proof. unfold cc_at. destruct (nth_error cc i) as [[c|]|]; split; try discriminate; eauto; intros [c' H]; discriminate. Qed.
  Lemma cc_le id X i : ctx_ok id X -> cc_at (x_cc X) i = true -> i <= x_out X.
  Proof. intros H Hi. destruct (Nat.eq_dec id 0) as [Hz|Hz]; [apply (ok_cc_root _ _ H Hz _ Hi)|]. pose proof (ok_cc_inner _ _ H Hz _ Hi). lia. Qed.
  Lemma kind_var id X x : ctx_ok id X -> 1 <= x < x_nv X -> exists kd, nth_error (x_kinds X) x = Some kd /\ (kd = OIn -> x <= num_inputs (x_c X)).
  Proof.
    intros H Hx. destruct (nth_error_Some_ex (x_kinds X) x) as [kd Hk]; [unfold x_nv in Hx; lia|]. exists kd. split; auto. intros ->.
    rewrite (ok_kinds _ _ H) in Hk. unfold kinds in Hk. destruct (Nat.le_gt_cases x (num_inputs (x_c X))) as [Hle|Hgt]; auto. exfalso.
    rewrite nth_error_app2 in Hk by (rewrite repeat_length; lia). apply nth_error_In in Hk. clear -Hk. revert Hk. generalize 0.
    induction (instructions (x_c X)) as [|[e|id' l n|c] is IH]; intros k Hk; cbn [kinds_from] in Hk; [destruct Hk| | |].
    - destruct Hk as [Hk|Hk]; [discriminate|eauto].
    - apply in_app_iff in Hk. destruct Hk as [Hk|Hk]; [apply repeat_spec in Hk; discriminate|eauto].
    - destruct Hk as [Hk|Hk]; [discriminate|eauto].
  Qed.
  Lemma fsum_zero (l : list F) : Forall (fun x => x = f0) l -> fsum F l = f0.
  Proof. induction 1 as [|x l -> _ IH]; auto. change (fsum F (f0 :: l)) with (fadd f0 (fsum F l)). rewrite IH. ring. Qed.
  Lemma F2_choice {A B} (P : A -> B -> Prop) (l : list A) : (forall k x, nth_error l k = Some x -> exists y, P x y) -> exists r, Forall2 P l r.
  Proof.
    induction l as [|x l IH]; intros H; [exists []; constructor|]. destruct (H 0 x eq_refl) as [y Hy]. destruct IH as [r Hr]; [intros k z Hz; apply (H (S k) z Hz)|].
    exists (y :: r). constructor; auto.
  Qed.
  Lemma F2_choice_k {A B} (P : nat -> A -> B -> Prop) (l : list A) : (forall k x, nth_error l k = Some x -> exists y, P k x y) ->
    exists r, length r = length l /\ forall k x y, nth_error l k = Some x -> nth_error r k = Some y -> P k x y.
  Proof.
    revert P. induction l as [|x l IH]; intros P H.
    - exists []. split; auto. intros [|k] ? ? Hk; discriminate.
    - destruct (H 0 x eq_refl) as [y Hy]. destruct (IH (fun k => P (S k))) as [r [Hr1 Hr2]]; [intros k z Hz; apply (H (S k) z Hz)|].
      exists (y :: r). split; [cbn; auto|]. intros [|k] a b Ha Hb; cbn in *; [congruence|eauto].
  Qed.

  Lemma F2_of_nth {A B} (P : A -> B -> Prop) (l : list A) : forall r : list B, length l = length r -> (forall k x y, nth_error l k = Some x -> nth_error r k = Some y -> P x y) -> Forall2 P l r.
  Proof.
    induction l as [|x l IH]; intros [|y r] Hl H; try discriminate; constructor; [apply (H 0); auto|]. apply IH; [cbn in Hl; lia|]. intros k a b Ha Hb. apply (H (S k)); auto.
  Qed.
  (* ------------------------------------------------------------ kinds and calls *)
  Lemma call_struct (is : list (DInsn F)) : forall cur k0 k l, nth_error (calls_from is cur) k = Some l ->
    exists a n, cl_outs l = seq (cur + a) n /\ (forall t, t < n -> nth_error (kinds_from is k0) (a + t) = Some (OSub (k0 + k))) /\ a + n <= nouts DI is /\
      (1 <= cur -> wf_insns DI is (cur - 1) -> forall x, In x (cl_ins l) -> 1 <= x < cur + a).
  Proof.
    induction is as [|[e|id' l' n|c] is IH]; intros cur k0 k l Hk; cbn [calls_from] in Hk; [destruct k; discriminate| | |].
    - destruct (IH (S cur) k0 k l Hk) as [a [m [H1 [H2 [H3 H4]]]]]. exists (S a), m. split; [rewrite H1; f_equal; lia|]. split; [|split].
      + intros t Ht. cbn. auto.
      + cbn [nouts]. change (i_nout (i := DI) (DVar e)) with 1. lia.
      + intros Hc [_ Hw] x Hx. change (i_nout (i := DI) (DVar e)) with 1 in Hw. replace (cur - 1 + 1) with (S cur - 1) in Hw by lia. specialize (H4 ltac:(lia) Hw x Hx). lia.
    - destruct k as [|k]; cbn [nth_error] in Hk.
      + injection Hk as <-. cbn [cl_outs cl_ins]. exists 0, n. split; [f_equal; lia|]. split; [|split].
        * intros t Ht. cbn [kinds_from]. cbn [Nat.add]. rewrite nth_error_app1 by (rewrite repeat_length; auto). rewrite nth_error_repeat by auto. do 2 f_equal. lia.
        * cbn [nouts]. change (i_nout (i := DI) (DCall id' l' n)) with n. lia.
        * intros Hc [Hw _] x Hx. change (Forall (fun x => 0 < x <= cur - 1) l') in Hw. rewrite Forall_forall in Hw. apply Hw in Hx. lia.
      + destruct (IH (cur + n) (S k0) k l Hk) as [a [m [H1 [H2 [H3 H4]]]]]. exists (n + a), m. split; [rewrite H1; f_equal; lia|]. split; [|split].
        * intros t Ht. cbn [kinds_from]. rewrite nth_error_app2 by (rewrite repeat_length; lia). rewrite repeat_length. replace (n + a + t - n) with (a + t) by lia.
          rewrite H2 by auto. do 2 f_equal. lia.
        * cbn [nouts]. change (i_nout (i := DI) (DCall id' l' n)) with n. lia.
        * intros Hc [_ Hw] x Hx. change (i_nout (i := DI) (DCall id' l' n)) with n in Hw. replace (cur - 1 + n) with (cur + n - 1) in Hw by lia. specialize (H4 ltac:(lia) Hw x Hx). lia.
    - destruct (IH (S cur) k0 k l Hk) as [a [m [H1 [H2 [H3 H4]]]]]. exists (S a), m. split; [rewrite H1; f_equal; lia|]. split; [|split].
      + intros t Ht. cbn. auto.
      + cbn [nouts]. change (i_nout (i := DI) (DConst c)) with 1. lia.
      + intros Hc [_ Hw] x Hx. change (i_nout (i := DI) (DConst c)) with 1 in Hw. replace (cur - 1 + 1) with (S cur - 1) in Hw by lia. specialize (H4 ltac:(lia) Hw x Hx). lia.
  Qed.
  Lemma expr_struct (is : list (DInsn F)) : forall cur k0 j e, 1 <= cur -> wf_insns DI is (cur - 1) -> nth_error (kinds_from is k0) j = Some (OExpr e) ->
    forall x, In x (e_vars F e) -> 1 <= x < cur + j.
  Proof.
    induction is as [|[e'|id' l' n|c] is IH]; intros cur k0 j e Hc Hw Hj x Hx; cbn [kinds_from] in Hj; [destruct j; discriminate| | |]; destruct Hw as [Hi Hw].
    - destruct j as [|j]; cbn [nth_error] in Hj.
      + injection Hj as ->. change (Forall (fun x => 0 < x <= cur - 1) (e_vars F e)) in Hi. rewrite Forall_forall in Hi. apply Hi in Hx. lia.
      + change (i_nout (i := DI) (DVar e')) with 1 in Hw. replace (cur - 1 + 1) with (S cur - 1) in Hw by lia. specialize (IH (S cur) k0 j e ltac:(lia) Hw Hj x Hx). lia.
    - destruct (Nat.lt_ge_cases j n) as [Hlt|Hge].
      + rewrite nth_error_app1 in Hj by (rewrite repeat_length; auto). apply nth_error_In, repeat_spec in Hj. discriminate.
      + rewrite nth_error_app2 in Hj by (rewrite repeat_length; auto). rewrite repeat_length in Hj.
        change (i_nout (i := DI) (DCall id' l' n)) with n in Hw. replace (cur - 1 + n) with (cur + n - 1) in Hw by lia. specialize (IH (cur + n) (S k0) (j - n) e ltac:(lia) Hw Hj x Hx). lia.
    - destruct j as [|j]; cbn [nth_error] in Hj; [discriminate|].
      change (i_nout (i := DI) (DConst c)) with 1 in Hw. replace (cur - 1 + 1) with (S cur - 1) in Hw by lia. specialize (IH (S cur) k0 j e ltac:(lia) Hw Hj x Hx). lia.
  Qed.
  Lemma sub_struct (is : list (DInsn F)) : forall cur k0 j k, nth_error (kinds_from is k0) j = Some (OSub k) ->
    k0 <= k /\ exists l, nth_error (calls_from is cur) (k - k0) = Some l /\ In (cur + j) (cl_outs l).
  Proof.
    induction is as [|[e'|id' l' n|c] is IH]; intros cur k0 j k Hj; cbn [kinds_from] in Hj; [destruct j; discriminate| | |].
    - destruct j as [|j]; cbn [nth_error] in Hj; [discriminate|]. destruct (IH (S cur) k0 j k Hj) as [H1 [l [H2 H3]]]. split; auto. exists l. split; auto. replace (cur + S j) with (S cur + j) by lia. auto.
    - destruct (Nat.lt_ge_cases j n) as [Hlt|Hge].
      + rewrite nth_error_app1 in Hj by (rewrite repeat_length; auto). apply nth_error_In, repeat_spec in Hj. injection Hj as ->. split; auto. rewrite Nat.sub_diag. eexists. split; [reflexivity|].
        cbn [cl_outs]. apply in_seq. lia.
      + rewrite nth_error_app2 in Hj by (rewrite repeat_length; auto). rewrite repeat_length in Hj. destruct (IH (cur + n) (S k0) (j - n) k Hj) as [H1 [l [H2 H3]]]. split; [lia|].
        exists l. split; [cbn [calls_from]; replace (k - k0) with (S (k - S k0)) by lia; auto|]. replace (cur + j) with (cur + n + (j - n)) by lia. auto.
    - destruct j as [|j]; cbn [nth_error] in Hj; [discriminate|]. destruct (IH (S cur) k0 j k Hj) as [H1 [l [H2 H3]]]. split; auto. exists l. split; auto. replace (cur + S j) with (S cur + j) by lia. auto.
  Qed.
  Lemma kinds_tail (c : Circuit DI) j : nth_error (kinds c) (S (num_inputs c) + j) = nth_error (kinds_from (instructions c) 0) j.
  Proof. unfold kinds. rewrite nth_error_app2 by (rewrite repeat_length; lia). rewrite repeat_length. f_equal. lia. Qed.
  Lemma kinds_head (c : Circuit DI) x : x <= num_inputs c -> nth_error (kinds c) x = Some OIn.
  Proof. intros H. unfold kinds. rewrite nth_error_app1 by (rewrite repeat_length; lia). apply nth_error_repeat. lia. Qed.
  Lemma call_args id X k l x : ctx_ok id X -> nth_error (x_calls X) k = Some l -> In x (cl_ins l) -> 1 <= x < x_nv X.
  Proof.
    intros K Hk Hx. rewrite (nv_eq _ _ K). rewrite (ok_calls _ _ K) in Hk. destruct (call_struct _ _ 0 _ _ Hk) as [a [n [_ [_ [H3 H4]]]]].
    pose proof (wf_is _ _ (wf_each _ _ Hwf _ _ (ok_c _ _ K))) as W1. specialize (H4 ltac:(lia)). replace (S (num_inputs (x_c X)) - 1) with (num_inputs (x_c X)) in H4 by lia.
    specialize (H4 W1 x Hx). lia.
  Qed.
  Lemma call_outs id X k l t x : ctx_ok id X -> nth_error (x_calls X) k = Some l -> nth_error (cl_outs l) t = Some x -> nth_error (x_kinds X) x = Some (OSub k) /\ 1 <= x < x_nv X.
  Proof.
    intros K Hk Ht. rewrite (nv_eq _ _ K). rewrite (ok_calls _ _ K) in Hk. destruct (call_struct _ _ 0 _ _ Hk) as [a [n [H1 [H2 [H3 _]]]]].
    rewrite H1 in Ht. assert (Hlt : t < n) by (apply nth_error_Some_lt in Ht; rewrite seq_length in Ht; auto). rewrite nth_error_seq in Ht by auto. injection Ht as <-.
    rewrite (ok_kinds _ _ K). split; [|lia]. specialize (H2 t Hlt). rewrite <- kinds_tail in H2. cbn [Nat.add] in H2 |- *. rewrite <- H2. f_equal. lia.
  Qed.
  Lemma call_outs_nodup id X k l : ctx_ok id X -> nth_error (x_calls X) k = Some l -> NoDup (cl_outs l).
  Proof. intros K Hk. rewrite (ok_calls _ _ K) in Hk. destruct (call_struct _ _ 0 _ _ Hk) as [a [n [-> _]]]. apply seq_NoDup. Qed.
  Lemma sub_call id X x k : ctx_ok id X -> nth_error (x_kinds X) x = Some (OSub k) -> exists l t, nth_error (x_calls X) k = Some l /\ nth_error (cl_outs l) t = Some x.
  Proof.
    intros K Hk. rewrite (ok_kinds _ _ K) in Hk. destruct (Nat.le_gt_cases x (num_inputs (x_c X))) as [Hle|Hgt]; [rewrite kinds_head in Hk by auto; discriminate|].
    replace x with (S (num_inputs (x_c X)) + (x - S (num_inputs (x_c X)))) in Hk by lia. rewrite kinds_tail in Hk.
    destruct (sub_struct _ (S (num_inputs (x_c X))) _ _ _ Hk) as [_ [l [H1 H2]]]. rewrite Nat.sub_0_r in H1. apply In_nth_error in H2. destruct H2 as [t Ht].
    exists l, t. rewrite (ok_calls _ _ K). split; auto. rewrite Ht. f_equal. lia.
  Qed.
  Lemma expr_args id X x e y : ctx_ok id X -> nth_error (x_kinds X) x = Some (OExpr e) -> In y (e_vars F e) -> 1 <= y < x /\ x < x_nv X.
  Proof.
    intros K Hk Hy. split; [|apply nth_error_Some_lt in Hk; auto]. rewrite (ok_kinds _ _ K) in Hk. destruct (Nat.le_gt_cases x (num_inputs (x_c X))) as [Hle|Hgt]; [rewrite kinds_head in Hk by auto; discriminate|].
    replace x with (S (num_inputs (x_c X)) + (x - S (num_inputs (x_c X)))) in Hk by lia. rewrite kinds_tail in Hk.
    pose proof (wf_is _ _ (wf_each _ _ Hwf _ _ (ok_c _ _ K))) as W1. assert (W1' : wf_insns DI (instructions (x_c X)) (S (num_inputs (x_c X)) - 1)) by (replace (S (num_inputs (x_c X)) - 1) with (num_inputs (x_c X)) by lia; auto).
    pose proof (expr_struct _ (S (num_inputs (x_c X))) _ _ _ ltac:(lia) W1' Hk y Hy). lia.
  Qed.

  (* ------------------------------------------------------------ from layers to a run *)
  Lemma LS_run : forall n id ins outs w, LS n id ins outs w -> exists b, run DI E cs id ins outs b /\ (b = true -> forall i, w i = f0).
  Proof.
    induction n as [|n IH]; intros id ins outs w H; [destruct H|]. cbn [LS] in H. destruct H as [X [W [co [cw [HX [Hin0 [Hin [Houts [Hcall [Hvar [Hw0 Hw]]]]]]]]]]].
    pose proof (Hok _ _ HX) as K. pose proof (nv_eq _ _ K) as Hnv. pose proof (ok_out _ _ K) as Ho1.
    pose proof (wf_each _ _ Hwf _ _ (ok_c _ _ K)) as [W1 W2 W3].
    set (v := fun x => if x =? 0 then f0 else W (getn (x_min X) x) x).
    assert (Hv : forall i x, i <= x_out X -> 1 <= x < x_nv X -> in_layer cross X x i = true -> W i x = v x).
    { induction i as [i IHi] using lt_wf_ind. intros x Hi Hx Hl. unfold v. destruct (Nat.eqb_spec x 0); [lia|].
      destruct (Nat.eq_dec (getn (x_min X) x) i) as [->|Hne]; auto. destruct (layer_prev _ _ _ _ K Hx Hl Hne) as [P1 P2].
      assert (Hvs : var_sem X W i x) by (apply Hvar; auto; lia). unfold var_sem in Hvs. destruct (Nat.eqb_spec (getn (x_min X) x) i); [congruence|].
      rewrite Hvs. rewrite (IHi (prevl X x i)); auto; [|lia|lia]. unfold v. destruct (Nat.eqb_spec x 0); [lia|]. auto. }
    destruct (F2_choice_k (fun k l b => run DI E cs (cl_sub l) (map (W (start_of X k)) (cl_ins l)) (co k) b /\ (b = true -> forall i, cw k i = f0)) (x_calls X)) as [bs [Hbl Hbs]].
    { intros k l Hk. destruct (Hcall k l Hk) as [H1 _]. apply IH in H1. auto. }
    assert (Hci : forall k l, nth_error (x_calls X) k = Some l -> map (W (start_of X k)) (cl_ins l) = map v (cl_ins l) /\ co k = map v (cl_outs l)).
    { intros k l Hk. pose proof (ok_end _ _ K _ _ Hk) as He. unfold end_of in He. split.
      - apply map_ext_in. intros x Hx. apply Hv; [unfold start_of; lia|eapply call_args; eauto|]. eapply ok_args; eauto.
      - destruct (Hcall k l Hk) as [_ <-]. apply map_ext_in. intros x Hx. apply In_nth_error in Hx. destruct Hx as [t Ht]. destruct (call_outs _ _ _ _ _ _ K Hk Ht) as [Hkd Hx].
        apply Hv; auto. rewrite <- (ok_osub _ _ K _ _ Hkd). eapply layer_min; eauto. }
    exists (forallb (fun b => b) bs && forallb (fun x => is0 F (v x)) (constraints (x_c X))). split.
    - apply (run_eqs _ _ _ _ _ (ok_c _ _ K) Hin0). exists v. split; auto. split; [|split; [|split]].
      + intros t x Ht. pose proof (nth_error_Some_lt _ _ _ Ht). apply Hin in Ht. unfold v. cbn [Nat.eqb]. rewrite (ok_in _ _ K); auto. lia.
      + rewrite <- (ok_kinds _ _ K). intros x kd Hk. assert (Hlt : x < x_nv X) by (apply nth_error_Some_lt in Hk; auto).
        destruct kd as [|e|c|k]; cbn [kind_sem]; auto.
        * assert (Hx : 1 <= x < x_nv X). { destruct x; [|lia]. rewrite (ok_kinds _ _ K), kinds_head in Hk by lia. discriminate. }
          assert (Hm := ok_expr _ _ K _ _ Hk). assert (Hle := ok_le _ _ K _ Hx). assert (Hvs := Hvar (getn (x_min X) x) x ltac:(lia) Hx (layer_min _ _ _ K Hx)).
          unfold var_sem in Hvs. rewrite Nat.eqb_refl, Hk in Hvs. rewrite <- (Hv (getn (x_min X) x) x Hle Hx (layer_min _ _ _ K Hx)).
          eapply expr_sem_ext; [|exact Hvs]. intros y Hy. pose proof (expr_args _ _ _ _ _ K Hk Hy). apply Hv; [lia|lia|]. eapply ok_use; eauto.
        * assert (Hx : 1 <= x < x_nv X). { destruct x; [|lia]. rewrite (ok_kinds _ _ K), kinds_head in Hk by lia. discriminate. }
          assert (Hm := ok_coef _ _ K _ _ Hk). assert (Hle := ok_le _ _ K _ Hx). assert (Hvs := Hvar (getn (x_min X) x) x ltac:(lia) Hx (layer_min _ _ _ K Hx)).
          unfold var_sem in Hvs. rewrite Nat.eqb_refl, Hk in Hvs. rewrite <- (Hv (getn (x_min X) x) x Hle Hx (layer_min _ _ _ K Hx)). auto.
      + rewrite Houts. apply map_ext_in. intros x Hx. rewrite Forall_forall in W3. pose proof (W3 x Hx). apply Hv; [lia|lia|]. apply (ok_outs _ _ K). auto.
      + exists bs. split; auto. rewrite <- (ok_calls _ _ K). apply F2_of_nth; [congruence|]. intros k l b Hl Hb. destruct (Hbs k l b Hl Hb) as [Hr _]. destruct (Hci k l Hl) as [<- <-]. auto.
    - intros Hb. apply andb_true_iff in Hb. destruct Hb as [Hb1 Hb2]. rewrite forallb_forall in Hb1, Hb2.
      assert (Hcw : forall k i, k < length (x_calls X) -> cw k i = f0).
      { intros k i Hk. destruct (nth_error_Some_ex (x_calls X) k Hk) as [l Hl]. destruct (nth_error_Some_ex bs k) as [b Hbk]; [lia|]. destruct (Hbs k l b Hl Hbk) as [_ H0]. apply H0. apply Hb1. eapply nth_error_In; eauto. }
      induction i as [i IHi] using lt_wf_ind. destruct (cc_at (x_cc X) i) eqn:Ecc; [|auto]. pose proof (cc_le _ _ _ K Ecc) as Hle. apply cc_at_iff in Ecc. destruct Ecc as [c Hc].
      destruct (ok_cc _ _ K _ _ Hc) as [Hi1 [_ [_ [Hks [l [ch [Hvars [Hl [Hch _]]]]]]]]]. destruct (Hw i c Hle Hc) as [vs [Hvs ->]].
      rewrite (fsum_zero vs), (fsum_zero (map _ _)); [ring| |].
      + apply Forall_forall. intros y Hy. apply in_map_iff in Hy. destruct Hy as [k [<- Hk]]. apply Hcw. apply Hks. auto.
      + assert (Hcv : forall x, In x (cc_vars c) -> x_nv X <= x \/ (In x (constraints (x_c X)) /\ in_layer cross X x (i - 1) = true)).
        { intros x Hx. rewrite Hvars in Hx. apply in_app_iff in Hx. destruct Hx as [Hx|Hx]; auto. destruct Hch as [->|[y [-> Hy]]]; [destruct Hx|]. destruct Hx as [<-|[]]. auto. }
        clear -Hvs Hcv IHi Hi1 Hb2 Hv Hle W2 Hnv Hwf. induction Hvs as [|x a xs vs Hx Hvs IHv]; constructor.
        * unfold con_val in Hx. destruct (Nat.leb_spec (x_nv X) x) as [Hge|Hlt].
          -- subst a. apply IHi. lia.
          -- destruct Hx as [r [_ ->]]. destruct (Hcv x (or_introl eq_refl)) as [?|[H1 H2]]; [lia|]. pose proof (Hb2 x H1) as Hz. rewrite Forall_forall in W2. pose proof (W2 x H1). cbn in H.
             rewrite (Hv (i - 1) x) by (auto; lia). apply is0_spec in Hz. rewrite Hz. ring.
        * apply IHv. intros y Hy. apply Hcv. right; auto.
  Qed.

  (* ------------------------------------------------------------ from a run to layers *)
  Lemma LS_build n id X (v : nat -> F) ins outs cw w : lookup id ctxs = Some X -> length ins = num_inputs (x_c X) ->
    (forall t x, nth_error ins t = Some x -> v (S t) = x) -> (forall x kd, nth_error (x_kinds X) x = Some kd -> kind_sem v x kd) -> outs = map v (outputs (x_c X)) ->
    (forall k l, nth_error (x_calls X) k = Some l -> LS n (cl_sub l) (map v (cl_ins l)) (map v (cl_outs l)) (cw k)) ->
    (forall i, cc_at (x_cc X) i = false -> w i = f0) ->
    (forall i c, i <= x_out X -> nth_error (x_cc X) i = Some (Some c) -> exists vs,
       Forall2 (con_val X (fun _ => v) w i) (cc_vars c) vs /\ w i = fadd (fsum F vs) (fsum F (map (fun k => cw k (i - 1 - start_of X k)) (cc_subs c)))) ->
    LS (S n) id ins outs w.
  Proof.
    intros HX Hl Hin Hk Ho Hc Hw0 Hw. cbn [LS]. exists X, (fun _ => v), (fun k => match nth_error (x_calls X) k with Some l => map v (cl_outs l) | None => [] end), cw.
    split; auto. split; auto. split; auto. split; auto. split; [|split; [|split; auto]].
    - intros k l Hkl. rewrite Hkl. auto.
    - intros i x Hi Hx _. unfold var_sem. destruct (getn (x_min X) x =? i); auto. destruct (nth_error (x_kinds X) x) as [kd|] eqn:Ek; auto. apply Hk in Ek. destruct kd; auto.
  Qed.
  Lemma child_len id X k l : ctx_ok id X -> nth_error (x_calls X) k = Some l -> exists Y, lookup (cl_sub l) ctxs = Some Y /\ length (cl_ins l) = num_inputs (x_c Y).
  Proof.
    intros K Hk. destruct (ok_sub _ _ K _ _ Hk) as [_ [Y [HY _]]]. exists Y. split; auto. pose proof (wf_calls _ _ Hwf _ _ (ok_c _ _ K)) as Wc. rewrite (ok_calls _ _ K) in Hk.
    apply nth_error_In in Hk. unfold calls_of in Hk. pose proof (ok_c _ _ (Hok _ _ HY)) as Hc.
    revert Hk Wc. generalize (S (num_inputs (x_c X))). induction (instructions (x_c X)) as [|[e|id' l' n|c] is IH]; intros cur Hk Wc; cbn [calls_from] in Hk; [destruct Hk| | |]; inversion Wc as [|? ? Wi Wc']; subst; eauto.
    destruct Hk as [<-|Hk]; eauto. cbn [cl_sub cl_ins] in *. destruct (Wi id' l' n eq_refl) as [c [H1 [H2 _]]]. congruence.
  Qed.
  Lemma run_LS0 : forall n id X ins outs b, deep n id -> lookup id ctxs = Some X -> length ins = num_inputs (x_c X) -> run DI E cs id ins outs b ->
    (forall r, e_rnd E r) \/ (b = true /\ exists r, e_rnd E r) -> LS n id ins outs (fun _ => f0).
  Proof.
    induction n as [|n IH]; intros id X ins outs b Hd HX Hl Hr Hm; [destruct Hd|]. destruct Hd as [X' [HX' Hd]]. rewrite HX in HX'. injection HX' as <-.
    pose proof (Hok _ _ HX) as K. apply (run_eqs _ _ _ _ _ (ok_c _ _ K) Hl) in Hr. destruct Hr as [v [Hv0 [Hin [Hk [Ho [bs [Hbs Hb]]]]]]]. rewrite <- (ok_kinds _ _ K) in Hk. rewrite <- (ok_calls _ _ K) in Hbs.
    pose proof (wf_each _ _ Hwf _ _ (ok_c _ _ K)) as [_ W2 _]. pose proof (nv_eq _ _ K) as Hnv.
    apply (LS_build n id X v ins outs (fun _ _ => f0)); auto.
    - intros k l Hkl. destruct (Forall2_nth_error _ _ _ Hbs _ _ Hkl) as [bk [Hbk Hr]]. destruct (child_len _ _ _ _ K Hkl) as [Y [HY HYl]].
      apply (IH _ Y _ _ bk); eauto; [rewrite map_length; auto|]. destruct Hm as [Hm|[-> Hm]]; auto. right. split; auto. symmetry in Hb. apply andb_true_iff in Hb. destruct Hb as [Hb _].
      rewrite forallb_forall in Hb. apply Hb. eapply nth_error_In; eauto.
    - intros i c Hi Hc. destruct (ok_cc _ _ K _ _ Hc) as [_ [_ [_ [_ [l [ch [Hvars [Hlv _]]]]]]]]. exists (map (fun _ => f0) (cc_vars c)). split.
      + assert (Hcv : forall x, In x (cc_vars c) -> x_nv X <= x \/ (In x (constraints (x_c X)))).
        { intros x Hx. destruct (Nat.le_gt_cases (x_nv X) x) as [Hge|Hlt]; auto. right. destruct (ok_cc _ _ K _ _ Hc) as [_ [_ [_ [_ [l' [ch' [Hvars' [Hlv' [Hch' _]]]]]]]]].
          rewrite Hvars' in Hx. apply in_app_iff in Hx. destruct Hx as [Hx|Hx]; [apply Hlv'; auto|]. destruct Hch' as [->|[y [-> Hy]]]; [destruct Hx|]. destruct Hx as [<-|[]]. lia. }
        clear -Hcv Hm Hb W2. induction (cc_vars c) as [|x l IH]; cbn [map]; constructor.
        * unfold con_val. destruct (Nat.leb_spec (x_nv X) x) as [Hge|Hlt]; auto. destruct Hm as [Hm|[-> [r Hr]]].
          -- exists f0. split; auto. ring.
          -- exists r. split; auto. destruct (Hcv x (or_introl eq_refl)) as [?|Hx]; [lia|]. symmetry in Hb. apply andb_true_iff in Hb. destruct Hb as [_ Hb]. rewrite forallb_forall in Hb.
             apply Hb in Hx. apply is0_spec in Hx. rewrite Hx. ring.
        * apply IH. intros y Hy. apply Hcv. right; auto.
      + rewrite !fsum_zero; [ring| |]; apply Forall_forall; intros y Hy; apply in_map_iff in Hy; destruct Hy as [? [<- _]]; auto.
  Qed.

  (* the sum of one layer with all constraints switched off, or one of them on *)
  Lemma con_sum X v w i l ch (a : F) : (forall r, e_rnd E r) -> (forall x, In x l -> x < x_nv X) -> (ch = [] \/ exists y, ch = [y] /\ x_nv X <= y) ->
    (a = f0 \/ exists x, In x l /\ v x <> f0) ->
    exists vs, Forall2 (con_val X (fun _ => v) w i) (l ++ ch) vs /\ fsum F vs = fadd a (if length ch =? 0 then f0 else w (i - 1)).
  Proof.
    intros Hr Hl Hch Ha. assert (Hz : forall l, (forall x, In x l -> x < x_nv X) -> Forall2 (con_val X (fun _ => v) w i) l (map (fun _ => f0) l)).
    { clear -Hr. induction l as [|x l IH]; intros Hl; cbn [map]; constructor; [|apply IH; intros y Hy; apply Hl; right; auto].
      unfold con_val. destruct (Nat.leb_spec (x_nv X) x) as [Hge|Hlt]; [specialize (Hl x (or_introl eq_refl)); lia|]. exists f0. split; auto. ring. }
    assert (Hs : forall l : list nat, fsum F (map (fun _ => f0) l) = f0 :> F) by (intros l0; apply fsum_zero, Forall_forall; intros y Hy; apply in_map_iff in Hy; destruct Hy as [? [<- _]]; auto).
    assert (H1 : exists vs, Forall2 (con_val X (fun _ => v) w i) l vs /\ fsum F vs = a).
    { destruct Ha as [->|[x [Hx Hvx]]]; [exists (map (fun _ => f0) l); auto|]. apply in_split in Hx. destruct Hx as [l1 [l2 ->]].
      exists (map (fun _ => f0) l1 ++ a :: map (fun _ => f0) l2). split.
      - apply Forall2_app; [apply Hz; intros y Hy; apply Hl; apply in_app_iff; auto|]. constructor; [|apply Hz; intros y Hy; apply Hl; apply in_app_iff; right; right; auto].
        unfold con_val. destruct (Nat.leb_spec (x_nv X) x) as [Hge|Hlt]; [specialize (Hl x); rewrite in_app_iff in Hl; specialize (Hl (or_intror (or_introl eq_refl))); lia|].
        exists (fdiv a (v x)). split; auto. field. auto.
      - rewrite fsum_app. change (fsum F (a :: map (fun _ => f0) l2)) with (fadd a (fsum F (map (fun _ => f0) l2))). rewrite !Hs. ring. }
    destruct H1 as [vs [H1 H2]]. destruct Hch as [->|[y [-> Hy]]].
    - exists vs. rewrite app_nil_r. split; auto. rewrite H2. cbn. ring.
    - exists (vs ++ [w (i - 1)]). split; [apply Forall2_app; auto; constructor; auto; unfold con_val; destruct (Nat.leb_spec (x_nv X) y); [auto|lia]|].
      rewrite fsum_app, H2. cbn. ring.
  Qed.
  Lemma sub_sum (f : nat -> F) (g : nat -> bool) k a l : NoDup l -> (forall k', In k' l -> k' <> k -> f k' = f0) -> (In k l -> f k = a) -> (~ In k l -> a = f0) -> fsum F (map f l) = a.
  Proof.
    intros Hn H1 H2 H3. destruct (in_dec Nat.eq_dec k l) as [Hi|Hi].
    - apply in_split in Hi. destruct Hi as [l1 [l2 ->]]. rewrite map_app, fsum_app. cbn [map]. change (fsum F (f k :: map f l2)) with (fadd (f k) (fsum F (map f l2))).
      apply NoDup_remove_2 in Hn. rewrite in_app_iff in Hn. rewrite H2 by (apply in_app_iff; right; left; auto).
      rewrite !fsum_zero; [ring| |]; apply Forall_forall; intros y Hy; apply in_map_iff in Hy; destruct Hy as [k' [<- Hk']]; apply H1; try (apply in_app_iff; cbn; auto; fail); intros ->; apply Hn; auto.
    - rewrite (H3 Hi). apply fsum_zero, Forall_forall. intros y Hy. apply in_map_iff in Hy. destruct Hy as [k' [<- Hk']]. apply H1; auto. intros ->. auto.
  Qed.
  Definition wnz (id : nat) (X : Ctx (F := F)) (i0 : nat) (a : F) (i : nat) : F :=
    if id =? 0 then if (i0 <=? i) && cc_at (x_cc X) i then a else f0 else if i =? i0 then a else f0.
  Lemma cc_persist X i0 : ctx_ok 0 X -> cc_at (x_cc X) i0 = true -> forall i, i0 <= i <= x_out X -> cc_at (x_cc X) i = true.
  Proof.
    intros K H0. induction i as [|i IH]; intros Hi; [replace 0 with i0 by lia; auto|]. destruct (Nat.eq_dec i0 (S i)) as [->|Hne]; auto. apply (ok_cc_root _ _ K eq_refl); [apply IH; lia|lia].
  Qed.
  (* the value of the combined constraints when [a] is put into layer i0 *)
  Lemma wnz_step id X i0 a i c l ch : ctx_ok id X -> cc_at (x_cc X) i0 = true -> nth_error (x_cc X) i = Some (Some c) -> cc_vars c = l ++ ch ->
    (ch <> [] <-> id = 0 /\ cc_at (x_cc X) (i - 1) = true) -> 1 <= i -> i <= x_out X ->
    wnz id X i0 a i = fadd (if i =? i0 then a else f0) (if length ch =? 0 then f0 else wnz id X i0 a (i - 1)).
  Proof.
    intros K H0 Hc Hv Hch Hi Hio. assert (Hci : cc_at (x_cc X) i = true) by (apply cc_at_iff; eauto). unfold wnz. destruct (Nat.eqb_spec id 0) as [->|Hz].
    - rewrite Hci, andb_true_r. destruct (Nat.eqb_spec i i0) as [->|Hne].
      + rewrite Nat.leb_refl. destruct (Nat.leb_spec i0 (i0 - 1)); [lia|]. cbn [andb]. destruct (length ch =? 0); ring.
      + destruct (Nat.leb_spec i0 i) as [Hle|Hgt].
        * assert (Hp : cc_at (x_cc X) (i - 1) = true) by (apply (cc_persist X i0 K H0); lia). rewrite Hp. destruct (Nat.leb_spec i0 (i - 1)); [|lia]. cbn [andb].
          assert (Hne' : ch <> []) by (apply Hch; auto). destruct ch; [congruence|]. cbn. ring.
        * destruct (Nat.leb_spec i0 (i - 1)); [lia|]. cbn [andb]. destruct (length ch =? 0); ring.
    - assert (ch = []) by (destruct ch; auto; exfalso; apply Hz; apply Hch; discriminate). subst ch. cbn. ring.
  Qed.
  Lemma wnz_none id X i0 a i : cc_at (x_cc X) i0 = true -> cc_at (x_cc X) i = false -> wnz id X i0 a i = f0.
  Proof. intros H0 H. unfold wnz. destruct (id =? 0); [rewrite H, andb_false_r; auto|]. destruct (Nat.eqb_spec i i0); [congruence|auto]. Qed.
  Lemma forallb_false_nth {A} (f : A -> bool) (l : list A) : forallb f l = false -> exists k x, nth_error l k = Some x /\ f x = false.
  Proof.
    induction l as [|x l IH]; cbn; [discriminate|]. intros H. destruct (f x) eqn:Ef; [|exists 0, x; auto]. destruct (IH H) as [k [y Hy]]. exists (S k), y. auto.
  Qed.
  Lemma run_LS1 : forall n id X ins outs (a : F), deep n id -> lookup id ctxs = Some X -> length ins = num_inputs (x_c X) -> run DI E cs id ins outs false -> (forall r, e_rnd E r) ->
    exists i0, cc_at (x_cc X) i0 = true /\ LS n id ins outs (wnz id X i0 a).
  Proof.
    induction n as [|n IH]; intros id X ins outs a Hd HX Hl Hr Hm; [destruct Hd|]. destruct Hd as [X' [HX' Hd]]. rewrite HX in HX'. injection HX' as <-.
    pose proof (Hok _ _ HX) as K. apply (run_eqs _ _ _ _ _ (ok_c _ _ K) Hl) in Hr. destruct Hr as [v [Hv0 [Hin [Hk [Ho [bs [Hbs Hb]]]]]]]. rewrite <- (ok_kinds _ _ K) in Hk. rewrite <- (ok_calls _ _ K) in Hbs.
    pose proof (wf_each _ _ Hwf _ _ (ok_c _ _ K)) as [_ W2 _]. pose proof (nv_eq _ _ K) as Hnv.
    assert (Hlt : forall x, In x (constraints (x_c X)) -> x < x_nv X) by (intros x Hx; rewrite Forall_forall in W2; apply W2 in Hx; cbn in Hx; lia).
    symmetry in Hb. apply andb_false_iff in Hb. destruct Hb as [Hb|Hb].
    - (* a violated call *)
      apply forallb_false_nth in Hb. destruct Hb as [k [bk [Hbk ->]]].
      destruct (nth_error_Some_ex (x_calls X) k) as [lk Hlk]; [pose proof (Forall2_len _ _ _ Hbs); apply nth_error_Some_lt in Hbk; lia|].
      destruct (Forall2_nth_error _ _ _ Hbs _ _ Hlk) as [bk' [Hbk' Hrk]]. rewrite Hbk in Hbk'. injection Hbk' as <-.
      destruct (child_len _ _ _ _ K Hlk) as [Y [HY HYl]]. destruct (IH (cl_sub lk) Y (map v (cl_ins lk)) (map v (cl_outs lk)) a) as [j0 [Hj0 HLS]]; eauto; [rewrite map_length; auto|].
      destruct (ok_cc_sub _ _ K _ _ _ _ Hlk HY Hj0) as [c0 [Hc0le [Hc0 Hkin]]].
      set (i0 := j0 + start_of X k + 1) in *. assert (Hi0 : cc_at (x_cc X) i0 = true) by (apply cc_at_iff; eauto). exists i0. split; auto.
      pose proof (proj1 (ok_sub _ _ K _ _ Hlk)) as Hnz.
      apply (LS_build n id X v ins outs (fun k' j => if (k' =? k) && (j =? j0) then a else f0)); auto.
      + intros k' l' Hkl. destruct (Nat.eqb_spec k' k) as [->|Hne].
        * rewrite Hlk in Hkl. injection Hkl as <-. unfold wnz in HLS. destruct (Nat.eqb_spec (cl_sub lk) 0); [contradiction|]. exact HLS.
        * destruct (Forall2_nth_error _ _ _ Hbs _ _ Hkl) as [b' [Hb' Hr']]. destruct (child_len _ _ _ _ K Hkl) as [Y' [HY' HYl']]. apply (run_LS0 _ _ Y' _ _ b'); eauto. rewrite map_length; auto.
      + intros i. apply wnz_none. auto.
      + intros i c Hi Hc. destruct (ok_cc _ _ K _ _ Hc) as [Hi1 [_ [Hnd [Hks [l [ch [Hvars [Hlv [Hch1 Hch2]]]]]]]]].
        destruct (con_sum X v (wnz id X i0 a) i l ch f0 Hm) as [vs [Hvs Hsum]]; auto; [intros x Hx; apply Hlt, Hlv; auto|]. exists vs. rewrite Hvars. split; auto.
        rewrite Hsum, (wnz_step id X i0 a i c l ch); auto.
        rewrite (sub_sum _ (fun _ => true) k (if i =? i0 then a else f0) (cc_subs c) Hnd).
        * ring.
        * intros k' Hk' Hne. destruct (Nat.eqb_spec k' k); [contradiction|]. auto.
        * intros Hk'. destruct (Hks k Hk') as [_ Hst]. rewrite Nat.eqb_refl. cbn [andb]. unfold i0. destruct (Nat.eqb_spec (i - 1 - start_of X k) j0), (Nat.eqb_spec i (j0 + start_of X k + 1)); auto; lia.
        * intros Hk'. destruct (Nat.eqb_spec i i0) as [->|]; auto. exfalso. rewrite Hc0 in Hc. injection Hc as <-. auto.
    - (* a violated constraint *)
      apply forallb_false_nth in Hb. destruct Hb as [kx [x [Hx Hvx]]]. apply nth_error_In in Hx. assert (Hvx' : v x <> f0) by (intros Hz; apply is0_spec in Hz; congruence).
      destruct (ok_cc_con _ _ K _ Hx) as [i0 [c0 [Hc0le [Hc0 Hxin]]]]. assert (Hi0 : cc_at (x_cc X) i0 = true) by (apply cc_at_iff; eauto). exists i0. split; auto.
      apply (LS_build n id X v ins outs (fun _ _ => f0)); auto.
      + intros k' l' Hkl. destruct (Forall2_nth_error _ _ _ Hbs _ _ Hkl) as [b' [Hb' Hr']]. destruct (child_len _ _ _ _ K Hkl) as [Y' [HY' HYl']]. apply (run_LS0 _ _ Y' _ _ b'); eauto. rewrite map_length; auto.
      + intros i. apply wnz_none. auto.
      + intros i c Hi Hc. destruct (ok_cc _ _ K _ _ Hc) as [Hi1 [_ [Hnd [Hks [l [ch [Hvars [Hlv [Hch1 Hch2]]]]]]]]].
        destruct (con_sum X v (wnz id X i0 a) i l ch (if i =? i0 then a else f0) Hm) as [vs [Hvs Hsum]]; auto; [intros y Hy; apply Hlt, Hlv; auto| |].
        * destruct (Nat.eqb_spec i i0) as [->|]; auto. right. exists x. split; auto. rewrite Hc0 in Hc. injection Hc as <-. rewrite Hvars in Hxin. apply in_app_iff in Hxin. destruct Hxin as [?|Hxc]; auto.
          exfalso. apply Hlt in Hx. destruct Hch1 as [->|[y [-> Hy]]]; [destruct Hxc|]. destruct Hxc as [<-|[]]. lia.
        * exists vs. rewrite Hvars. split; auto. rewrite Hsum, (wnz_step id X i0 a i c l ch); auto. rewrite (fsum_zero (map _ _)); [ring|].
          apply Forall_forall. intros y Hy. apply in_map_iff in Hy. destruct Hy as [? [<- _]]; auto.
  Qed.
End LaySem.
