(* Property theorems C01, C02, C03 (call graphs), C10, C11, C39. *)
From Verif Require Import Prelude Field Zp Expr Topo Hints Ir IrFacts IrInst.
From Coq Require Import Relations Sorting.Sorted.

(* ======================= C01 ======================= *)
Section C01.
  Variable F : Fld.
  Add Field Fc01 : (fth F).
  Open Scope fld_scope.
  (* the sum of the terms as written, under an assignment of the variables *)
  Fixpoint sum_of (E : Env F) (g : nat -> F) (ts : list (Term F)) : F :=
    match ts with [] => 0 | t :: ts => vs_val F E g (vars t) * coef t + sum_of E g ts end.
  Lemma sum_of_val E g ts : sum_of E g ts = expr_val F E g ts.
  Proof. induction ts as [|t ts IH]; auto. cbn [sum_of]. rewrite IH, expr_val_cons. reflexivity. Qed.

  Theorem C01_from_terms : forall ts : list (Term F),
    (* sorted, hence no two terms over the same variables *)
    StronglySorted (fun a b => vs_cmp (vars a) (vars b) = Lt) (from_terms F ts) /\
    NoDup (map vars (from_terms F ts)) /\
    from_terms F ts <> [] /\
    (from_terms F ts = [t_const F 0] \/ Forall (fun t => coef t <> 0) (from_terms F ts)) /\
    (* every variable of the result occurs in the input *)
    (forall x, In x (e_vars F (from_terms F ts)) -> In x (e_vars F ts)) /\
    (* same value under every assignment *)
    (no_random F ts -> forall E g v, expr_sem F E g (from_terms F ts) v <-> v = sum_of E g ts).
  Proof.
    intros ts. destruct (from_terms_canonical F ts) as [H1 [H2 [H3 H4]]]. repeat split; auto.
    - clear -H3. induction H3 as [|t l H IH Hf]; cbn; constructor; auto. intros Hin. apply in_map_iff in Hin.
      destruct Hin as [u [Eu Hu]]. rewrite Forall_forall in Hf. specialize (Hf u Hu). rewrite Eu in Hf. eapply vs_lt_irrefl; eauto.
    - apply from_terms_vars.
    - intros Hv. apply expr_sem_val in Hv; [|apply no_random_from_terms; auto]. destruct (from_terms_spec F E ts) as [_ [Hs _]].
      rewrite Hs in Hv. rewrite sum_of_val. auto.
    - intros ->. apply expr_sem_val; [apply no_random_from_terms; auto|]. destruct (from_terms_spec F E ts) as [_ [Hs _]].
      rewrite Hs, sum_of_val. auto.
  Qed.
  Theorem C01_mul_constant : forall ts c, exists e', mul_constant F (from_terms F ts) c = Some e' /\
    forall E g, sum_of E g e' = sum_of E g (from_terms F ts) * c.
  Proof.
    intros ts c. destruct (mul_constant_spec F (env0 F) _ c (from_terms_canonical F ts)) as [e' [H1 _]].
    exists e'. split; auto. intros E g. destruct (mul_constant_spec F E _ c (from_terms_canonical F ts)) as [e2 [H2 [_ [H3 _]]]].
    assert (e2 = e') by congruence. subst. rewrite !sum_of_val. auto.
  Qed.
End C01.
Print Assumptions C01_from_terms.
Definition shown {F : Fld} (e : list (Term F)) : list (Z * VarSpec) := map (fun t => (toZ (coef t), vars t)) e.
Example C01_instance : shown (from_terms F7 [t_linear F7 (fz 3) 2; t_quad F7 (fz 1) 1 2; t_linear F7 (fz 5) 2; t_const F7 (fz 2); t_linear F7 (fz 6) 1; t_linear F7 (fz 1) 1])
  = [(2, VConst); (1, VLinear 2); (1, VQuad 2 1)]%Z.
Proof. vm_compute. reflexivity. Qed.

(* ======================= the four instruction sets ======================= *)
Inductive Stage := Source | HintNormalized | HintLess | DestRelaxed | Dest.
Definition irc_of (F : Fld) (s : Stage) : IRC F :=
  match s with Source => SrcI F | HintNormalized => HnI F | HintLess => HlI F | DestRelaxed => DestI F false | Dest => DestI F true end.
Lemma irc_laws F s : IRC_laws (irc_of F s).
Proof. destruct s; [apply SrcL|apply HnL|apply HlL|apply DestL|apply DestL]. Qed.

(* ======================= C02 ======================= *)
(* the HashMap of circuits has each key once: hypothesis NoDup (keys ...).
   In the model a read of a variable that is not defined yet, and a call of a missing circuit, give Panic; *)
Theorem C02_evaluation_is_safe : forall F s (rc : RootCircuit (irc_of F s)) (O : Oracle F) ins c0,
  NoDup (keys (circuits rc)) -> validate _ rc = true ->
  lookup 0 (circuits rc) = Some c0 -> length ins = num_inputs c0 ->
  (exists outs b, eval_root _ O rc ins = Ok (outs, b) /\
     length outs = (length (outputs c0) - expected_num_output_zeroes rc)%nat)
  \/ eval_root _ O rc ins = Err.
Proof. intros F s rc O ins c0. apply eval_root_good. apply irc_laws. Qed.
Print Assumptions C02_evaluation_is_safe.
Theorem C02_calls_fit : forall F s (rc : RootCircuit (irc_of F s)) id c i callee args n,
  NoDup (keys (circuits rc)) -> validate _ rc = true ->
  lookup id (circuits rc) = Some c -> In i (instructions c) -> i_call i = Some (callee, args, n) ->
  exists c', lookup callee (circuits rc) = Some c' /\ length args = num_inputs c' /\ n = length (outputs c').
Proof.
  intros F s rc id c i callee args n Hk Hv Hc Hi Ei. destruct (validate_wf _ rc Hk Hv) as [W _].
  pose proof (wf_calls _ _ W _ _ Hc) as H. rewrite Forall_forall in H. exact (H i Hi _ _ _ Ei).
Qed.
(* every variable an instruction, constraint or output reads is defined earlier *)
Theorem C02_reads_are_defined : forall F s (rc : RootCircuit (irc_of F s)) id c,
  NoDup (keys (circuits rc)) -> validate _ rc = true -> lookup id (circuits rc) = Some c ->
  (forall before i after x, instructions c = before ++ i :: after -> In x (i_inputs i) ->
     (0 < x <= num_inputs c + list_sum (map i_nout before))%nat) /\
  (forall k, In k (constraints c) -> (0 < c_var k <= num_inputs c + list_sum (map i_nout (instructions c)))%nat) /\
  (forall x, In x (outputs c) -> (0 < x <= num_inputs c + list_sum (map i_nout (instructions c)))%nat).
Proof.
  intros F s rc id c Hk Hv Hc. destruct (validate_wf _ rc Hk Hv) as [W _]. pose proof (wf_each _ _ W _ _ Hc) as Wc.
  assert (Hn : forall l : list (Insn (irc_of F s)), nouts _ l = list_sum (map i_nout l)).
  { induction l as [|i l IH]; cbn; auto. }
  split; [|split].
  - intros before i after x Hi Hx. pose proof (wf_is _ _ Wc) as Hw. rewrite Hi in Hw. revert Hw. generalize (num_inputs c). clear -Hx Hn.
    induction before as [|j b IH]; intros m [H1 H2].
    + rewrite Forall_forall in H1. specialize (H1 x Hx). cbn. lia.
    + apply IH in H2. cbn [map]. unfold list_sum in *. cbn [fold_right]. lia.
  - intros k Hk'. pose proof (wf_con _ _ Wc) as G. rewrite Forall_forall in G. specialize (G k Hk'). rewrite <- Hn. lia.
  - intros x Hx. pose proof (wf_out _ _ Wc) as G. rewrite Forall_forall in G. specialize (G x Hx). rewrite <- Hn. lia.
Qed.
(* a two-level source circuit: root calls circuit 1 twice *)
Definition c02_rc : RootCircuit (irc_of F7 Source) :=
  {| num_public_inputs := 0; expected_num_output_zeroes := 0;
     circuits := [(0, {| instructions := [SCall 1 [1; 2] 1; SCall 1 [3; 1] 1; SDiv 4 1 true] : list (Insn (irc_of F7 Source));
                         constraints := [(TNonZero, 2)]; outputs := [5; 4]; num_inputs := 2 |});
                  (1, {| instructions := [SMul [1; 2]; SLin {| lc_terms := [(3, fz 2)]; lc_const := fz 1 |}] : list (Insn (irc_of F7 Source));
                         constraints := []; outputs := [4]; num_inputs := 2 |})] |}.
Definition o7 : Oracle F7 := {| o_pub := fun _ => fz 0; o_gate := fun _ _ => fz 0; o_hint := fun _ _ _ => None; o_rnd := fun _ => fz 1 |}.
Definition resz {F : Fld} (r : Res (list F * bool)) : Res (list Z * bool) :=
  match r with Ok (l, b) => Ok (zs l, b) | Err => Err | Panic => Panic | OutOfFuel => OutOfFuel end.
Example C02_instance : validate _ c02_rc = true /\ resz (eval_root _ o7 c02_rc [fz 1; fz 2]) = Ok ([4; 4]%Z, true)
  /\ resz (eval_root _ o7 c02_rc [fz 0; fz 2]) = Err.
Proof. repeat split; vm_compute; reflexivity. Qed.

(* ======================= C03: the call-graph check of validate ======================= *)
(* "circuit u calls circuit v" *)
Definition calls_circuit {F s} (rc : RootCircuit (irc_of F s)) (u v : nat) : Prop :=
  exists c i args n, lookup u (circuits rc) = Some c /\ In i (instructions c) /\ i_call i = Some (v, args, n).
Theorem C03_call_graph : forall F s (rc : RootCircuit (irc_of F s)),
  NoDup (keys (circuits rc)) ->
  (forall u v, calls_circuit rc u v -> In v (keys (circuits rc))) ->
  exists order ok, topo_order_and_is_dag (graph_vertices _ rc) (graph_edges _ rc) = Some (order, ok) /\
    (ok = true <-> forall u, ~ clos_trans nat (calls_circuit rc) u u) /\
    (ok = true -> Permutation order (keys (circuits rc)) /\
       forall j v u, nth_error order j = Some v -> calls_circuit rc u v -> In u (firstn j order)).
Proof.
  intros F s rc Hk Hin.
  assert (He : forall u v, edge (graph_edges _ rc) u v <-> calls_circuit rc u v).
  { intros u v. rewrite edge_iff by auto. split.
    - intros [c [Hc Hv]]. apply calls_in in Hv. destruct Hv as [i [l [n [Hi Ei]]]]. exists c, i, l, n; auto.
    - intros [c [i [l [n [Hc [Hi Ei]]]]]]. exists c; split; auto. eapply in_calls; eauto. }
  assert (Hok : graph_ok (graph_vertices _ rc) (graph_edges _ rc)).
  { apply graph_ok_of; auto. intros id c Hc o Ho. apply (Hin id). apply He. apply edge_iff; eauto. }
  destruct (topo_dag_spec _ _ Hok) as [q [b [H1 [H2 H3]]]].
  exists q, b. split; auto. split.
  - assert (M : forall (R R' : nat -> nat -> Prop), (forall u v, R u v -> R' u v) -> forall u v, clos_trans nat R u v -> clos_trans nat R' u v).
    { intros R R' HR u v Hc. induction Hc as [a b0 Hab|a b0 c0 _ IH1 _ IH2]; [apply t_step; auto|exact (t_trans _ _ _ _ _ IH1 IH2)]. }
    rewrite H2. unfold acyclic. split; intros H u Hu; apply (H u); revert Hu; apply M; intros ? ?; apply He.
  - intros Hb. destruct (H3 Hb) as [P1 P2]. split; auto. intros j v u Hj Hu. eapply P2; eauto. apply He; auto.
Qed.
Print Assumptions C03_call_graph.

(* ======================= C10 ======================= *)
Section C10.
  Variable F : Fld.
  Add Field Fc10 : (fth F).
  Local Open Scope Z_scope.
  (* bit i of x, as a field element *)
  Definition bit (x : F) (i : nat) : F := ofZ ((toZ x / 2 ^ Z.of_nat i) mod 2).
  (* sum of 2^i * l[i] in the field *)
  Fixpoint recombine (l : list F) : F := match l with [] => f0 | b :: l => fadd b (fmul (ofZ 2) (recombine l)) end.

  Theorem C10_succeeds_iff_fits : forall (x : F) n, (exists l, to_binary x n = Some l) <-> toZ x < 2 ^ Z.of_nat n.
  Proof.
    intros x n. rewrite to_binary_spec. destruct (Z.ltb_spec (toZ x) (2 ^ Z.of_nat n)); split; intros; eauto; try lia.
    destruct H0; discriminate.
  Qed.
  Theorem C10_low_bits_first : forall (x : F) n l, to_binary x n = Some l ->
    l = map (bit x) (seq 0 n) /\ Forall (fun b => b = f0 \/ b = f1) l /\ recombine l = x.
  Proof.
    intros x n l. rewrite to_binary_spec. destruct (Z.ltb_spec (toZ x) (2 ^ Z.of_nat n)) as [H|H]; [|discriminate].
    intros E. injection E as <-. split; [|split].
    - unfold bits_of, bit. rewrite map_map. auto.
    - apply Forall_forall. intros b Hb. apply in_map_iff in Hb. destruct Hb as [z [<- Hz]].
      pose proof (bits_of_01 (toZ x) n) as G. rewrite Forall_forall in G. destruct (G z Hz) as [-> | ->]; rewrite ?ofZ_0, ?ofZ_1; auto.
    - change recombine with (@from_bits F). rewrite from_bits_ofZ, of_bits_bits by (destruct (toZ_range F x); lia). apply ofZ_toZ.
  Qed.
  Theorem C10_unique : forall n (l l' : list F), 2 ^ Z.of_nat n <= fmod F -> length l = n -> length l' = n ->
    Forall (fun b => b = f0 \/ b = f1) l -> Forall (fun b => b = f0 \/ b = f1) l' ->
    recombine l = recombine l' -> l = l'.
  Proof.
    intros n l l' Hn Hl Hl' Hb Hb' E.
    assert (Hex : forall l : list F, Forall (fun b => b = f0 \/ b = f1) l ->
      exists z, l = map (fun b => ofZ b) z /\ Forall (fun b => b = 0 \/ b = 1) z /\ length z = length l).
    { induction l0 as [|b l0 IH]; intros H; [exists []; auto|]. inversion H as [|? ? Hb0 Hr]; subst. destruct (IH Hr) as [z [-> [Hz Hlen]]].
      destruct Hb0 as [-> | ->]; [exists (0 :: z)|exists (1 :: z)]; cbn [map length]; rewrite ?ofZ_0, ?ofZ_1; repeat split; auto. }
    destruct (Hex l Hb) as [z [-> [Hz Hzl]]]. destruct (Hex l' Hb') as [z' [-> [Hz' Hzl']]].
    change recombine with (@from_bits F) in E. rewrite !from_bits_ofZ in E.
    pose proof (of_bits_range z Hz) as R. pose proof (of_bits_range z' Hz') as R'. rewrite map_length in Hl, Hl'. rewrite Hl in R. rewrite Hl' in R'.
    assert (Ez : of_bits z = of_bits z').
    { apply (f_equal toZ) in E. rewrite !toZ_ofZ in E. rewrite !Z.mod_small in E by lia. auto. }
    f_equal. assert (Hll : length z = length z') by congruence. clear -Hz Hz' Hll Ez. revert z' Hz' Hll Ez.
    induction Hz as [|b z Hb Hz IH]; intros [|b' z'] Hz' Hll Ez; try discriminate; auto.
    inversion Hz' as [|? ? Hb' Hz2]; subst. cbn [length of_bits] in *. injection Hll as Hll.
    assert (b = b' /\ of_bits z = of_bits z') as [-> E2] by lia. f_equal. apply IH; auto.
  Qed.
End C10.
Print Assumptions C10_unique.
(* at 2^n > p uniqueness fails: over the 31-bit Mersenne field zero has two 31-bit decompositions *)
Theorem C10_unique_refuted : exists n (l l' : list M31), length l = n /\ length l' = n /\
  Forall (fun b => b = f0 \/ b = f1) l /\ Forall (fun b => b = f0 \/ b = f1) l' /\ recombine _ l = recombine _ l' /\ l <> l'.
Proof.
  exists 31, (repeat f0 31), (repeat f1 31). split; [reflexivity|]. split; [reflexivity|].
  split; [apply Forall_forall; intros x Hx; apply repeat_spec in Hx; auto|].
  split; [apply Forall_forall; intros x Hx; apply repeat_spec in Hx; auto|].
  split.
  - rewrite <- (ofZ_toZ _ (recombine _ (repeat f0 31))), <- (ofZ_toZ _ (recombine _ (repeat f1 31))). f_equal.
  - intros H. apply (f_equal (fun l => toZ (hd f0 l))) in H. vm_compute in H. discriminate.
Qed.
Example C10_instance : option_map zs (to_binary (F := F101) (fz 77) 7) = Some [1; 0; 1; 1; 0; 0; 1]%Z /\ option_map zs (to_binary (F := F101) (fz 77) 6) = None
  /\ (2 ^ Z.of_nat 6 <= fmod F101)%Z.
Proof. repeat split; vm_compute; congruence || reflexivity. Qed.

(* ======================= C11 ======================= *)
Section C11.
  Variable F : Fld.
  Add Field Fc11 : (fth F).
  Local Open Scope Z_scope.
  Definition truth (b : F) (P : Prop) : Prop := (P /\ b = f1) \/ (~ P /\ b = f0).
  (* x * x * ... * x, k factors *)
  Fixpoint power (x : F) (k : nat) : F := match k with O => f1 | S k => fmul x (power x k) end.
  (* number of binary digits of the modulus *)
  Definition is_bitlen (b : Z) : Prop := 0 < b /\ 2 ^ (b - 1) <= fmod F < 2 ^ b.
  (* circom's shifts: a count above p/2 is a negative count, i.e. a shift by p - k in the other direction *)
  Definition left_shift (x k r : Z) : Prop := forall b, is_bitlen b -> r = (x * 2 ^ k) mod 2 ^ b.
  Definition right_shift (x k r : Z) : Prop := r = x / 2 ^ k.

  (* the documented function of each hint *)
  Definition documented (h : Builtin) (n : nat) (args outs : list F) : Prop :=
    match h, args with
    | HIdentity, _ => outs = args
    | HSelect, [c; x; y] => exists z, outs = [z] /\ ((c <> f0 /\ z = x) \/ (c = f0 /\ z = y))
    | HToBinary, [x] => toZ x < 2 ^ Z.of_nat n /\ outs = map (bit F x) (seq 0 n)
    | _, [x; y] => exists z, outs = [z] /\
        match h with
        | HDiv => (y = f0 /\ z = f0) \/ (y <> f0 /\ fmul z y = x)
        | HEq => truth z (x = y)
        | HNotEq => truth z (x <> y)
        | HBoolOr => truth z (x <> f0 \/ y <> f0)
        | HBoolAnd => truth z (x <> f0 /\ y <> f0)
        | HBitOr => z = ofZ (Z.lor (toZ x) (toZ y))
        | HBitAnd => z = ofZ (Z.land (toZ x) (toZ y))
        | HBitXor => z = ofZ (Z.lxor (toZ x) (toZ y))
        | HPow => z = power x (Z.to_nat (toZ y))
        | HIntDiv => (y = f0 /\ z = f0) \/ (y <> f0 /\ toZ z = toZ x / toZ y)
        | HMod => (y = f0 /\ z = f0) \/ (y <> f0 /\ toZ z = toZ x mod toZ y)
        | HShiftL => exists r, z = ofZ r /\ (2 * toZ y <= fmod F /\ left_shift (toZ x) (toZ y) r \/
                                             fmod F < 2 * toZ y /\ right_shift (toZ x) (fmod F - toZ y) r)
        | HShiftR => exists r, z = ofZ r /\ (2 * toZ y <= fmod F /\ right_shift (toZ x) (toZ y) r \/
                                             fmod F < 2 * toZ y /\ left_shift (toZ x) (fmod F - toZ y) r)
        | HLesserEq => truth z (toZ x <= toZ y)
        | HGreaterEq => truth z (toZ x >= toZ y)
        | HLesser => truth z (toZ x < toZ y)
        | HGreater => truth z (toZ x > toZ y)
        | _ => False
        end
    | _, _ => False
    end.

  Lemma truth_fbool b P : (b = true <-> P) -> truth (fbool b) P.
  Proof. intros H. unfold truth, fbool. destruct b. left; split; auto; apply H; auto. right; split; auto. intros HP. apply H in HP. discriminate. Qed.
  Lemma nz_spec (x : F) : nz x = true <-> x <> f0.
  Proof. unfold nz. rewrite negb_true_iff. unfold is0. apply feqb_false. Qed.
  Lemma nz_spec' (x : F) : nz x = false <-> x = f0.
  Proof. unfold nz. rewrite negb_false_iff. apply is0_spec. Qed.
  Lemma toZ_0 : @toZ F f0 = 0.
  Proof. rewrite <- ofZ_0, toZ_ofZ. apply Z.mod_small. pose proof (toZ_range F f0). lia. Qed.
  Lemma toZ_eq0 (x : F) : toZ x = 0 <-> x = f0.
  Proof. split; intros H. rewrite <- (ofZ_toZ F x), H. apply ofZ_0. subst; apply toZ_0. Qed.
  Lemma is_bitlen_spec b : 1 < fmod F -> is_bitlen b -> b = bit_length (fmod F).
  Proof.
    intros H1 [H0 H]. unfold bit_length. destruct (Z.eqb_spec (fmod F) 0); [lia|].
    assert (Z.log2 (fmod F) = b - 1); [|lia]. apply Z.log2_unique; [lia|]. replace (Z.succ (b - 1)) with b by lia. auto.
  Qed.
  Lemma fmod_gt1 : 1 < fmod F.
  Proof.
    pose proof (toZ_range F f1). pose proof (f1_neq_f0 F) as H1. destruct (Z_lt_dec 1 (fmod F)) as [|H2]; auto. exfalso; apply H1.
    pose proof (toZ_range F f0). rewrite <- (ofZ_toZ F f1), <- (ofZ_toZ F f0). f_equal. lia.
  Qed.

  (* whenever validate accepts the arity, the hint succeeds (to_binary: iff the value fits) with the documented result;
     every supported field has less than 2^254 elements *)
  Theorem C11_builtin_hints : forall h n (args : list F), fmod F < 2 ^ 254 ->
    validate_builtin_hint h (length args) n = true ->
    (forall outs, impl_builtin_hint h n args = Some outs -> documented h n args outs /\ length outs = n) /\
    (h <> HToBinary -> exists outs, impl_builtin_hint h n args = Some outs).
  Proof.
    intros h n args Hp Hv. pose proof fmod_gt1 as Hp1.
    assert (HshL : forall x k : F, shift_l (F := F) (toZ x) (toZ k) = Some (if toZ k <=? fmod F / 2 then shl_direct (F := F) (toZ x) (toZ k) else shr_direct (F := F) (toZ x) (fmod F - toZ k))).
    { intros x k. unfold shift_l. destruct (Z.leb_spec (toZ k) (fmod F / 2)); auto.
      destruct (Z.leb_spec (fmod F - toZ k) (fmod F / 2)) as [|H1]; auto.
      pose proof (Z.div_mod (fmod F) 2 ltac:(lia)). pose proof (Z.mod_pos_bound (fmod F) 2 ltac:(lia)). lia. }
    assert (HshR : forall x k : F, shift_r (F := F) (toZ x) (toZ k) = Some (if toZ k <=? fmod F / 2 then shr_direct (F := F) (toZ x) (toZ k) else shl_direct (F := F) (toZ x) (fmod F - toZ k))).
    { intros x k. unfold shift_r. destruct (Z.leb_spec (toZ k) (fmod F / 2)); auto.
      destruct (Z.leb_spec (fmod F - toZ k) (fmod F / 2)) as [|H1]; auto.
      pose proof (Z.div_mod (fmod F) 2 ltac:(lia)). pose proof (Z.mod_pos_bound (fmod F) 2 ltac:(lia)). lia. }
    assert (Htop : forall k : F, (toZ k <= fmod F / 2 <-> 2 * toZ k <= fmod F)).
    { intros k. pose proof (Z.div_mod (fmod F) 2 ltac:(lia)). pose proof (Z.mod_pos_bound (fmod F) 2 ltac:(lia)). lia. }
    assert (Hlen : forall a b : nat, (Nat.eqb (length args) a && Nat.eqb n b) = true -> length args = a /\ n = b).
    { intros a b H. apply andb_true_iff in H. destruct H as [H1 H2]. apply Nat.eqb_eq in H1, H2. auto. }
    destruct h; cbn [validate_builtin_hint] in Hv;
      try (apply Hlen in Hv; destruct Hv as [Ha ->]; destruct args as [|x [|y [|w [|? ?]]]]; try discriminate; clear Ha;
           cbn [impl_builtin_hint binop_hint obind on_u256]; unfold on_u256; cbn [obind]; try rewrite HshL; try rewrite HshR; cbn [obind];
           split; [|eauto]; intros outs Ho; injection Ho as <-; split; [|reflexivity]; cbn [documented]; eexists; split; [reflexivity|]; auto;
           try (apply truth_fbool)).
    - (* identity *) apply andb_true_iff in Hv. destruct Hv as [H1 _]. apply Nat.eqb_eq in H1. subst n. cbn [impl_builtin_hint documented].
      split; [|eauto]. intros outs Ho; injection Ho as <-. rewrite firstn_all. auto.
    - destruct (is0 F y) eqn:E; [left; apply is0_spec in E; auto|right]. assert (y <> f0) by (apply feqb_false; auto).
      split; auto. transitivity (fmul x (fmul (finv y) y)); [ring|]. rewrite finv_l; auto. ring.
    - apply feqb_spec.
    - rewrite negb_true_iff. apply feqb_false.
    - rewrite orb_true_iff, !nz_spec. reflexivity.
    - rewrite andb_true_iff, !nz_spec. reflexivity.
    - destruct (nz x) eqn:E; [left; apply nz_spec in E; auto | right; apply nz_spec' in E; auto].
    - rewrite pow_impl_spec. induction (Z.to_nat (toZ y)) as [|k IH]; cbn [fpow power]; auto. all: congruence.
    - destruct (Z.eqb_spec (toZ y) 0) as [E|E]; [left; apply toZ_eq0 in E; rewrite ofZ_0; auto|right].
      split; [intros H; apply E; apply toZ_eq0; auto|]. rewrite toZ_ofZ. destruct (toZ_range F x), (toZ_range F y).
      apply Z.mod_small. split; [apply Z.div_pos; lia|]. apply Z.le_lt_trans with (toZ x); auto. apply Z.div_le_upper_bound; nia.
    - destruct (Z.eqb_spec (toZ y) 0) as [E|E]; [left; apply toZ_eq0 in E; rewrite ofZ_0; auto|right].
      split; [intros H; apply E; apply toZ_eq0; auto|]. rewrite toZ_ofZ. destruct (toZ_range F x), (toZ_range F y).
      apply Z.mod_small. pose proof (Z.mod_pos_bound (toZ x) (toZ y) ltac:(lia)). lia.
    - eexists; split; [reflexivity|]. destruct (toZ_range F x), (toZ_range F y). destruct (Z.leb_spec (toZ y) (fmod F / 2)) as [H3|H3].
      + left. split; [apply Htop; auto|]. intros b Hb. apply is_bitlen_spec in Hb; auto. subst b. apply shl_direct_spec; auto; lia.
      + right. split; [destruct (Z_lt_dec (fmod F) (2 * toZ y)); auto; assert (toZ y <= fmod F / 2) by (apply Htop; lia); lia|].
        apply shr_direct_spec; auto; lia.
    - eexists; split; [reflexivity|]. destruct (toZ_range F x), (toZ_range F y). destruct (Z.leb_spec (toZ y) (fmod F / 2)) as [H3|H3].
      + left. split; [apply Htop; auto|]. apply shr_direct_spec; auto; lia.
      + right. split; [destruct (Z_lt_dec (fmod F) (2 * toZ y)); auto; assert (toZ y <= fmod F / 2) by (apply Htop; lia); lia|].
        intros b Hb. apply is_bitlen_spec in Hb; auto. subst b. apply shl_direct_spec; auto; lia.
    - apply Z.leb_le.
    - rewrite Z.leb_le. lia.
    - apply Z.ltb_lt.
    - rewrite Z.ltb_lt. lia.
    - (* to_binary *) apply andb_true_iff in Hv. destruct Hv as [H1 _]. apply Nat.eqb_eq in H1. destruct args as [|x [|? ?]]; try discriminate.
      cbn [impl_builtin_hint documented]. split; [|congruence]. intros outs Ho. pose proof (C10_low_bits_first F x n outs Ho) as [G _].
      split; [split; auto; apply C10_succeeds_iff_fits; eauto|]. rewrite G, map_length, seq_length. auto.
  Qed.
  (* the in-circuit unconstrained operation and its hint give the same value whenever the operation succeeds; the
     operation fails exactly on a zero divisor *)
  Theorem C11_unconstrained_ops : forall op (x y : F),
    (forall z, unop_eval op x y = Some z -> impl_builtin_hint (op_hint op) 1 [x; y] = Some [z]) /\
    (fmod F < 2 ^ 254 -> (unop_eval op x y = None <-> y = f0 /\ In op [UDiv; UIntDiv; UMod])).
  Proof.
    intros op x y. pose proof fmod_gt1 as Hp1.
    assert (Hb : forall b, ofZ (Z.b2z b) = fbool (F := F) b) by (intros []; [apply ofZ_1|apply ofZ_0]).
    assert (Hd : forall f : Z -> Z -> Z, on_u256 (F := F) (fun a b => if b =? 0 then None else Some (f a b)) x y = None <-> y = f0).
    { intros f. unfold on_u256. destruct (Z.eqb_spec (toZ y) 0) as [E|E]; cbn; split; intros H; try discriminate; auto.
      apply toZ_eq0; auto. exfalso; apply E; apply toZ_eq0; auto. }
    split.
    - destruct op; cbn [unop_eval op_hint impl_builtin_hint binop_hint]; unfold on_u256; cbn [obind]; intros z H; try (injection H as <-; rewrite ?Hb; reflexivity).
      + destruct (is0 F y); [discriminate|]. injection H as <-. reflexivity.
      + destruct (toZ y =? 0); [discriminate|]. cbn in *. injection H as <-. reflexivity.
      + destruct (toZ y =? 0); [discriminate|]. cbn in *. injection H as <-. reflexivity.
      + destruct (shift_l _ _); [|discriminate]. cbn in *. injection H as <-. reflexivity.
      + destruct (shift_r _ _); [|discriminate]. cbn in *. injection H as <-. reflexivity.
    - intros Hp. assert (Hsh : forall k : F, toZ k <=? fmod F / 2 = false -> fmod F - toZ k <=? fmod F / 2 = true).
      { intros k H. apply Z.leb_gt in H. apply Z.leb_le.
        pose proof (Z.div_mod (fmod F) 2 ltac:(lia)). pose proof (Z.mod_pos_bound (fmod F) 2 ltac:(lia)). lia. }
      assert (Hno : forall P : Prop, ~ In op [UDiv; UIntDiv; UMod] -> (Some f0 = @None F -> P) /\ (y = f0 /\ In op [UDiv; UIntDiv; UMod] -> P)) by (intros; split; [discriminate|tauto]).
      destruct op; cbn [unop_eval];
        try (unfold on_u256; cbn [obind]; split; [discriminate|intros [_ H]; cbn in H; decompose [or] H; try discriminate; contradiction]).
      + destruct (is0 F y) eqn:E; split; intros H; try discriminate. apply is0_spec in E; subst; cbn; auto. auto.
        destruct H as [-> _]. unfold is0 in E. rewrite feqb_refl in E. discriminate.
      + rewrite Hd. cbn. tauto.
      + rewrite Hd. cbn. tauto.
      + unfold on_u256, shift_l. destruct (toZ y <=? fmod F / 2) eqn:E; [|rewrite (Hsh _ E)]; cbn [obind];
          (split; [discriminate|intros [_ H]; cbn in H; decompose [or] H; try discriminate; contradiction]).
      + unfold on_u256, shift_r. destruct (toZ y <=? fmod F / 2) eqn:E; [|rewrite (Hsh _ E)]; cbn [obind];
          (split; [discriminate|intros [_ H]; cbn in H; decompose [or] H; try discriminate; contradiction]).
  Qed.
End C11.
Print Assumptions C11_builtin_hints.
Example C11_instance : option_map zs (impl_builtin_hint (F := F101) HShiftR 1 [fz 77; fz 2]) = Some [19]%Z
  /\ option_map zs (impl_builtin_hint (F := F101) HShiftL 1 [fz 77; fz 99]) = Some [19]%Z
  /\ option_map zs (impl_builtin_hint (F := F101) HIntDiv 1 [fz 77; fz 0]) = Some [0]%Z
  /\ option_map zs (impl_builtin_hint (F := F101) HPow 1 [fz 2; fz 10]) = Some [14]%Z /\ (fmod F101 < 2 ^ 254)%Z
  /\ validate_hint (builtin_id HPow) 2 1 = true.
Proof. repeat split; vm_compute; reflexivity. Qed.

(* ======================= C39 ======================= *)
(* The instances executed by a run form a tree (IrFacts.tree); the root's verdict is true exactly when every constraint of
   every instance holds there and the required zero outputs are zero. *)
Theorem C39_verdict : forall F s (E : Env F) (rc : RootCircuit (irc_of F s)) ins outs b,
  root_run _ E rc ins outs b <->
  exists c all t, lookup 0 (circuits rc) = Some c /\ length ins = num_inputs c /\
    tree _ E (circuits rc) t 0 ins all /\ (expected_num_output_zeroes rc <= length all)%nat /\
    outs = skipn (expected_num_output_zeroes rc) all /\
    (b = true <->
       (forall id vals c', In (id, vals) (instances t) -> lookup id (circuits rc) = Some c' ->
          forall k, In k (constraints c') -> c_verify k (getv vals (c_var k)) = true) /\
       (forall v, In v (firstn (expected_num_output_zeroes rc) all) -> v = f0)).
Proof.
  intros F s E rc ins outs b. unfold root_run.
  assert (Hin : forall t id ins outs, tree (irc_of F s) E (circuits rc) t id ins outs ->
    forall p, In p (instances t) -> exists c', lookup (fst p) (circuits rc) = Some c').
  { apply (tree_mut (irc_of F s) E (circuits rc)
      (fun is vals vals' ts _ => forall p, In p (flat_map instances ts) -> exists c', lookup (fst p) (circuits rc) = Some c')
      (fun t id ins outs _ => forall p, In p (instances t) -> exists c', lookup (fst p) (circuits rc) = Some c')); intros; auto.
    - destruct H.
    - cbn [flat_map] in H1. apply in_app_or in H1. destruct H1; auto.
    - cbn [instances] in H0. destruct H0 as [<-|H0]; eauto. }
  assert (Hok : forall t, (forall p, In p (instances t) -> exists c', lookup (fst p) (circuits rc) = Some c') ->
    (forallb (inst_ok _ (circuits rc)) (instances t) = true <->
     forall id vals c', In (id, vals) (instances t) -> lookup id (circuits rc) = Some c' ->
          forall k, In k (constraints c') -> c_verify k (getv vals (c_var k)) = true)).
  { intros t Ht. rewrite forallb_forall. split.
    - intros H id vals c' Hi Hc k Hk. specialize (H _ Hi). unfold inst_ok in H. cbn [fst snd] in H. rewrite Hc in H.
      rewrite forallb_forall in H. auto.
    - intros H [id vals] Hi. destruct (Ht _ Hi) as [c' Hc]. cbn [fst] in Hc. unfold inst_ok. cbn [fst snd]. rewrite Hc.
      apply forallb_forall. intros k Hk. eapply H; eauto. }
  assert (Hz : forall l : list F, forallb (is0 F) l = true <-> forall v, In v l -> v = f0).
  { intros l. rewrite forallb_forall. split; intros H v Hv; apply is0_spec; auto. }
  split.
  - intros [c [all [b0 [Hc [Hl [Hr [Hle [-> ->]]]]]]]]. apply verdict_tree in Hr.
    destruct Hr as [t [Ht ->]]. exists c, all, t.
    do 5 (split; [auto|]). rewrite andb_true_iff, Hz, Hok; [reflexivity|]. eapply Hin; eauto.
  - intros [c [all [t [Hc [Hl [Ht [Hle [-> Hb]]]]]]]]. exists c, all, (forallb (inst_ok _ (circuits rc)) (instances t)).
    repeat split; auto.
    + apply verdict_tree. eauto.
    + apply eq_true_iff_eq. rewrite Hb, andb_true_iff, Hz, Hok; [reflexivity|]. eapply Hin; eauto.
Qed.
Print Assumptions C39_verdict.
(* and the evaluator computes this verdict *)
Theorem C39_evaluator : forall F s (O : Oracle F) (rc : RootCircuit (irc_of F s)) ins outs b,
  eval_root _ O rc ins = Ok (outs, b) -> root_run _ (env_of O) rc ins outs b.
Proof. intros F s O rc ins outs b. apply eval_root_run. apply irc_laws. Qed.
Lemma resz_ok (F : Fld) (r : Res (list F * bool)) l b : resz r = Ok (l, b) -> r = Ok (map fz l, b).
Proof. destruct r as [[l' b']| | |]; try discriminate. cbn. intros H. injection H as <- <-. do 2 f_equal. apply zs_eq; auto. Qed.
Example C39_instance : root_run _ (env_of o7) c02_rc [fz 1; fz 2] (map fz [4; 4]%Z) true.
Proof. apply C39_evaluator. apply resz_ok; vm_compute; reflexivity. Qed.
Example C39_instance_violated : root_run _ (env_of o7) c02_rc [fz 1; fz 0] (map fz [3; 3]%Z) false.
Proof. apply C39_evaluator. apply resz_ok; vm_compute; reflexivity. Qed.
