(* Model of circuit/ir/source/chains.rs: merging chains of additions and of multiplications. *)
From Verif Require Import Prelude Field Expr Topo Hints Ir IrFacts IrInst Sim LocalPass.

Section Chains.
  Context {F : Fld}.
  Add Field Fdc : (fth F).
  Notation SI := (SrcI F).
  Notation SInsn := (SInsn F).
  Definition is_lin (i : SInsn) : bool := match i with SLin _ => true | _ => false end.
  Definition is_mul (i : SInsn) : bool := match i with SMul _ => true | _ => false end.

  (* ---------------------------------------------------------------- model *)
  (* chains.rs:14-16, 31-36: insn_ref_count[var_insn_id[x]] += 1 for each x *)
  Fixpoint dc_refs (vid : list nat) (xs : list nat) (cnt : list nat) : option (list nat) :=
    match xs with
    | [] => Some cnt
    | x :: xs => let* k := nth_error vid x in let* c := nth_error cnt k in dc_refs vid xs (upd cnt k (S c))
    end.
  (* chains.rs:13-30 *)
  Fixpoint dc_scan (k : nat) (is : list SInsn) (vid cnt : list nat) (add mul : list bool) : option (list nat * list nat * list bool * list bool) :=
    match is with
    | [] => Some (vid, cnt, add, mul)
    | i :: is =>
        let* cnt := dc_refs vid (s_inputs F i) cnt in
        let vid := vid ++ repeat k (s_nout F i) in
        let add := if is_lin i then upd add k true else add in
        let mul := if is_mul i then upd mul k true else mul in
        dc_scan (S k) is vid cnt add mul
    end.

  Section Loops.
    Variables (vid cnt : list nat) (add mul : list bool).
    (* chains.rs:42-51, 95-104: is any operand the only user of its instruction? *)
    Fixpoint dc_flag (xs : list nat) : option bool :=
      match xs with
      | [] => Some false
      | x :: xs => let* k := nth_error vid x in let* c := nth_error cnt k in if c =? 1 then Some true else dc_flag xs
      end.
    (* chains.rs:82-87, 124-129: swap so that the longer one comes first, then append *)
    Fixpoint dc_join {A} (ts : list A) (vecs : list (list A)) : list A :=
      match vecs with
      | [] => ts
      | v :: vecs => dc_join (if length ts <? length v then v ++ ts else ts ++ v) vecs
      end.
    (* chains.rs:53-80 *)
    Fixpoint dc_terms (ts : list (nat * F)) (is : list SInsn) (const : F) (rem : list (nat * F)) (lcs : list (list (nat * F)))
        : option (list SInsn * F * list (nat * F) * list (list (nat * F))) :=
      match ts with
      | [] => Some (is, const, rem, lcs)
      | (x, co) :: ts =>
          let* k := nth_error vid x in let* a := nth_error add k in let* c := nth_error cnt k in
          if a && (c =? 1) then
            match nth_error is k with
            | Some (SLin l) =>
                let const := if is0 F (lc_const l) then const else fadd const (fmul (lc_const l) co) in
                let taken := if feqb co f1 then lc_terms l else map (fun y => (fst y, fmul co (snd y))) (lc_terms l) in
                dc_terms ts (upd is k (SLin {| lc_terms := []; lc_const := lc_const l |})) const rem (lcs ++ [taken])
            | _ => None                                                     (* unreachable!() *)
            end
          else dc_terms ts is const (rem ++ [(x, co)]) lcs
      end.
    (* chains.rs:37-90 for one i *)
    Definition dc_add1 (i : nat) (is : list SInsn) : option (list SInsn) :=
      let* a := nth_error add i in
      if a then
        match nth_error is i with
        | Some (SLin l) =>
            let* flag := dc_flag (map fst (lc_terms l)) in
            if flag : bool then
              let* (is, const, rem, lcs) := dc_terms (lc_terms l) is (lc_const l) [] [] in
              Some (upd is i (SLin {| lc_terms := dc_join rem lcs; lc_const := const |}))
            else Some is
        | _ => None
        end
      else Some is.
    (* chains.rs:108-122 *)
    Fixpoint dc_vars (xs : list nat) (is : list SInsn) (rem : list nat) (vs : list (list nat)) : option (list SInsn * list nat * list (list nat)) :=
      match xs with
      | [] => Some (is, rem, vs)
      | x :: xs =>
          let* k := nth_error vid x in let* m := nth_error mul k in let* c := nth_error cnt k in
          if m && (c =? 1) then
            match nth_error is k with
            | Some (SMul l) => dc_vars xs (upd is k (SMul [])) rem (vs ++ [l])
            | _ => None
            end
          else dc_vars xs is (rem ++ [x]) vs
      end.
    (* chains.rs:91-131 for one i *)
    Definition dc_mul1 (i : nat) (is : list SInsn) : option (list SInsn) :=
      let* m := nth_error mul i in
      if m then
        match nth_error is i with
        | Some (SMul l) =>
            let* flag := dc_flag l in
            if flag : bool then
              let* (is, rem, vs) := dc_vars l is [] [] in
              Some (upd is i (SMul (dc_join rem vs)))
            else Some is
        | _ => None
        end
      else Some is.
    Fixpoint dc_loop (f : nat -> list SInsn -> option (list SInsn)) (idx : list nat) (is : list SInsn) : option (list SInsn) :=
      match idx with [] => Some is | i :: idx => let* is := f i is in dc_loop f idx is end.
  End Loops.
  (* chains.rs:8-132 *)
  Definition dc_circuit (c : Circuit SI) : option (Circuit SI) :=
    let is := instructions c : list SInsn in
    let n := length is in
    let* (vid, cnt, add, mul) := dc_scan 0 is (repeat n (S (num_inputs c))) (repeat 0 (S n)) (repeat false (S n)) (repeat false (S n)) in
    let* cnt := dc_refs vid (outputs c) cnt in
    let* cnt := dc_refs vid (map snd (constraints c : list (ConType * nat))) cnt in
    let* is1 := dc_loop (dc_add1 vid cnt add) (seq 0 n) is in
    let* is2 := dc_loop (dc_mul1 vid cnt mul) (seq 0 n) is1 in
    Some {| instructions := is2 : list (Insn SI); constraints := constraints c; outputs := outputs c; num_inputs := num_inputs c |}.
  (* chains.rs:137-141 *)
  Definition detect_chains (rc : RootCircuit SI) : option (RootCircuit SI) := local_pass SI SI dc_circuit rc.

  (* ---------------------------------------------------------------- one merge *)
  (* two value lists that differ at v at most *)
  Definition exc (v : nat) (a b : list F) : Prop := length a = length b /\ forall x, x <> v -> getv a x = getv b x.
  Lemma exc_sym v a b : exc v a b -> exc v b a.
  Proof. intros [H1 H2]. split; auto. intros x Hx. symmetry; auto. Qed.
  Lemma exc_app v a b o : exc v a b -> exc v (a ++ o) (b ++ o).
  Proof.
    intros [H1 H2]. split; [rewrite !app_length; auto|]. intros x Hx. destruct (Nat.lt_ge_cases x (length a)).
    - rewrite !getv_app_l by lia. auto.
    - rewrite !getv_app_r by lia. rewrite H1. auto.
  Qed.
  Lemma exc_last v a y y' : length a = v -> exc v (a ++ [y]) (a ++ [y']).
  Proof.
    intros <-. split; [rewrite !app_length; auto|]. intros x Hx. destruct (Nat.lt_ge_cases x (length a)).
    - rewrite !getv_app_l by lia. auto.
    - unfold getv. rewrite !nth_overflow; auto; rewrite app_length; cbn; lia.
  Qed.
  Lemma step_exc E cs v (i : SInsn) a b outs c : exc v a b -> ~ In v (s_inputs F i) -> step SI E cs i a outs c -> step SI E cs i b outs c.
  Proof.
    intros [Hl He] Hv H.
    assert (Hin : forall l, ~ In v l -> Forall (inb a) l -> Forall (inb b) l) by (intros l _ Hf; eapply Forall_impl; [|exact Hf]; unfold inb; intros; cbn; lia).
    assert (Hx : forall x, In x (s_inputs F i) -> getv a x = getv b x) by (intros x Hx; apply He; intros ->; auto).
    unfold step in *. cbn [SI i_call i_inputs i_sem] in *. destruct (s_call F i) as [[[id l] n]|] eqn:Ec.
    - destruct i; inversion Ec; subst. cbn [s_inputs] in *. destruct H as [H1 H2]. split; [eauto|]. rewrite <- (map_ext_in (getv a) (getv b)); auto.
    - destruct H as [H1 [H2 H3]]. split; [eauto|]. split; auto. apply (l_sem_ext SI (SrcL F) E i (getv a)); auto.
  Qed.
  Lemma exec_exc E cs v (is : list SInsn) : ~ In v (flat_map (s_inputs F) is) -> forall a b a' c, exc v a b -> exec SI E cs is a a' c -> exists b', exec SI E cs is b b' c /\ exc v a' b'.
  Proof.
    induction is as [|i is IH]; intros Hv a b a' c He H.
    - apply exec_nil in H. destruct H as [-> ->]. exists b. split; auto. constructor.
    - cbn [flat_map] in Hv. apply exec_cons in H. destruct H as [outs [b1 [b2 [H1 [H2 ->]]]]].
      destruct (IH (fun h => Hv (in_or_app _ _ _ (or_intror h))) _ (b ++ outs) _ _ (exc_app _ _ _ _ He) H2) as [b' [H3 H4]]. exists b'. split; auto.
      apply exec_cons. exists outs, b1, b2. split; auto. eapply step_exc; eauto. intros h; apply Hv; apply in_or_app; auto.
  Qed.

  (* the instruction defining v is ip; iq is the only place using v; ip', iq' replace them *)
  Record absorbs (v : nat) (ip iq ip' iq' : SInsn) : Prop := {
    ab_p : forall E g, exists y, forall outs, s_sem F E ip g outs <-> outs = [y];
    ab_p' : forall E g, exists y, forall outs, s_sem F E ip' g outs <-> outs = [y];
    ab_call : s_call F ip = None /\ s_call F ip' = None /\ s_call F iq = None /\ s_call F iq' = None;
    ab_in' : s_inputs F ip' = [];
    ab_inq : exists a b, s_inputs F iq = a ++ v :: b /\ s_inputs F iq' = a ++ s_inputs F ip ++ b;
    ab_sem : forall E g, s_sem F E ip g [g v] -> forall outs, s_sem F E iq g outs <-> s_sem F E iq' g outs
  }.
  Variable n : nat.   (* number of inputs of the circuit *)
  Lemma absorb_fwd E cs v ip iq ip' iq' A B C ins vals b : absorbs v ip iq ip' iq' -> length ins = n -> Forall (call_wf SI cs) A -> v = S n + nouts SI A ->
    wf_insns SI (A ++ ip :: B ++ iq :: C) n ->
    ~ In v (flat_map (s_inputs F) B) -> ~ In v (flat_map (s_inputs F) C) -> ~ In v (s_inputs F iq') ->
    exec SI E cs (A ++ ip :: B ++ iq :: C) (f0 :: ins) vals b ->
    exists vals', exec SI E cs (A ++ ip' :: B ++ iq' :: C) (f0 :: ins) vals' b /\ exc v vals vals'.
  Proof.
    intros [Hp Hp' [Ec1 [Ec2 [Ec3 Ec4]]] Hi' [qa [qb [Hq Hq']]] Hs] Hl HA Hv W HB HC Hvq H.
    apply exec_app in H. destruct H as [m [b1 [b2 [H1 [H2 ->]]]]].
    apply exec_cons in H2. destruct H2 as [op [b3 [b4 [H2 [H3 ->]]]]].
    apply exec_app in H3. destruct H3 as [w [b5 [b6 [H3 [H4 ->]]]]].
    apply exec_cons in H4. destruct H4 as [oq [b7 [b8 [H4 [H5 ->]]]]].
    pose proof (exec_len SI (SrcL F) _ _ _ _ _ _ HA H1) as Hm. cbn [length] in Hm. rewrite Hl in Hm. assert (Hmv : length m = v) by lia. clear Hm.
    unfold step in H2, H4. cbn [SI i_call i_inputs i_sem] in H2, H4. rewrite Ec1 in H2. rewrite Ec3 in H4.
    destruct H2 as [I2 [S2 ->]]. destruct H4 as [I4 [S4 ->]].
    destruct (Hp E (getv m)) as [y Hy]. apply Hy in S2 as Ey. subst op.
    destruct (Hp' E (getv m)) as [y' Hy'].
    destruct (exec_exc E cs v B HB _ (m ++ [y']) _ _ (exc_last v m y y' Hmv) H3) as [w' [H3' [Lw Ew]]].
    assert (Hpre : exists t, w = (m ++ [y]) ++ t) by (eapply exec_prefix; eauto). destruct Hpre as [t Et].
    apply wf_insns_app in W. destruct W as [_ W]. cbn [wf_insns] in W. destruct W as [Wp _].
    assert (Hgv : getv w v = y). { rewrite Et. rewrite getv_app_l by (rewrite app_length; cbn; lia). rewrite getv_app_r by lia. rewrite Hmv, Nat.sub_diag. reflexivity. }
    assert (Hlt : forall x, In x (s_inputs F ip) -> x < v /\ getv m x = getv w x).
    { intros x Hx. rewrite Forall_forall in Wp. specialize (Wp x Hx). cbn beta in Wp. assert (x < length m) by lia. split; [lia|]. rewrite Et. rewrite !getv_app_l; auto. rewrite app_length; lia. }
    assert (Sp : s_sem F E ip (getv w) [getv w v]). { rewrite Hgv. apply (l_sem_ext SI (SrcL F) E ip (getv m)); [intros x Hx; apply Hlt; auto|]. apply Hy. reflexivity. }
    pose proof S4 as S4'. apply (Hs E (getv w) Sp) in S4'.
    destruct (exec_exc E cs v C HC _ (w' ++ oq) _ _ (exc_app v w w' oq (conj Lw Ew)) H5) as [u [H6 H7]].
    exists u. split; auto. apply exec_app. exists m, b1, (b5 && b8). split; auto. split; [|rewrite !andb_true_l; reflexivity].
    apply exec_cons. exists [y'], true, (b5 && b8). split. { unfold step; cbn [SI i_call i_inputs i_sem]. rewrite Ec2, Hi'. split; [constructor|]. split; auto. apply Hy'. reflexivity. }
    split; auto. apply exec_app. exists w', b5, b8. split; auto. split; auto.
    apply exec_cons. exists oq, true, b8. split; auto. unfold step; cbn [SI i_call i_inputs i_sem]. rewrite Ec4. split; [|split; auto].
    - rewrite Hq'. rewrite Hq in I4. apply Forall_forall. intros x Hx. unfold inb. rewrite <- Lw. apply in_app_or in Hx. rewrite Forall_forall in I4. unfold inb in I4.
      assert (Hvw : v < length w) by (rewrite Et, !app_length; cbn; lia).
      destruct Hx as [Hx|Hx]; [apply I4; apply in_or_app; auto|]. apply in_app_or in Hx. destruct Hx as [Hx|Hx]; [apply Hlt in Hx; lia|]. apply I4; apply in_or_app; right; right; auto.
    - apply (l_sem_ext SI (SrcL F) E iq' (getv w)); auto. intros x Hx. apply Ew. intros ->. auto.
  Qed.
  Lemma absorb_bwd E cs v ip iq ip' iq' A B C ins vals b : absorbs v ip iq ip' iq' -> length ins = n -> Forall (call_wf SI cs) A -> v = S n + nouts SI A ->
    wf_insns SI (A ++ ip :: B ++ iq :: C) n -> s_nout F ip = 1 -> s_nout F ip' = 1 ->
    ~ In v (flat_map (s_inputs F) B) -> ~ In v (flat_map (s_inputs F) C) -> ~ In v (s_inputs F iq') ->
    exec SI E cs (A ++ ip' :: B ++ iq' :: C) (f0 :: ins) vals b ->
    exists vals', exec SI E cs (A ++ ip :: B ++ iq :: C) (f0 :: ins) vals' b /\ exc v vals vals'.
  Proof.
    intros [Hp Hp' [Ec1 [Ec2 [Ec3 Ec4]]] Hi' [qa [qb [Hq Hq']]] Hs] Hl HA Hv W Ho Ho' HB HC Hvq H.
    apply exec_app in H. destruct H as [m [b1 [b2 [H1 [H2 ->]]]]].
    apply exec_cons in H2. destruct H2 as [op [b3 [b4 [H2 [H3 ->]]]]].
    apply exec_app in H3. destruct H3 as [w [b5 [b6 [H3 [H4 ->]]]]].
    apply exec_cons in H4. destruct H4 as [oq [b7 [b8 [H4 [H5 ->]]]]].
    pose proof (exec_len SI (SrcL F) _ _ _ _ _ _ HA H1) as Hm. cbn [length] in Hm. rewrite Hl in Hm. assert (Hmv : length m = v) by lia. clear Hm.
    unfold step in H2, H4. cbn [SI i_call i_inputs i_sem] in H2, H4. rewrite Ec2 in H2. rewrite Ec4 in H4.
    destruct H2 as [I2 [S2 ->]]. destruct H4 as [I4 [S4 ->]].
    destruct (Hp' E (getv m)) as [y' Hy']. apply Hy' in S2 as Ey. subst op.
    destruct (Hp E (getv m)) as [y Hy].
    destruct (exec_exc E cs v B HB _ (m ++ [y]) _ _ (exc_last v m y' y Hmv) H3) as [w' [H3' [Lw Ew]]].
    assert (Hpre : exists t, w' = (m ++ [y]) ++ t) by (eapply exec_prefix; eauto). destruct Hpre as [t Et].
    apply wf_insns_app in W. destruct W as [_ W]. cbn [wf_insns] in W. destruct W as [Wp _].
    assert (Hgv : getv w' v = y). { rewrite Et. rewrite getv_app_l by (rewrite app_length; cbn; lia). rewrite getv_app_r by lia. rewrite Hmv, Nat.sub_diag. reflexivity. }
    assert (Hlt : forall x, In x (s_inputs F ip) -> x < v /\ getv m x = getv w' x).
    { intros x Hx. rewrite Forall_forall in Wp. specialize (Wp x Hx). cbn beta in Wp. assert (x < length m) by lia. split; [lia|]. rewrite Et. rewrite !getv_app_l; auto. rewrite app_length; lia. }
    assert (Sp : s_sem F E ip (getv w') [getv w' v]). { rewrite Hgv. apply (l_sem_ext SI (SrcL F) E ip (getv m)); [intros x Hx; apply Hlt; auto|]. apply Hy. reflexivity. }
    destruct (exec_exc E cs v C HC _ (w' ++ oq) _ _ (exc_app v w w' oq (conj Lw Ew)) H5) as [u [H6 H7]].
    exists u. split; auto. apply exec_app. exists m, b1, (b5 && b8). split; auto. split; [|rewrite !andb_true_l; reflexivity].
    apply exec_cons. exists [y], true, (b5 && b8). split. { unfold step; cbn [SI i_call i_inputs i_sem]. rewrite Ec1. split; [|split; auto; apply Hy; reflexivity]. apply Forall_forall. intros x Hx. apply Hlt in Hx. unfold inb; lia. }
    split; auto. apply exec_app. exists w', b5, b8. split; auto. split; auto.
    apply exec_cons. exists oq, true, b8. split; auto. unfold step; cbn [SI i_call i_inputs i_sem]. rewrite Ec3. split; [|split; auto].
    - rewrite Hq. rewrite Hq' in I4. apply Forall_forall. intros x Hx. unfold inb. rewrite <- Lw. apply in_app_or in Hx. rewrite Forall_forall in I4. unfold inb in I4.
      assert (Hvw : v < length w') by (rewrite Et, !app_length; cbn; lia).
      destruct Hx as [Hx|[<-|Hx]]; [apply I4; apply in_or_app; auto|lia|]. apply I4. apply in_or_app; right. apply in_or_app; auto.
    - apply (Hs E (getv w') Sp). apply (l_sem_ext SI (SrcL F) E iq' (getv w)); auto. intros x Hx. apply Ew. intros ->. auto.
  Qed.

  (* ---------------------------------------------------------------- the invariant of both loops *)
  Variable ob : list nat.   (* outputs and constraint variables *)
  Variable iso : list SInsn.
  Definition uses (is : list SInsn) (x : nat) : nat := count_occ Nat.eq_dec (flat_map (s_inputs F) is ++ ob) x.
  Definition tot (is : list SInsn) : nat := length (flat_map (s_inputs F) is).
  Lemma tot_upd is q i i' : nth_error is q = Some i -> tot (upd is q i') + length (s_inputs F i) = tot is + length (s_inputs F i').
  Proof.
    unfold tot. revert q. induction is as [|x is IH]; intros [|q] H; cbn [nth_error] in H; try discriminate; cbn [upd flat_map]; rewrite !app_length.
    - injection H as ->. lia.
    - specialize (IH q H). lia.
  Qed.
  Lemma tot_same is q i i' : q < length is -> length (s_inputs F i) = length (s_inputs F i') -> tot (upd is q i) = tot (upd is q i').
  Proof. intros Hq He. destruct (nth_error_Some_ex is q Hq) as [i0 H0]. pose proof (tot_upd is q i0 i H0). pose proof (tot_upd is q i0 i' H0). lia. Qed.
  Definition agree (is : list SInsn) (a b : list F) : Prop := length a = length b /\ forall x, 0 < uses is x -> getv a x = getv b x.
  Definition sh (i0 i : SInsn) : Prop :=
    s_nout F i = s_nout F i0 /\ s_call F i = s_call F i0 /\ is_lin i = is_lin i0 /\ is_mul i = is_mul i0 /\ (is_lin i0 = false -> is_mul i0 = false -> i = i0).
  Definition keeps (is is' : list SInsn) : Prop := forall E cs ins, length ins = n -> Forall (call_wf SI cs) is ->
    (forall vals b, exec SI E cs is (f0 :: ins) vals b -> exists vals', exec SI E cs is' (f0 :: ins) vals' b /\ agree is' vals vals') /\
    (forall vals b, exec SI E cs is' (f0 :: ins) vals b -> exists vals', exec SI E cs is (f0 :: ins) vals' b /\ agree is' vals vals').
  Variables (vid cnt : list nat).
  Definition var_of (is : list SInsn) (p : nat) : nat := S n + nouts SI (firstn p is).
  Record Inv (is : list SInsn) : Prop := {
    inv_sh : Forall2 sh iso is;
    inv_wf : wf_insns SI is n;
    inv_uses : forall x k, nth_error vid x = Some k -> uses is x <= nth k cnt 0;
    inv_mono : forall x, uses is x <= uses iso x;
    inv_keeps : keeps iso is;
    inv_valid : forall npub, Forall (fun i => s_validate F npub i = true) iso ->
      forall p i, nth_error is p = Some i -> s_validate F npub i = true \/ (uses is (var_of is p) = 0 /\ s_nout F i = 1)
  }.
  Lemma sh_refl i : sh i i. Proof. repeat split; auto. Qed.
  Lemma sh_trans a b c : sh a b -> sh b c -> sh a c.
  Proof. intros [A1 [A2 [A3 [A4 A5]]]] [B1 [B2 [B3 [B4 B5]]]]. repeat split; try congruence. intros H1 H2. rewrite B5, A5; congruence. Qed.
  Lemma sh_list_refl l : Forall2 sh l l. Proof. induction l; constructor; auto. apply sh_refl. Qed.
  Lemma sh_list_trans a b c : Forall2 sh a b -> Forall2 sh b c -> Forall2 sh a c.
  Proof. intros H. revert c. induction H as [|x y a b Hxy H IH]; intros c Hc; inversion Hc; subst; constructor; auto. eapply sh_trans; eauto. Qed.
  Lemma sh_upd l p i i' : nth_error l p = Some i -> sh i i' -> Forall2 sh l (upd l p i').
  Proof.
    revert p. induction l as [|x l IH]; intros [|p] H Hs; cbn in *; try discriminate.
    - injection H as ->. constructor; auto. apply sh_list_refl.
    - constructor; auto. apply sh_refl.
  Qed.
  Lemma sh_nouts a b : Forall2 sh a b -> forall p, nouts SI (firstn p a) = nouts SI (firstn p b).
  Proof. induction 1 as [|x y a b [Hn _] H IH]; intros [|p]; cbn [firstn nouts]; auto. Qed.
  Lemma sh_call_wf cs a b : Forall2 sh a b -> Forall (call_wf SI cs) a -> Forall (call_wf SI cs) b.
  Proof.
    induction 1 as [|x y a b [_ [Hc _]] H IH]; intros Hf; inversion Hf; subst; constructor; auto.
    intros id l m Hi. apply (H2 id l m). cbn [SI i_call] in *. congruence.
  Qed.
  Lemma nouts_firstn_le (l : list SInsn) p q : p <= q -> nouts SI (firstn p l) <= nouts SI (firstn q l).
  Proof. revert p q. induction l as [|x l IH]; intros [|p] [|q] H; cbn [firstn nouts]; try lia. specialize (IH p q). lia. Qed.
  Lemma nouts_firstn_S (l : list SInsn) p i : nth_error l p = Some i -> nouts SI (firstn (S p) l) = nouts SI (firstn p l) + s_nout F i.
  Proof. revert p. induction l as [|x l IH]; intros [|p] H; cbn [nth_error] in H; try discriminate.
    - injection H as ->. cbn [firstn nouts SI i_nout]. lia.
    - change (firstn (S (S p)) (x :: l)) with (x :: firstn (S p) l). change (firstn (S p) (x :: l)) with (x :: firstn p l). cbn [nouts]. rewrite (IH p H). lia.
  Qed.
  Lemma wf_nth (l : list SInsn) m p i : wf_insns SI l m -> nth_error l p = Some i -> Forall (fun x => 0 < x <= m + nouts SI (firstn p l)) (s_inputs F i).
  Proof.
    revert m p. induction l as [|y l IH]; intros m [|p] W H; cbn [nth_error] in H; try discriminate; cbn [wf_insns] in W; destruct W as [W1 W2].
    - injection H as ->. cbn [firstn nouts]. rewrite Nat.add_0_r. exact W1.
    - cbn [firstn nouts]. rewrite Nat.add_assoc. apply (IH _ p); auto.
  Qed.
  Lemma wf_intro (l : list SInsn) : forall m, (forall p i, nth_error l p = Some i -> Forall (fun x => 0 < x <= m + nouts SI (firstn p l)) (s_inputs F i)) -> wf_insns SI l m.
  Proof.
    induction l as [|y l IH]; intros m H; cbn [wf_insns]; auto. split.
    - specialize (H 0 y eq_refl). cbn [firstn nouts] in H. rewrite Nat.add_0_r in H. exact H.
    - apply IH. intros p i Hi. specialize (H (S p) i Hi). cbn [firstn nouts] in H. rewrite Nat.add_assoc in H. exact H.
  Qed.
  Lemma keeps_trans a b c : Forall2 sh a b -> (forall x, uses c x <= uses b x) -> keeps a b -> keeps b c -> keeps a c.
  Proof.
    intros Hs Hu H1 H2 E cs ins Hl Hc. destruct (H1 E cs ins Hl Hc) as [A1 A2]. destruct (H2 E cs ins Hl (sh_call_wf _ _ _ Hs Hc)) as [B1 B2].
    assert (T : forall x y z, agree b x y -> agree c y z -> agree c x z).
    { intros x y z [L1 G1] [L2 G2]. split; [congruence|]. intros v Hv. rewrite G1; auto. specialize (Hu v). lia. }
    assert (T' : forall x y z, agree c x y -> agree b y z -> agree c x z).
    { intros x y z [L1 G1] [L2 G2]. split; [congruence|]. intros v Hv. rewrite G1; auto. apply G2. specialize (Hu v). lia. }
    split; intros vals b0 H.
    - destruct (A1 _ _ H) as [v1 [X1 Y1]]. destruct (B1 _ _ X1) as [v2 [X2 Y2]]. eauto.
    - destruct (B2 _ _ H) as [v1 [X1 Y1]]. destruct (A2 _ _ X1) as [v2 [X2 Y2]]. eauto.
  Qed.
  Lemma two_split {A} (l : list A) p q x y : nth_error l p = Some x -> nth_error l q = Some y -> p < q ->
    exists a b c, l = a ++ x :: b ++ y :: c /\ length a = p /\ forall x' y', upd (upd l p x') q y' = a ++ x' :: b ++ y' :: c.
  Proof.
    intros H1 H2 Hlt. apply nth_error_split in H1. destruct H1 as [a [r [-> Ha]]].
    rewrite nth_error_app2 in H2 by lia. destruct (q - length a) as [|k] eqn:Ek; [lia|]. cbn in H2. apply nth_error_split in H2. destruct H2 as [b [c [-> Hb]]].
    exists a, b, c. split; auto. split; auto. intros x' y'. assert (U : forall (a : list A) r x x', upd (a ++ x :: r) (length a) x' = a ++ x' :: r) by (clear; induction a as [|z a IH]; intros; cbn; f_equal; auto).
    subst p. rewrite U. replace q with (length (a ++ x' :: b)) by (rewrite app_length; cbn; lia). replace (a ++ x' :: b ++ y :: c) with ((a ++ x' :: b) ++ y :: c) by (rewrite <- app_assoc; auto).
    rewrite U, <- app_assoc. auto.
  Qed.
  Lemma one_split {A} (l : list A) p x : nth_error l p = Some x -> exists a c, l = a ++ x :: c /\ length a = p /\ forall x', upd l p x' = a ++ x' :: c.
  Proof.
    intros H1. apply nth_error_split in H1. destruct H1 as [a [r [-> Ha]]]. exists a, r. split; auto. split; auto.
    intros x'. subst p. clear. induction a as [|z a IH]; cbn; f_equal; auto.
  Qed.
  Lemma firstn_length_app {A} (a b : list A) p : length a = p -> firstn p (a ++ b) = a.
  Proof. intros <-. rewrite firstn_app, Nat.sub_diag, firstn_all. cbn. apply app_nil_r. Qed.
  Lemma var_of_sh a b p : Forall2 sh a b -> var_of a p = var_of b p.
  Proof. intros H. unfold var_of. rewrite (sh_nouts a b H). auto. Qed.
  Lemma in_order is p q ip iq : wf_insns SI is n -> nth_error is p = Some ip -> nth_error is q = Some iq -> In (var_of is p) (s_inputs F iq) -> p < q.
  Proof.
    intros W Hp Hq Hin. pose proof (wf_nth _ _ _ _ W Hq) as Hf. rewrite Forall_forall in Hf. specialize (Hf _ Hin). cbn beta in Hf. unfold var_of in Hf.
    destruct (Nat.lt_ge_cases p q); auto. pose proof (nouts_firstn_le is q p). lia.
  Qed.
  Lemma agree_exc v is a b : uses is v = 0 -> exc v a b -> agree is a b.
  Proof. intros Hu [H1 H2]. split; auto. intros x Hx. apply H2. intros ->. lia. Qed.
  Notation cnt_of := (count_occ Nat.eq_dec).
  Lemma inv_step is is' : Inv is -> Forall2 sh is is' -> wf_insns SI is' n -> (forall x, uses is' x <= uses is x) -> keeps is is' ->
    (forall npub p i', nth_error is' p = Some i' -> (forall p i, nth_error is p = Some i -> s_validate F npub i = true \/ (uses is (var_of is p) = 0 /\ s_nout F i = 1)) ->
       s_validate F npub i' = true \/ (uses is' (var_of is' p) = 0 /\ s_nout F i' = 1)) -> Inv is'.
  Proof.
    intros [S1 W1 U1 M1 K1 V1] S W U K V. split; auto.
    - eapply sh_list_trans; eauto.
    - intros x k H. specialize (U1 x k H). specialize (U x). lia.
    - intros x. specialize (M1 x). specialize (U x). lia.
    - eapply keeps_trans; eauto.
  Qed.
  Lemma absorb_inv is p q ip iq ip' iq' : Inv is -> nth_error is p = Some ip -> nth_error is q = Some iq -> absorbs (var_of is p) ip iq ip' iq' ->
    sh ip ip' -> sh iq iq' -> s_nout F ip = 1 -> uses is (var_of is p) <= 1 ->
    (forall npub, s_validate F npub ip = true -> s_validate F npub iq = true -> s_validate F npub iq' = true) ->
    p < q /\ Inv (upd (upd is p ip') q iq') /\ S (tot (upd (upd is p ip') q iq')) = tot is.
  Proof.
    intros HI Hp Hq Ab Sp Sq Hn Hu Hv. pose proof (inv_wf _ HI) as W. set (v := var_of is p) in *.
    destruct (ab_inq _ _ _ _ _ Ab) as [qa [qb [Eq Eq']]].
    assert (Hlt : p < q). { eapply in_order; eauto. fold v. rewrite Eq. apply in_or_app; right; left; auto. }
    split; auto. destruct (two_split _ _ _ _ _ Hp Hq Hlt) as [A [B [C [Eis [HA HU]]]]].
    split; [|rewrite HU, Eis; unfold tot; rewrite !flat_map_app; cbn [flat_map]; rewrite !flat_map_app; cbn [flat_map]; rewrite (ab_in' _ _ _ _ _ Ab), Eq, Eq'; repeat (rewrite ?app_length; cbn [length app]); lia].
    assert (Hne : q <> p) by lia. assert (Hpl : p < length is) by (apply nth_error_Some; congruence). assert (Hql : q < length is) by (apply nth_error_Some; congruence).
    assert (Sh : Forall2 sh is (upd (upd is p ip') q iq')).
    { apply (sh_list_trans _ (upd is p ip')); [apply (sh_upd _ _ _ _ Hp Sp)|]. apply (sh_upd _ q iq); [|exact Sq]. rewrite nth_error_upd_ne; auto. }
    assert (Evar : v = S n + nouts SI A). { unfold v, var_of. rewrite Eis, firstn_length_app; auto. }
    assert (Ucount : forall x, uses (upd (upd is p ip') q iq') x + (if Nat.eq_dec v x then 1 else 0) = uses is x).
    { intros x. rewrite HU, Eis. unfold uses. rewrite !flat_map_app. cbn [flat_map]. rewrite !flat_map_app. cbn [flat_map].
      rewrite (ab_in' _ _ _ _ _ Ab), Eq, Eq'. repeat (rewrite ?count_occ_app; cbn [count_occ app]). rewrite ?count_occ_app. cbn [count_occ]. destruct (Nat.eq_dec v x); lia. }
    assert (Uv : uses (upd (upd is p ip') q iq') v = 0). { specialize (Ucount v). destruct (Nat.eq_dec v v); [lia|contradiction]. }
    assert (Ule : forall x, uses (upd (upd is p ip') q iq') x <= uses is x) by (intros x; specialize (Ucount x); lia).
    assert (Hno : ~ In v (flat_map (s_inputs F) B) /\ ~ In v (flat_map (s_inputs F) C) /\ ~ In v (s_inputs F iq')).
    { rewrite HU in Uv. unfold uses in Uv. rewrite !flat_map_app in Uv. cbn [flat_map] in Uv. rewrite !flat_map_app in Uv. cbn [flat_map] in Uv. rewrite !count_occ_app in Uv.
      repeat split; apply (count_occ_not_In Nat.eq_dec); lia. }
    destruct Hno as [HB [HC HQ]].
    assert (Wn : wf_insns SI (upd (upd is p ip') q iq') n).
    { apply wf_intro. intros r i Hi. rewrite <- (sh_nouts _ _ Sh). rewrite !nth_error_upd, upd_length in Hi.
      destruct (Nat.eqb_spec q r) as [->|Hqr]; cbn [andb] in Hi.
      - replace (r <? length is) with true in Hi by (symmetry; apply Nat.ltb_lt; auto). injection Hi as <-. pose proof (wf_nth _ _ _ _ W Hq) as Wq. pose proof (wf_nth _ _ _ _ W Hp) as Wp.
        rewrite Eq in Wq. rewrite Eq'. pose proof (nouts_firstn_le is p r). rewrite !Forall_app in *. destruct Wq as [Q1 Q2]. inversion Q2; subst. repeat split; auto. eapply Forall_impl; [|exact Wp]. cbn; intros; lia.
      - destruct (Nat.eqb_spec p r) as [->|Hpr]; cbn [andb] in Hi.
        + replace (r <? length is) with true in Hi by (symmetry; apply Nat.ltb_lt; auto). injection Hi as <-. rewrite (ab_in' _ _ _ _ _ Ab). constructor.
        + apply (wf_nth _ _ _ _ W Hi). }
    apply (inv_step is); auto.
    - intros E cs ins Hl Hc. rewrite HU in *. rewrite Eis in Hc, W. pose proof Hc as HcA. apply Forall_app in HcA. destruct HcA as [HcA _]. split; intros vals b H.
      + rewrite Eis in H. destruct (absorb_fwd E cs v ip iq ip' iq' A B C ins vals b) as [vals' [X Y]]; auto. exists vals'. split; auto. eapply agree_exc; eauto.
      + rewrite Eis. destruct (absorb_bwd E cs v ip iq ip' iq' A B C ins vals b) as [vals' [X Y]]; auto. { destruct Sp as [-> _]. auto. } exists vals'. split; auto. eapply agree_exc; eauto.
    - intros npub r i Hi Hval. rewrite <- (var_of_sh _ _ r Sh). rewrite !nth_error_upd, upd_length in Hi.
      assert (Vp : s_validate F npub ip = true). { destruct (Hval p ip Hp) as [|[Hz _]]; auto. fold v in Hz. specialize (Ucount v). destruct (Nat.eq_dec v v); [lia|contradiction]. }
      destruct (Nat.eqb_spec q r) as [->|Hqr]; cbn [andb] in Hi.
      + replace (r <? length is) with true in Hi by (symmetry; apply Nat.ltb_lt; auto). injection Hi as <-. destruct (Hval r iq Hq) as [X|[X Y]]; [left; auto|right].
        destruct Sq as [-> _]. split; auto. specialize (Ule (var_of is r)). lia.
      + destruct (Nat.eqb_spec p r) as [->|Hpr]; cbn [andb] in Hi.
        * replace (r <? length is) with true in Hi by (symmetry; apply Nat.ltb_lt; auto). injection Hi as <-. right. fold v. split; auto. destruct Sp as [-> _]; auto.
        * destruct (Hval r i Hi) as [X|[X Y]]; auto. right. split; auto. specialize (Ule (var_of is r)). lia.
  Qed.
  Lemma perm_inv is q iq iq' : Inv is -> nth_error is q = Some iq -> sh iq iq' -> s_call F iq = None -> Permutation (s_inputs F iq) (s_inputs F iq') ->
    (forall E g outs, s_sem F E iq g outs <-> s_sem F E iq' g outs) -> (forall npub, s_validate F npub iq' = s_validate F npub iq) -> Inv (upd is q iq').
  Proof.
    intros HI Hq Sq Hc Hp Hs Hv. pose proof (inv_wf _ HI) as W. destruct (one_split _ _ _ Hq) as [A [C [Eis [HA HU]]]]. assert (Hql : q < length is) by (apply nth_error_Some; congruence).
    pose proof (sh_upd _ _ _ _ Hq Sq) as Sh.
    assert (Ueq : forall x, uses (upd is q iq') x = uses is x).
    { intros x. rewrite HU, Eis. unfold uses. rewrite !flat_map_app. cbn [flat_map]. rewrite !count_occ_app. pose proof (proj1 (Permutation_count_occ Nat.eq_dec _ _) Hp x). lia. }
    apply (inv_step is); auto.
    - apply wf_intro. intros r i Hi. rewrite <- (sh_nouts _ _ Sh). rewrite nth_error_upd in Hi. destruct (Nat.eqb_spec q r) as [->|Hqr]; cbn [andb] in Hi; [|apply (wf_nth _ _ _ _ W Hi)].
      replace (r <? length is) with true in Hi by (symmetry; apply Nat.ltb_lt; auto). injection Hi as <-. eapply Permutation_Forall; [exact Hp|]. apply (wf_nth _ _ _ _ W Hq).
    - intros x. rewrite Ueq. lia.
    - assert (St : forall E cs vals outs b, step SI E cs iq vals outs b <-> step SI E cs iq' vals outs b).
      { intros E cs vals outs b. unfold step. cbn [SI i_call i_inputs i_sem]. destruct Sq as [_ [Hc' _]]. rewrite Hc', Hc. rewrite Hs.
        split; intros [X Y]; split; auto; [apply (Permutation_Forall Hp X)|apply (Permutation_Forall (Permutation_sym Hp) X)]. }
      intros E cs ins Hl Hcw. rewrite HU, Eis.
      assert (X : forall vals b, exec SI E cs (A ++ iq :: C) (f0 :: ins) vals b <-> exec SI E cs (A ++ iq' :: C) (f0 :: ins) vals b).
      { intros vals b. rewrite !exec_app. split; intros [m [c1 [c2 [X1 [X2 X3]]]]]; exists m, c1, c2; split; auto; split; auto; apply exec_cons in X2; apply exec_cons;
          destruct X2 as [o [d1 [d2 [Y1 Y2]]]]; exists o, d1, d2; split; auto; apply St; auto. }
      split; intros vals b H; exists vals; (split; [apply X; auto|split; auto]).
    - intros npub r i Hi Hval. rewrite <- (var_of_sh _ _ r Sh), Ueq. rewrite nth_error_upd in Hi. destruct (Nat.eqb_spec q r) as [->|Hqr]; cbn [andb] in Hi; [|eauto].
      replace (r <? length is) with true in Hi by (symmetry; apply Nat.ltb_lt; auto). injection Hi as <-. destruct Sq as [-> _]. rewrite Hv. eauto.
  Qed.

  (* ---------------------------------------------------------------- the two merges *)
  Lemma lc_eval_app (g : nat -> F) a b c : lc_eval g {| lc_terms := a ++ b; lc_const := c |} = fadd (lc_eval g {| lc_terms := a; lc_const := c |}) (fsum F (map (fun t => fmul (g (fst t)) (snd t)) b)).
  Proof. rewrite !lc_eval_sum. cbn [lc_const lc_terms]. rewrite map_app. unfold fsum. rewrite fold_right_app. generalize (fold_right fadd f0 (map (fun t => fmul (g (fst t)) (snd t)) b)) as z. intros z.
    assert (G : forall l : list F, fold_right fadd z l = fadd (fold_right fadd f0 l) z) by (induction l as [|y l IH]; cbn [fold_right]; [ring|rewrite IH; ring]). rewrite G. ring. Qed.
  Lemma fsum_app (a b : list F) : fsum F (a ++ b) = fadd (fsum F a) (fsum F b).
  Proof. unfold fsum. induction a as [|x a IH]; cbn [app fold_right]; [ring|rewrite IH; ring]. Qed.
  Definition scaled (co : F) (l : LinComb F) : list (nat * F) := if feqb co f1 then lc_terms l else map (fun y => (fst y, fmul co (snd y))) (lc_terms l).
  Lemma scaled_vars co l : map fst (scaled co l) = map fst (lc_terms l).
  Proof. unfold scaled. destruct (feqb co f1); auto. rewrite map_map. auto. Qed.
  Lemma scaled_sum g co l : fsum F (map (fun t => fmul (g (fst t)) (snd t)) (scaled co l)) = fmul co (fsum F (map (fun t => fmul (g (fst t)) (snd t)) (lc_terms l))).
  Proof.
    unfold scaled. destruct (feqb co f1) eqn:E. { apply feqb_spec in E. subst. ring. }
    unfold fsum. induction (lc_terms l) as [|t ts IH]; cbn [map fold_right fst snd]; [ring|]. rewrite IH. ring.
  Qed.
  Lemma absorbs_lin v l a b co c : absorbs v (SLin l) (SLin {| lc_terms := a ++ (v, co) :: b; lc_const := c |}) (SLin {| lc_terms := []; lc_const := lc_const l |})
    (SLin {| lc_terms := a ++ scaled co l ++ b; lc_const := if is0 F (lc_const l) then c else fadd c (fmul (lc_const l) co) |}).
  Proof.
    split.
    - intros E g. exists (lc_eval g l). intros outs. cbn [s_sem s_det]. split; [intros H; injection H as <-; auto|intros ->; auto].
    - intros E g. exists (lc_eval g {| lc_terms := []; lc_const := lc_const l |}). intros outs. cbn [s_sem s_det]. split; [intros H; injection H as <-; auto|intros ->; auto].
    - cbn. auto.
    - reflexivity.
    - exists (map fst a), (map fst b). cbn [s_inputs lc_vars lc_terms]. unfold lc_vars. cbn [lc_terms]. rewrite !map_app, scaled_vars. split; reflexivity.
    - intros E g Hv outs. cbn [s_sem s_det] in *. injection Hv as Hv.
      assert (Ee : lc_eval g {| lc_terms := a ++ (v, co) :: b; lc_const := c |} = lc_eval g {| lc_terms := a ++ scaled co l ++ b; lc_const := if is0 F (lc_const l) then c else fadd c (fmul (lc_const l) co) |}).
      { rewrite !lc_eval_sum. cbn [lc_const lc_terms]. rewrite !map_app, !fsum_app, scaled_sum. cbn [map fst snd]. change (fsum F (fmul (g v) co :: map (fun t => fmul (g (fst t)) (snd t)) b)) with (fadd (fmul (g v) co) (fsum F (map (fun t => fmul (g (fst t)) (snd t)) b))).
        rewrite <- Hv. rewrite lc_eval_sum. destruct (is0 F (lc_const l)) eqn:Ez; [apply is0_spec in Ez; rewrite Ez; ring|ring]. }
      rewrite Ee. reflexivity.
  Qed.
  Lemma mul_eval_app (g : nat -> F) a b : mul_eval g (a ++ b) = fmul (mul_eval g a) (mul_eval g b).
  Proof. rewrite !mul_eval_prod. induction a as [|x a IH]; cbn [app fold_right]; [ring|rewrite IH; ring]. Qed.
  Lemma absorbs_mul v l a b : absorbs v (SMul l) (SMul (a ++ v :: b)) (SMul []) (SMul (a ++ l ++ b)).
  Proof.
    split.
    - intros E g. exists (mul_eval g l). intros outs. cbn [s_sem s_det]. split; [intros H; injection H as <-; auto|intros ->; auto].
    - intros E g. exists (mul_eval g []). intros outs. cbn [s_sem s_det]. split; [intros H; injection H as <-; auto|intros ->; auto].
    - cbn. auto.
    - reflexivity.
    - exists a, b. split; reflexivity.
    - intros E g Hv outs. cbn [s_sem s_det] in *. injection Hv as Hv. assert (Ee : mul_eval g (a ++ v :: b) = mul_eval g (a ++ l ++ b)).
      { rewrite !mul_eval_app. rewrite Hv. rewrite (mul_eval_prod g (v :: b)), (mul_eval_prod g b). cbn [fold_right]. ring. } rewrite Ee. reflexivity.
  Qed.

  (* ---------------------------------------------------------------- the loops *)
  Variables (add mul : list bool).
  Hypothesis Hvid : forall x k, nth_error vid x = Some k -> k = length iso \/ exists i, nth_error iso k = Some i /\ var_of iso k <= x < var_of iso k + s_nout F i.
  Hypothesis Hvl : length vid = S (n + nouts SI iso).
  Hypothesis Hcl : length cnt = S (length iso).
  Hypothesis Hadd : forall k, k <= length iso -> nth_error add k = Some (match nth_error iso k with Some i => is_lin i | None => false end).
  Hypothesis Hmul : forall k, k <= length iso -> nth_error mul k = Some (match nth_error iso k with Some i => is_mul i | None => false end).
  Lemma upd_twice {A} (l : list A) : forall p q (a b c : A), p <> q -> upd (upd (upd l q a) p b) q c = upd (upd l p b) q c.
  Proof. induction l as [|x l IH]; intros [|p] [|q] a b c H; cbn [upd]; auto; try congruence. f_equal. clear. revert q. induction l as [|y l IH]; intros [|q]; cbn; auto. f_equal; auto. f_equal. apply IH. congruence. Qed.
  Lemma upd_same {A} (l : list A) : forall q (a c : A), upd (upd l q a) q c = upd l q c.
  Proof. induction l as [|x l IH]; intros [|q] a c; cbn [upd]; auto. f_equal; auto. Qed.
  Lemma upd_id {A} (l : list A) : forall q a, nth_error l q = Some a -> upd l q a = l.
  Proof. induction l as [|x l IH]; intros [|q] a H; cbn in *; try discriminate; [injection H as ->; auto|f_equal; auto]. Qed.
  Lemma vid_some x : 0 < x <= n + nouts SI iso -> exists k c, nth_error vid x = Some k /\ k <= length iso /\ nth_error cnt k = Some c.
  Proof.
    intros H. destruct (nth_error_Some_ex vid x) as [k Hk]; [lia|]. assert (Hle : k <= length iso). { destruct (Hvid _ _ Hk) as [->|[i [Hi _]]]; auto. apply nth_error_Some_lt in Hi. lia. }
    destruct (nth_error_Some_ex cnt k) as [c Hc]; [lia|]. eauto.
  Qed.
  Lemma dc_flag_some xs : Forall (fun x => 0 < x <= n + nouts SI iso) xs -> exists b, dc_flag vid cnt xs = Some b.
  Proof.
    induction xs as [|x xs IH]; intros H; cbn [dc_flag]; eauto. inversion H; subst. destruct (vid_some x H2) as [k [c [-> [_ Hc]]]]. cbn [obind]. rewrite Hc. cbn [obind].
    destruct (c =? 1); eauto.
  Qed.
  Lemma dc_join_perm {A} (vecs : list (list A)) : forall ts, Permutation (ts ++ concat vecs) (dc_join ts vecs).
  Proof.
    induction vecs as [|v vecs IH]; intros ts; cbn [concat dc_join]; [rewrite app_nil_r; auto|]. rewrite app_assoc. rewrite <- IH. apply Permutation_app_tail.
    destruct (length ts <? length v); auto. apply Permutation_app_comm.
  Qed.
  Lemma inv_inputs is q i : Inv is -> nth_error is q = Some i -> Forall (fun x => 0 < x <= n + nouts SI iso) (s_inputs F i).
  Proof.
    intros HI Hq. pose proof (wf_nth _ _ _ _ (inv_wf _ HI) Hq) as H. eapply Forall_impl; [|exact H]. cbn beta. intros x Hx. pose proof (sh_nouts _ _ (inv_sh _ HI) (length is)) as E1.
    rewrite (firstn_all2 (n := length is) is) in E1 by lia. rewrite firstn_all2 in E1 by (rewrite (Forall2_len _ _ _ (inv_sh _ HI)); lia). pose proof (nouts_firstn_le is q (length is)). apply nth_error_Some_lt in Hq. rewrite (firstn_all2 (n := length is) is) in H0 by lia. lia.
  Qed.
  (* the operand x of the instruction at q is defined by a linear combination used nowhere else *)
  Lemma taken is q iq x k (kind : SInsn -> bool) : Inv is -> nth_error is q = Some iq -> In x (s_inputs F iq) -> nth_error vid x = Some k -> (forall i, kind i = true -> s_nout F i = 1) ->
    match nth_error iso k with Some i => kind i | None => false end = true -> (forall a b, sh a b -> kind b = kind a) -> nth_error cnt k = Some 1 ->
    exists ip, nth_error is k = Some ip /\ kind ip = true /\ x = var_of is k /\ k < q /\ uses is x <= 1.
  Proof.
    intros HI Hq Hin Hk K1 Hkind K2 Hc. destruct (nth_error iso k) as [i0|] eqn:Ei; [|discriminate]. destruct (Forall2_nth_error _ _ _ (inv_sh _ HI) _ _ Ei) as [ip [Hp Hs]].
    assert (Hx : x = var_of is k). { rewrite <- (var_of_sh _ _ k (inv_sh _ HI)). destruct (Hvid _ _ Hk) as [->|[i [Hi Hr]]]; [apply nth_error_Some_lt in Ei; lia|]. rewrite Ei in Hi. injection Hi as <-. rewrite (K1 _ Hkind) in Hr. lia. }
    exists ip. split; auto. split; [rewrite (K2 _ _ Hs); auto|]. split; auto. split.
    - eapply in_order; eauto. apply HI. rewrite <- Hx. auto.
    - pose proof (inv_uses _ HI _ _ Hk) as Hu. rewrite (nth_error_nth _ _ 0 Hc) in Hu. auto.
  Qed.
  Lemma lin_perm is q ts ts' c : q < length is -> Inv (upd is q (SLin {| lc_terms := ts; lc_const := c |})) -> Permutation ts ts' -> Inv (upd is q (SLin {| lc_terms := ts'; lc_const := c |})).
  Proof.
    intros Hq HI P. rewrite <- (upd_same is q (SLin {| lc_terms := ts; lc_const := c |})). apply (perm_inv _ q (SLin {| lc_terms := ts; lc_const := c |})); auto.
    - apply nth_error_upd_eq; auto.
    - repeat split; cbn; auto; discriminate.
    - cbn [s_inputs]. unfold lc_vars. cbn [lc_terms]. apply Permutation_map. auto.
    - intros E g outs. cbn [s_sem s_det]. rewrite !lc_eval_sum. cbn [lc_terms lc_const].
      rewrite (fsum_perm F (map (fun t => fmul (g (fst t)) (snd t)) ts) (map (fun t => fmul (g (fst t)) (snd t)) ts')); [reflexivity|apply Permutation_map; auto].
  Qed.
  Lemma mul_perm is q l l' : q < length is -> Inv (upd is q (SMul l)) -> Permutation l l' -> Inv (upd is q (SMul l')).
  Proof.
    intros Hq HI P. rewrite <- (upd_same is q (SMul l)). apply (perm_inv _ q (SMul l)); auto.
    - apply nth_error_upd_eq; auto.
    - repeat split; cbn; auto; discriminate.
    - intros E g outs. cbn [s_sem s_det]. assert (H : mul_eval g l = mul_eval g l').
      { rewrite !mul_eval_prod. clear -P. induction P; cbn [fold_right]; try congruence. ring. }
      rewrite H. reflexivity.
    - intros npub. cbn [s_validate]. rewrite (Permutation_length P). auto.
  Qed.
  Lemma dc_terms_spec q : forall ts is const rem lcs, q < length is -> Inv (upd is q (SLin {| lc_terms := rem ++ concat lcs ++ ts; lc_const := const |})) ->
    exists is' const' rem' lcs', dc_terms vid cnt add ts is const rem lcs = Some (is', const', rem', lcs') /\ length is' = length is /\
      Inv (upd is' q (SLin {| lc_terms := rem' ++ concat lcs'; lc_const := const' |})) /\
      ((is' = is /\ const' = const /\ rem' = rem ++ ts /\ lcs' = lcs) \/
       tot (upd is' q (SLin {| lc_terms := rem' ++ concat lcs'; lc_const := const' |})) < tot (upd is q (SLin {| lc_terms := rem ++ concat lcs ++ ts; lc_const := const |}))).
  Proof.
    assert (Hlen : forall is q t c t' c', q < length is -> length t = length t' -> tot (upd is q (SLin {| lc_terms := t; lc_const := c |})) = tot (upd is q (SLin {| lc_terms := t'; lc_const := c' |}))).
    { intros is0 q0 t c t' c' H0 He. apply tot_same; auto. cbn [s_inputs]. unfold lc_vars. cbn [lc_terms]. rewrite !map_length. auto. }
    induction ts as [|[x co] ts IH]; intros is const rem lcs Hq HI; cbn [dc_terms].
    - exists is, const, rem, lcs. split; auto. split; auto. rewrite app_nil_r in HI. split; auto. left. rewrite app_nil_r. auto.
    - set (iq := SLin {| lc_terms := rem ++ concat lcs ++ (x, co) :: ts; lc_const := const |}) in *.
      assert (Hnq : nth_error (upd is q iq) q = Some iq) by (apply nth_error_upd_eq; auto).
      assert (Hin : In x (s_inputs F iq)). { cbn [s_inputs iq]. unfold lc_vars; cbn [lc_terms]. rewrite !map_app. apply in_or_app; right. apply in_or_app; right. left; auto. }
      pose proof (inv_inputs _ _ _ HI Hnq) as Hb. rewrite Forall_forall in Hb. destruct (vid_some x (Hb x Hin)) as [k [c [Hk [Hkl Hc]]]].
      rewrite Hk. cbn [obind]. rewrite (Hadd k Hkl). cbn [obind]. rewrite Hc. cbn [obind].
      destruct (match nth_error iso k with Some i => is_lin i | None => false end) eqn:Ea; cbn [andb]; [destruct (Nat.eqb_spec c 1) as [->|Hc1]|].
      + destruct (taken _ _ _ _ _ is_lin HI Hnq Hin Hk ltac:(intros []; cbn; congruence) Ea (fun a b (h : sh a b) => proj1 (proj2 (proj2 h))) Hc) as [ip [Hp [Hl [Hx [Hlt Hu]]]]].
        destruct ip as [l| | | | | | | | | | | | ]; try discriminate. rewrite nth_error_upd_ne in Hp by lia. rewrite Hp.
        destruct (absorb_inv _ k q (SLin l) iq (SLin {| lc_terms := []; lc_const := lc_const l |})
          (SLin {| lc_terms := (rem ++ concat lcs) ++ scaled co l ++ ts; lc_const := if is0 F (lc_const l) then const else fadd const (fmul (lc_const l) co) |}) HI) as [_ [HI2 HT]]; auto.
        * rewrite nth_error_upd_ne by lia; auto.
        * rewrite <- Hx. unfold iq. rewrite app_assoc. apply absorbs_lin.
        * repeat split; cbn; auto; discriminate.
        * repeat split; cbn; auto; discriminate.
        * rewrite <- Hx; auto.
        * rewrite upd_twice in HI2, HT by lia. fold (scaled co l). rewrite <- (upd_length is k (SLin {| lc_terms := []; lc_const := lc_const l |})).
          match goal with |- context [dc_terms _ _ _ ts ?I1 ?C1 rem ?L1] => destruct (IH I1 C1 rem L1) as [is' [c' [rem' [lcs' [D1 [D2 [D3 D4]]]]]]]; [rewrite upd_length; auto| |] end.
          { rewrite concat_app. cbn [concat]. rewrite app_nil_r. rewrite <- !app_assoc in HI2 |- *. auto. }
          exists is', c', rem', lcs'. split; auto. split; auto. split; auto. right. rewrite concat_app in D4. cbn [concat] in D4. rewrite app_nil_r in D4. rewrite <- !app_assoc in HT, D4.
          destruct D4 as [[-> [-> [-> ->]]]|D4].
          -- rewrite <- HT. apply Nat.eq_le_incl. f_equal. apply Hlen; [rewrite upd_length; auto|]. rewrite concat_app. cbn [concat]. rewrite app_nil_r, !app_length. lia.
          -- eapply Nat.lt_trans; [exact D4|]. rewrite <- HT. apply Nat.lt_succ_diag_r.
      + match goal with |- context [dc_terms _ _ _ ts ?I1 ?C1 ?R1 ?L1] => destruct (IH I1 C1 R1 L1) as [is' [c' [rem' [lcs' [D1 [D2 [D3 D4]]]]]]]; auto end.
        { eapply lin_perm; eauto. rewrite <- app_assoc. apply Permutation_app_head. cbn. symmetry. apply Permutation_middle. }
        exists is', c', rem', lcs'. split; auto. split; auto. split; auto. rewrite <- !app_assoc in D4. destruct D4 as [D4|D4]; [left; auto|right]. eapply Nat.lt_le_trans; [exact D4|]. apply Nat.eq_le_incl. apply Hlen; auto. rewrite !app_length. cbn [length]. lia.
      + match goal with |- context [dc_terms _ _ _ ts ?I1 ?C1 ?R1 ?L1] => destruct (IH I1 C1 R1 L1) as [is' [c' [rem' [lcs' [D1 [D2 [D3 D4]]]]]]]; auto end.
        { eapply lin_perm; eauto. rewrite <- app_assoc. apply Permutation_app_head. cbn. symmetry. apply Permutation_middle. }
        exists is', c', rem', lcs'. split; auto. split; auto. split; auto. rewrite <- !app_assoc in D4. destruct D4 as [D4|D4]; [left; auto|right]. eapply Nat.lt_le_trans; [exact D4|]. apply Nat.eq_le_incl. apply Hlen; auto. rewrite !app_length. cbn [length]. lia.
  Qed.
  Lemma dc_vars_spec q : forall xs is rem vs, q < length is -> Inv (upd is q (SMul (rem ++ concat vs ++ xs))) ->
    exists is' rem' vs', dc_vars vid cnt mul xs is rem vs = Some (is', rem', vs') /\ length is' = length is /\ Inv (upd is' q (SMul (rem' ++ concat vs'))) /\
      ((is' = is /\ rem' = rem ++ xs /\ vs' = vs) \/ tot (upd is' q (SMul (rem' ++ concat vs'))) < tot (upd is q (SMul (rem ++ concat vs ++ xs)))).
  Proof.
    assert (Hlen : forall is q t t', q < length is -> length t = length t' -> tot (upd is q (SMul t)) = tot (upd is q (SMul t'))) by (intros is0 q0 t t' H0 He; apply tot_same; auto).
    induction xs as [|x xs IH]; intros is rem vs Hq HI; cbn [dc_vars].
    - exists is, rem, vs. split; auto. split; auto. rewrite app_nil_r in HI. split; auto. left. rewrite app_nil_r. auto.
    - set (iq := SMul (rem ++ concat vs ++ x :: xs)) in *.
      assert (Hnq : nth_error (upd is q iq) q = Some iq) by (apply nth_error_upd_eq; auto).
      assert (Hin : In x (s_inputs F iq)). { cbn [s_inputs iq]. apply in_or_app; right. apply in_or_app; right. left; auto. }
      pose proof (inv_inputs _ _ _ HI Hnq) as Hb. rewrite Forall_forall in Hb. destruct (vid_some x (Hb x Hin)) as [k [c [Hk [Hkl Hc]]]].
      rewrite Hk. cbn [obind]. rewrite (Hmul k Hkl). cbn [obind]. rewrite Hc. cbn [obind].
      destruct (match nth_error iso k with Some i => is_mul i | None => false end) eqn:Ea; cbn [andb]; [destruct (Nat.eqb_spec c 1) as [->|Hc1]|].
      + destruct (taken _ _ _ _ _ is_mul HI Hnq Hin Hk ltac:(intros []; cbn; congruence) Ea (fun a b (h : sh a b) => proj1 (proj2 (proj2 (proj2 h)))) Hc) as [ip [Hp [Hl [Hx [Hlt Hu]]]]].
        destruct ip as [|l| | | | | | | | | | | ]; try discriminate. rewrite nth_error_upd_ne in Hp by lia. rewrite Hp.
        destruct (absorb_inv _ k q (SMul l) iq (SMul []) (SMul ((rem ++ concat vs) ++ l ++ xs)) HI) as [_ [HI2 HT]]; auto.
        * rewrite nth_error_upd_ne by lia; auto.
        * rewrite <- Hx. unfold iq. rewrite app_assoc. apply absorbs_mul.
        * repeat split; cbn; auto; discriminate.
        * repeat split; cbn; auto; discriminate.
        * rewrite <- Hx; auto.
        * intros npub. cbn [s_validate iq]. rewrite !Nat.leb_le, !app_length. cbn [length]. lia.
        * rewrite upd_twice in HI2, HT by lia. rewrite <- (upd_length is k (SMul [])).
          destruct (IH (upd is k (SMul [])) rem (vs ++ [l])) as [is' [rem' [vs' [D1 [D2 [D3 D4]]]]]]; [rewrite upd_length; auto| |].
          { rewrite concat_app. cbn [concat]. rewrite app_nil_r. rewrite <- !app_assoc in HI2 |- *. auto. }
          exists is', rem', vs'. split; auto. split; auto. split; auto. right. rewrite concat_app in D4. cbn [concat] in D4. rewrite app_nil_r in D4. rewrite <- !app_assoc in HT, D4.
          destruct D4 as [[-> [-> ->]]|D4].
          -- rewrite <- HT. apply Nat.eq_le_incl. f_equal. apply Hlen; [rewrite upd_length; auto|]. rewrite concat_app. cbn [concat]. rewrite app_nil_r, !app_length. lia.
          -- eapply Nat.lt_trans; [exact D4|]. rewrite <- HT. apply Nat.lt_succ_diag_r.
      + destruct (IH is (rem ++ [x]) vs) as [is' [rem' [vs' [D1 [D2 [D3 D4]]]]]]; auto.
        { eapply mul_perm; eauto. rewrite <- app_assoc. apply Permutation_app_head. cbn. symmetry. apply Permutation_middle. }
        exists is', rem', vs'. split; auto. split; auto. split; auto. rewrite <- !app_assoc in D4. destruct D4 as [D4|D4]; [left; auto|right]. eapply Nat.lt_le_trans; [exact D4|]. apply Nat.eq_le_incl. apply Hlen; auto. rewrite !app_length. cbn [length]. lia.
      + destruct (IH is (rem ++ [x]) vs) as [is' [rem' [vs' [D1 [D2 [D3 D4]]]]]]; auto.
        { eapply mul_perm; eauto. rewrite <- app_assoc. apply Permutation_app_head. cbn. symmetry. apply Permutation_middle. }
        exists is', rem', vs'. split; auto. split; auto. split; auto. rewrite <- !app_assoc in D4. destruct D4 as [D4|D4]; [left; auto|right]. eapply Nat.lt_le_trans; [exact D4|]. apply Nat.eq_le_incl. apply Hlen; auto. rewrite !app_length. cbn [length]. lia.
  Qed.
  Lemma dc_add1_spec q is : q < length iso -> Inv is -> exists is', dc_add1 vid cnt add q is = Some is' /\ Inv is' /\ (is' = is \/ tot is' < tot is).
  Proof.
    intros Hq HI. unfold dc_add1. rewrite Hadd by lia. cbn [obind]. destruct (nth_error_Some_ex iso q Hq) as [i0 Hi0]. rewrite Hi0.
    destruct (Forall2_nth_error _ _ _ (inv_sh _ HI) _ _ Hi0) as [i [Hi [_ [_ [Hl _]]]]]. rewrite <- Hl. destruct i as [l| | | | | | | | | | | | ]; cbn [is_lin]; eauto.
    rewrite Hi. destruct (dc_flag_some (map fst (lc_terms l))) as [b ->]. { apply (inv_inputs _ _ _ HI Hi). } cbn [obind]. destruct b; eauto.
    assert (Hql : q < length is) by (apply nth_error_Some; congruence).
    destruct (dc_terms_spec q (lc_terms l) is (lc_const l) [] [] Hql) as [is' [c' [rem' [lcs' [-> [Hlen [HI' HT]]]]]]].
    { cbn [app concat]. rewrite upd_id; auto. rewrite Hi. destruct l; auto. }
    cbn [obind]. eexists. split; [reflexivity|]. split; [eapply lin_perm; eauto; [lia|apply dc_join_perm]|]. cbn [app concat] in HT. destruct HT as [[-> [-> [-> ->]]]|HT].
    - left. cbn [dc_join]. apply upd_id. rewrite Hi. destruct l; auto.
    - right. rewrite (tot_same _ _ _ (SLin {| lc_terms := rem' ++ concat lcs'; lc_const := c' |})); [|lia|].
      + eapply Nat.lt_le_trans; [exact HT|]. rewrite (upd_id is q); auto. rewrite Hi. destruct l; auto.
      + cbn [s_inputs]. unfold lc_vars. cbn [lc_terms]. rewrite !map_length. symmetry. apply Permutation_length. apply dc_join_perm.
  Qed.
  Lemma dc_mul1_spec q is : q < length iso -> Inv is -> exists is', dc_mul1 vid cnt mul q is = Some is' /\ Inv is' /\ (is' = is \/ tot is' < tot is).
  Proof.
    intros Hq HI. unfold dc_mul1. rewrite Hmul by lia. cbn [obind]. destruct (nth_error_Some_ex iso q Hq) as [i0 Hi0]. rewrite Hi0.
    destruct (Forall2_nth_error _ _ _ (inv_sh _ HI) _ _ Hi0) as [i [Hi [_ [_ [_ [Hl _]]]]]]. rewrite <- Hl. destruct i as [|l| | | | | | | | | | | ]; cbn [is_mul]; eauto.
    rewrite Hi. destruct (dc_flag_some l) as [b ->]. { apply (inv_inputs _ _ _ HI Hi). } cbn [obind]. destruct b; eauto.
    assert (Hql : q < length is) by (apply nth_error_Some; congruence).
    destruct (dc_vars_spec q l is [] [] Hql) as [is' [rem' [vs' [-> [Hlen [HI' HT]]]]]].
    { cbn [app concat]. rewrite upd_id; auto. }
    cbn [obind]. eexists. split; [reflexivity|]. split; [eapply mul_perm; eauto; [lia|apply dc_join_perm]|]. cbn [app concat] in HT. destruct HT as [[-> [-> ->]]|HT].
    - left. cbn [dc_join]. apply upd_id. auto.
    - right. rewrite (tot_same _ _ _ (SMul (rem' ++ concat vs'))); [|lia|].
      + eapply Nat.lt_le_trans; [exact HT|]. rewrite (upd_id is q); auto.
      + cbn [s_inputs]. symmetry. apply Permutation_length. apply dc_join_perm.
  Qed.
  Lemma dc_loop_spec f idx : (forall i is, In i idx -> Inv is -> exists is', f i is = Some is' /\ Inv is' /\ (is' = is \/ tot is' < tot is)) -> forall is, Inv is -> exists is', dc_loop f idx is = Some is' /\ Inv is' /\ (is' = is \/ tot is' < tot is).
  Proof.
    induction idx as [|i idx IH]; intros Hf is HI; cbn [dc_loop]; eauto. destruct (Hf i is (or_introl eq_refl) HI) as [is' [-> [HI' HT]]]. cbn [obind]. destruct (IH (fun j is0 Hj => Hf j is0 (or_intror Hj)) is' HI') as [is2 [A [B C]]].
    exists is2. split; auto. split; auto. destruct HT as [->|HT], C as [->|C]; auto. right. lia.
  Qed.
  Hypothesis Hwf : wf_insns SI iso n.
  Hypothesis Hcnt : forall x k, nth_error vid x = Some k -> uses iso x <= nth k cnt 0.
  Lemma dc_loops : exists is1 is2, dc_loop (dc_add1 vid cnt add) (seq 0 (length iso)) iso = Some is1 /\ dc_loop (dc_mul1 vid cnt mul) (seq 0 (length iso)) is1 = Some is2 /\ Inv is2 /\ (is2 = iso \/ tot is2 < tot iso).
  Proof.
    assert (I0 : Inv iso).
    { split; auto. apply sh_list_refl. intros E cs ins _ _. split; intros vals b H; exists vals; split; auto; split; auto. intros npub H p i Hi. left. rewrite Forall_forall in H. apply H. eapply nth_error_In; eauto. }
    destruct (dc_loop_spec (dc_add1 vid cnt add) (seq 0 (length iso))) with (is := iso) as [is1 [E1 [I1 T1]]]; auto. { intros i is Hi. apply in_seq in Hi. apply dc_add1_spec. lia. }
    destruct (dc_loop_spec (dc_mul1 vid cnt mul) (seq 0 (length iso))) with (is := is1) as [is2 [E2 [I2 T2]]]; auto. { intros i is Hi. apply in_seq in Hi. apply dc_mul1_spec. lia. }
    exists is1, is2. split; auto. split; auto. split; auto. destruct T1 as [->|T1], T2 as [->|T2]; auto. right. lia.
  Qed.
End Chains.

Section Scan.
  Context {F : Fld}.
  Notation SI := (SrcI F).
  Notation SInsn := (SInsn F).
  Notation cnt_of := (count_occ Nat.eq_dec).
  Definition bounded (vid : list nat) (P : list nat) (cnt : list nat) : Prop := forall x k, nth_error vid x = Some k -> cnt_of P x <= nth k cnt 0.
  Lemma dc_refs_spec (vid : list nat) xs : Forall (fun x => x < length vid) xs -> forall P cnt, (forall x k, nth_error vid x = Some k -> k < length cnt) -> bounded vid P cnt ->
    exists cnt', dc_refs vid xs cnt = Some cnt' /\ length cnt' = length cnt /\ bounded vid (P ++ xs) cnt'.
  Proof.
    induction xs as [|x xs IH]; intros Hx P cnt Hv HB; cbn [dc_refs].
    - exists cnt. rewrite app_nil_r. auto.
    - inversion Hx as [|? ? Hx1 Hx2]; subst. destruct (nth_error_Some_ex vid x Hx1) as [k Hk]. rewrite Hk. cbn [obind]. destruct (nth_error_Some_ex cnt k (Hv _ _ Hk)) as [c Hc]. rewrite Hc. cbn [obind].
      destruct (IH Hx2 (P ++ [x]) (upd cnt k (S c))) as [cnt' [E [L B]]].
      + intros y j Hy. rewrite upd_length. eauto.
      + intros y j Hy. rewrite count_occ_app. cbn [count_occ]. specialize (HB y j Hy). rewrite nth_upd. pose proof (Hv _ _ Hk). destruct (Nat.eqb_spec k j) as [->|Hne].
        * replace (j <? length cnt) with true by (symmetry; apply Nat.ltb_lt; auto). cbn [andb]. rewrite (nth_error_nth _ _ 0 Hc) in HB. destruct (Nat.eq_dec x y); lia.
        * cbn [andb]. destruct (Nat.eq_dec x y); [congruence|lia].
      + exists cnt'. split; auto. split; [rewrite L, upd_length; auto|]. rewrite <- app_assoc in B. auto.
  Qed.
  Variables (n : nat) (iso : list SInsn).
  Definition flags (f : SInsn -> bool) (k : nat) (v : list bool) : Prop :=
    length v = S (length iso) /\ forall j, j <= length iso -> nth_error v j = Some (match nth_error iso j with Some i => (j <? k) && f i | None => false end).
  Lemma flags_next f k v i : flags f k v -> nth_error iso k = Some i -> flags f (S k) (if f i then upd v k true else v).
  Proof.
    intros [L H] Hk. assert (Hkl : k < length iso) by (apply nth_error_Some; congruence). split; [destruct (f i); rewrite ?upd_length; auto|].
    intros j Hj. specialize (H j Hj). destruct (Nat.eq_dec j k) as [->|Hne].
    - rewrite Hk in *. replace (k <? S k) with true by (symmetry; apply Nat.ltb_lt; lia). rewrite Nat.ltb_irrefl in H. destruct (f i); cbn [andb] in *; auto. apply nth_error_upd_eq. lia.
    - assert (E : (if f i then upd v k true else v) = v \/ nth_error (if f i then upd v k true else v) j = nth_error v j) by (destruct (f i); auto; right; apply nth_error_upd_ne; auto).
      assert (E2 : nth_error (if f i then upd v k true else v) j = nth_error v j) by (destruct E as [E|E]; [rewrite E; auto|auto]). rewrite E2, H.
      destruct (nth_error iso j); auto. f_equal. f_equal. destruct (Nat.ltb_spec j k), (Nat.ltb_spec j (S k)); auto; lia.
  Qed.
  Record ScanInv (k : nat) (pre : list SInsn) (vid cnt : list nat) (add mul : list bool) : Prop := {
    si_len : length vid = S (n + nouts SI pre);
    si_vid : forall x j, nth_error vid x = Some j -> j = length iso \/ exists i, nth_error iso j = Some i /\ var_of n iso j <= x < var_of n iso j + s_nout F i;
    si_cl : length cnt = S (length iso);
    si_cnt : bounded vid (flat_map (s_inputs F) pre) cnt;
    si_new : forall x, length vid <= x -> cnt_of (flat_map (s_inputs F) pre) x = 0;
    si_add : flags is_lin k add; si_mul : flags is_mul k mul
  }.
  Lemma dc_scan_spec : forall is pre vid cnt add mul, iso = pre ++ is -> wf_insns SI is (n + nouts SI pre) -> ScanInv (length pre) pre vid cnt add mul ->
    exists vid' cnt' add' mul', dc_scan (length pre) is vid cnt add mul = Some (vid', cnt', add', mul') /\ ScanInv (length iso) iso vid' cnt' add' mul'.
  Proof.
    induction is as [|i is IH]; intros pre vid cnt add mul Eq W SI0; cbn [dc_scan].
    - rewrite app_nil_r in Eq. subst pre. eauto 8.
    - destruct W as [W1 W2]. pose proof SI0 as [H1 H2 H3 H4 H5 H6 H7].
      assert (Hin : Forall (fun x => x < length vid) (s_inputs F i)) by (eapply Forall_impl; [|exact W1]; cbn; intros; lia).
      assert (Hvl : forall x k, nth_error vid x = Some k -> k < length cnt). { intros x k Hk. destruct (H2 _ _ Hk) as [->|[i' [Hi' _]]]; [lia|]. apply nth_error_Some_lt in Hi'. lia. }
      destruct (dc_refs_spec vid (s_inputs F i) Hin (flat_map (s_inputs F) pre) cnt Hvl H4) as [cnt' [E [L B]]]. rewrite E. cbn [obind].
      assert (Hi : nth_error iso (length pre) = Some i) by (rewrite Eq, nth_error_app2, Nat.sub_diag by lia; reflexivity).
      assert (Hfm : flat_map (s_inputs F) (pre ++ [i]) = flat_map (s_inputs F) pre ++ s_inputs F i) by (rewrite flat_map_app; cbn; rewrite app_nil_r; auto).
      assert (Hlp : length (pre ++ [i]) = S (length pre)) by (rewrite app_length; cbn; lia).
      assert (Hnew : forall x, length vid <= x -> cnt_of (flat_map (s_inputs F) (pre ++ [i])) x = 0).
      { intros x Hx. rewrite Hfm, count_occ_app, (H5 x Hx). cbn. apply count_occ_not_In. intros Hc. rewrite Forall_forall in Hin. specialize (Hin x Hc). cbn beta in Hin. lia. }
      destruct (IH (pre ++ [i]) (vid ++ repeat (length pre) (s_nout F i)) cnt' (if is_lin i then upd add (length pre) true else add) (if is_mul i then upd mul (length pre) true else mul)) as [v2 [c2 [a2 [m2 [E2 S2]]]]].
      + rewrite <- app_assoc. auto.
      + rewrite nouts_app. cbn [nouts]. rewrite Nat.add_0_r, Nat.add_assoc. auto.
      + split.
        * rewrite app_length, repeat_length, nouts_app, H1. cbn [nouts SI i_nout]. lia.
        * intros x j Hj. destruct (Nat.lt_ge_cases x (length vid)) as [Hx|Hx].
          -- rewrite nth_error_app1 in Hj by auto. eauto.
          -- rewrite nth_error_app2 in Hj by auto. right. assert (Hr : x - length vid < s_nout F i). { rewrite <- (repeat_length (length pre) (s_nout F i)). apply nth_error_Some. congruence. }
             rewrite nth_error_repeat in Hj by auto. injection Hj as <-. exists i. split; auto. unfold var_of. rewrite Eq, firstn_app, Nat.sub_diag, firstn_all. cbn [firstn]. rewrite app_nil_r. lia.
        * congruence.
        * intros x j Hj. destruct (Nat.lt_ge_cases x (length vid)) as [Hx|Hx].
          -- rewrite nth_error_app1 in Hj by auto. rewrite Hfm. auto.
          -- rewrite Hnew by auto. lia.
        * intros x Hx. apply Hnew. rewrite app_length in Hx. lia.
        * rewrite Hlp. apply flags_next; auto.
        * rewrite Hlp. apply flags_next; auto.
      + rewrite Hlp in E2. eauto 8.
  Qed.
End Scan.

Section Pass.
  Context {F : Fld}.
  Notation SI := (SrcI F).
  Definition observed (c : Circuit SI) : list nat := outputs c ++ map snd (constraints c : list (ConType * nat)).
  Lemma dc_circuit_spec (c : Circuit SI) : wf_circuit SI c -> exists c', dc_circuit c = Some c' /\
    num_inputs c' = num_inputs c /\ outputs c' = outputs c /\ constraints c' = constraints c /\ (c' = c \/ tot (F := F) (instructions c') < tot (F := F) (instructions c)) /\
    exists vid cnt, Inv (num_inputs c) (observed c) (instructions c) vid cnt (instructions c').
  Proof.
    intros [W1 W2 W3]. unfold dc_circuit. set (iso := instructions c : list (SInsn F)) in *. set (n := num_inputs c) in *.
    assert (S0 : ScanInv n iso 0 [] (repeat (length iso) (S n)) (repeat 0 (S (length iso))) (repeat false (S (length iso))) (repeat false (S (length iso)))).
    { assert (Hf : forall f, flags iso f 0 (repeat false (S (length iso)))).
      { intros f. split; [apply repeat_length|]. intros j Hj. rewrite nth_error_repeat by lia. destruct (nth_error iso j); auto. }
      split; auto; try apply repeat_length.
      - rewrite repeat_length. cbn. lia.
      - intros x j Hj. left. apply nth_error_In in Hj. apply repeat_spec in Hj. auto.
      - intros x j Hj. cbn. lia. }
    destruct (dc_scan_spec n iso iso [] _ _ _ _ eq_refl ltac:(cbn [nouts]; rewrite Nat.add_0_r; exact W1) S0) as [vid [cnt [add [mul [E SI1]]]]]. cbn [length] in E. rewrite E. cbn [obind].
    destruct SI1 as [H1 H2 H3 H4 H5 H6 H7].
    assert (Hvl : forall cnt' : list nat, length cnt' = length cnt -> forall x k, nth_error vid x = Some k -> k < length cnt'). { intros cnt' Hl x k Hk. rewrite Hl. destruct (H2 _ _ Hk) as [->|[i' [Hi' _]]]; [lia|]. apply nth_error_Some_lt in Hi'. lia. }
    assert (F1 : Forall (fun x => x < length vid) (outputs c)) by (eapply Forall_impl; [|exact W3]; cbn; intros; lia).
    assert (F2 : Forall (fun x => x < length vid) (map snd (constraints c : list (ConType * nat)))) by (apply Forall_map; eapply Forall_impl; [|exact W2]; cbn; intros; lia).
    destruct (dc_refs_spec vid (outputs c) F1 (flat_map (s_inputs F) iso) cnt (Hvl cnt eq_refl) H4) as [cnt1 [E1 [L1 B1]]].
    rewrite E1. cbn [obind].
    destruct (dc_refs_spec vid (map snd (constraints c : list (ConType * nat))) F2 (flat_map (s_inputs F) iso ++ outputs c) cnt1 (Hvl cnt1 L1) B1) as [cnt2 [E2 [L2 B2]]].
    rewrite E2. cbn [obind].
    destruct (dc_loops n (observed c) iso vid cnt2 add mul) as [is1 [is2 [X1 [X2 [X3 X4]]]]]; auto.
    - congruence.
    - intros k Hk. destruct H6 as [_ H6]. rewrite H6 by auto. f_equal. destruct (nth_error iso k) eqn:Ek; auto. apply nth_error_Some_lt in Ek. replace (k <? length iso) with true by (symmetry; apply Nat.ltb_lt; auto). auto.
    - intros k Hk. destruct H7 as [_ H7]. rewrite H7 by auto. f_equal. destruct (nth_error iso k) eqn:Ek; auto. apply nth_error_Some_lt in Ek. replace (k <? length iso) with true by (symmetry; apply Nat.ltb_lt; auto). auto.
    - intros x k Hk. specialize (B2 x k Hk). unfold uses, observed. rewrite app_assoc. auto.
    - rewrite X1. cbn [obind]. rewrite X2. cbn [obind]. eexists. split; [reflexivity|]. cbn [num_inputs outputs constraints instructions]. split; auto. split; auto. split; auto. split; [|eauto]. destruct X4 as [->|X4]; [left; destruct c; reflexivity|right; exact X4].
  Qed.
  Lemma sh_nth_calls (a b : list (SInsn F)) : Forall2 sh a b -> forall i' , In i' b -> exists i, In i a /\ sh i i'.
  Proof. induction 1 as [|x y a b Hxy H IH]; intros i' Hi'; [destruct Hi'|]. destruct Hi' as [<-|Hi']; [exists x; split; [left|]; auto|]. destruct (IH i' Hi') as [i [A B]]. exists i. split; [right|]; auto. Qed.
  Lemma sh_all_nouts (a b : list (SInsn F)) : Forall2 sh a b -> nouts SI b = nouts SI a.
  Proof. induction 1 as [|x y a b [Hn _] H IH]; cbn [nouts]; auto. Qed.
  Lemma dc_local_ok (c : Circuit SI) : wf_circuit SI c -> exists c', dc_circuit c = Some c' /\ local_ok SI SI c c'.
  Proof.
    intros W. destruct (dc_circuit_spec c W) as [c' [E [Hn [Ho [Hk [_ [vid [cnt HI]]]]]]]]. exists c'. split; auto. pose proof (inv_sh _ _ _ _ _ _ HI) as Hs. repeat split.
    - rewrite Hn. apply HI.
    - rewrite Hk, Hn, (sh_all_nouts _ _ Hs). apply W.
    - rewrite Ho, Hn, (sh_all_nouts _ _ Hs). apply W.
    - auto.
    - congruence.
    - intros i' o l' m Hi' Ec. destruct (sh_nth_calls _ _ Hs i' Hi') as [i [Hi [_ [Hc _]]]]. exists i, l'. split; auto. split; auto. cbn [SI i_call] in *. congruence.
  Qed.
  Lemma exec_other E cs1 cs2 (is : list (SInsn F)) : (forall i o l m, In i is -> s_call F i = Some (o, l, m) -> forall ins outs b, length ins = length l -> run SI E cs1 o ins outs b -> run SI E cs2 o ins outs b) ->
    forall vals vals' b, exec SI E cs1 is vals vals' b -> exec SI E cs2 is vals vals' b.
  Proof.
    induction is as [|i is IH]; intros H vals vals' b Hx.
    - apply exec_nil in Hx. apply exec_nil. auto.
    - apply exec_cons in Hx. apply exec_cons. destruct Hx as [outs [b1 [b2 [H1 [H2 H3]]]]]. exists outs, b1, b2. split; [|split; auto].
      + unfold step in *. cbn [SI i_call] in *. destruct (s_call F i) as [[[o l] m]|] eqn:Ec; auto. destruct H1 as [A B]. split; auto. eapply (H i o l m); eauto. left; auto. apply map_length.
      + apply IH; auto. intros; eapply (H i0); eauto. right; auto.
  Qed.
  Lemma agree_obs (c c' : Circuit SI) a b : observed c' = observed c -> agree (observed c) (instructions c') a b ->
    map (getv a) (outputs c) = map (getv b) (outputs c) /\ forallb (fun k : Con SI => c_verify k (getv a (c_var k))) (constraints c) = forallb (fun k : Con SI => c_verify k (getv b (c_var k))) (constraints c).
  Proof.
    intros _ [_ H]. assert (G : forall x, In x (observed c) -> getv a x = getv b x).
    { intros x Hx. apply H. unfold uses. rewrite count_occ_app. apply (count_occ_In Nat.eq_dec) in Hx. lia. }
    split.
    - apply map_ext_in. intros x Hx. apply G. apply in_or_app; auto.
    - assert (Gc : forall k, In k (constraints c) -> getv a (c_var k) = getv b (c_var k)). { intros k Hk. apply G. apply in_or_app; right. apply in_map; auto. }
      revert Gc. generalize (constraints c). induction l as [|k l IH]; intros Gc; cbn [forallb]; auto. rewrite (Gc k (or_introl eq_refl)). f_equal. apply IH. intros; apply Gc; right; auto.
  Qed.
  Theorem detect_chains_spec (rc : RootCircuit SI) : wf_root SI rc ->
    exists rc', detect_chains rc = Some rc' /\ wf_root SI rc' /\ num_public_inputs rc' = num_public_inputs rc /\ expected_num_output_zeroes rc' = expected_num_output_zeroes rc /\
      (forall id c', lookup id (circuits rc') = Some c' -> exists c, lookup id (circuits rc) = Some c /\ dc_circuit c = Some c' /\ local_ok SI SI c c') /\
      (forall id c, lookup id (circuits rc) = Some c -> exists c', lookup id (circuits rc') = Some c' /\ dc_circuit c = Some c' /\ local_ok SI SI c c') /\
      (forall E ins outs b, root_run SI E rc ins outs b <-> root_run SI E rc' ins outs b).
  Proof.
    intros W. destruct (local_pass_spec SI SI dc_circuit rc W) as [rc' [A [B [C [D [L1 [L2 [Fw Bw]]]]]]]].
    { intros id c Hc. apply dc_local_ok. apply (wf_each _ _ (wr_cs _ _ W) _ _ Hc). }
    exists rc'. repeat (split; auto); apply Fw || apply Bw; clear Fw Bw; intros id c c' Hc Hc' E1 Hsub c1 ins0 outs0 b0 Hc1 Hl Hr.
    - rewrite Hc in Hc1. injection Hc1 as <-.
      destruct (dc_circuit_spec c (wf_each _ _ (wr_cs _ _ W) _ _ Hc)) as [c2 [E2 [Hn [Ho [Hk [_ [vid [cnt HI]]]]]]]]. rewrite E1 in E2. injection E2 as <-.
      apply run_iff in Hr. destruct Hr as [c1 [vals [b1 [X1 [X2 [X3 [X4 [-> ->]]]]]]]]. rewrite Hc in X1. injection X1 as <-.
      pose proof (wf_calls _ _ (wr_cs _ _ W) _ _ Hc) as Wl.
      destruct (inv_keeps _ _ _ _ _ _ HI E (circuits rc) ins0 Hl Wl) as [Kf _]. destruct (Kf _ _ X2) as [vals' [Y1 Y2]].
      apply run_iff. exists c', vals', b1. split; auto. split.
      + apply (exec_other E (circuits rc) (circuits rc')); auto. intros i o l m Hi Ec ins1 outs1 bb Hl1 Hrun.
        destruct (sh_nth_calls _ _ (inv_sh _ _ _ _ _ _ HI) i Hi) as [i0 [Hi0 [_ [Hcc _]]]]. rewrite Ec in Hcc.
        rewrite Forall_forall in Wl. destruct (Wl i0 Hi0 o l m) as [co [Z1 [Z2 Z3]]]; [cbn [SI i_call]; congruence|]. eapply (Hsub o); eauto; [|congruence]. apply (in_calls SI c i0 o l m); auto.
      + rewrite Hk, Ho. destruct (agree_obs c c' vals vals') as [G1 G2]; auto. { unfold observed. rewrite Ho, Hk. auto. } destruct Y2 as [Y2 _]. rewrite <- G1, <- G2. repeat split; auto.
        * eapply Forall_impl; [|exact X3]. unfold inb. cbn. intros; lia.
        * eapply Forall_impl; [|exact X4]. unfold inb. cbn. intros; lia.
    - rewrite Hc in Hc1. injection Hc1 as <-.
      destruct (dc_circuit_spec c (wf_each _ _ (wr_cs _ _ W) _ _ Hc)) as [c2 [E2 [Hn [Ho [Hk [_ [vid [cnt HI]]]]]]]]. rewrite E1 in E2. injection E2 as <-.
      apply run_iff in Hr. destruct Hr as [c1 [vals [b1 [X1 [X2 [X3 [X4 [-> ->]]]]]]]]. rewrite Hc' in X1. injection X1 as <-.
      pose proof (wf_calls _ _ (wr_cs _ _ W) _ _ Hc) as Wl.
      assert (X2' : exec SI E (circuits rc) (instructions c') (f0 :: ins0) vals b1).
      { apply (exec_other E (circuits rc') (circuits rc)); auto. intros i o l m Hi Ec ins1 outs1 bb Hl1 Hrun.
        destruct (sh_nth_calls _ _ (inv_sh _ _ _ _ _ _ HI) i Hi) as [i0 [Hi0 [_ [Hcc _]]]]. rewrite Ec in Hcc.
        rewrite Forall_forall in Wl. destruct (Wl i0 Hi0 o l m) as [co [Z1 [Z2 Z3]]]; [cbn [SI i_call]; congruence|]. eapply (Hsub o); eauto; [|congruence]. apply (in_calls SI c i0 o l m); auto. }
      destruct (inv_keeps _ _ _ _ _ _ HI E (circuits rc) ins0 Hl Wl) as [_ Kb]. destruct (Kb _ _ X2') as [vals' [Y1 Y2]].
      apply run_iff. exists c, vals', b1. split; auto. split; auto.
      rewrite Hk, Ho in *. destruct (agree_obs c c' vals vals') as [G1 G2]; auto. { unfold observed. rewrite Ho, Hk. auto. } destruct Y2 as [Y2 _]. rewrite <- G1, <- G2. repeat split; auto.
      * eapply Forall_impl; [|exact X3]. unfold inb. cbn. intros; lia.
      * eapply Forall_impl; [|exact X4]. unfold inb. cbn. intros; lia.
  Qed.
End Pass.
