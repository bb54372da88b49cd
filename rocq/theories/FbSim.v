(* final_build_opt (FinalBuild.v): the emitted instructions compute the expressions of the source variables. *)
From Verif Require Import Prelude Field Sorting Expr Topo Containers Ir IrFacts IrInst Sim LocalPass Builder FinalBuild.
From Verif Require Import BuilderFacts FbFacts.

Section FbSim.
  Context {F : Fld}.
  Add Field Ffs : (fth F).
  Open Scope fld_scope.
  Notation Expr := (list (Term F)).
  Notation DI := (DestI F false).
  Notation LI := (HlI F).
  Notation FB := (@FB F).
  Notation Mid := (@Mid F).

  (* ---------------- the order of emission ---------------- *)
  Definition Outs : Type := list (nat * DInsn F).
  Definition ssorted (outs : Outs) : Prop := StronglySorted (fun a b => (fst a <= fst b)%nat) outs.
  Lemma take_at_spec s e (outs : Outs) : ssorted outs -> Forall (fun p => (s <= fst p <= e)%nat) outs -> exists a r, take_at s outs = (a, r) /\ ssorted r /\ Forall (fun p => (S s <= fst p <= e)%nat) r /\
    map snd outs = a ++ map snd r /\ forall k i, (s < k)%nat -> take_at s (outs ++ [(k, i)]) = (a, r ++ [(k, i)]).
  Proof.
    intros Hs. induction Hs as [|[k i] outs Hs IH Hf]; intros Hb; cbn [take_at app].
    - exists [], []. split; [auto|]. split; [constructor|]. split; [constructor|]. split; [auto|]. intros k i Hk. destruct (Nat.eqb_spec k s); [lia|auto].
    - inversion Hb as [|? ? H1 H2]; subst. cbn [fst] in *. destruct (Nat.eqb_spec k s) as [->|N].
      + destruct (IH H2) as [a [r [-> [A [B [C D]]]]]]. exists (i :: a), r. split; [auto|]. split; [auto|]. split; [auto|]. split; [cbn [map snd app]; congruence|].
        intros k i' Hk. rewrite (D k i' Hk). auto.
      + exists [], ((k, i) :: outs). split; [auto|]. split; [constructor; auto|]. split; [|split; auto]. constructor; [cbn [fst]; lia|].
        apply Forall_forall. intros p Hp. rewrite Forall_forall in Hf, H2. specialize (Hf p Hp). specialize (H2 p Hp). cbn [fst] in Hf. lia.
  Qed.
  Definition oi_list (o : option (DInsn F)) : list (DInsn F) := match o with None => [] | Some i => [i] end.
  Lemma emit_snoc_var (M : Mid) oi len : forall s (outs : Outs) l, ssorted outs -> Forall (fun p => (s <= fst p <= s + len)%nat) outs -> emit M (seq s len) outs = Some l ->
    mid_insn M (s + len) = Some oi -> emit M (seq s (S len)) outs = Some (l ++ oi_list oi).
  Proof.
    induction len as [|len IH]; intros s outs l Hs Hb He Hm.
    - cbn [seq emit] in *. rewrite Nat.add_0_r in *. destruct (take_at_spec s s outs Hs Hb) as [a [r [-> [A [B [C D]]]]]]. rewrite Hm. cbn [obind].
      destruct r as [|p r]; [|inversion B; subst; lia]. injection He as <-. rewrite C. cbn [map]. rewrite !app_nil_r. auto.
    - cbn [seq emit] in He. destruct (take_at_spec s (s + S len) outs Hs Hb) as [a [r [E1 [A [B [C D]]]]]]. rewrite E1 in He.
      apply obind_some in He. destruct He as [i0 [E2 He]]. apply obind_some in He. destruct He as [l0 [E3 He]]. injection He as <-.
      change (seq s (S (S len))) with (s :: seq (S s) (S len)). cbn [emit]. rewrite E1, E2. cbn [obind].
      rewrite (IH (S s) r l0); auto; [| |replace (S s + len)%nat with (s + S len)%nat by lia; auto].
      + cbn [obind]. rewrite <- !app_assoc. auto.
      + eapply Forall_impl; [|exact B]. cbn; intros; lia.
  Qed.
  Lemma emit_snoc_out (M : Mid) i len : forall s (outs : Outs) l, ssorted outs -> Forall (fun p => (s <= fst p <= s + len)%nat) outs -> emit M (seq s len) outs = Some l ->
    emit M (seq s len) (outs ++ [((s + len)%nat, i)]) = Some (l ++ [i]).
  Proof.
    induction len as [|len IH]; intros s outs l Hs Hb He.
    - cbn [seq emit] in *. injection He as <-. rewrite map_app. auto.
    - cbn [seq emit] in *. destruct (take_at_spec s (s + S len) outs Hs Hb) as [a [r [E1 [A [B [C D]]]]]]. rewrite E1 in He. rewrite D by lia.
      apply obind_some in He. destruct He as [i0 [E2 He]]. apply obind_some in He. destruct He as [l0 [E3 He]]. injection He as <-. rewrite E2. cbn [obind].
      replace (s + S len)%nat with (S s + len)%nat by lia. rewrite (IH (S s) r l0); auto.
      + cbn [obind]. rewrite <- !app_assoc. auto.
      + eapply Forall_impl; [|exact B]. cbn; intros; lia.
  Qed.
  Lemma emit_ext (M M' : Mid) ids : forall outs, (forall id, In id ids -> mid_insn M' id = mid_insn M id) -> emit M' ids outs = emit M ids outs.
  Proof.
    induction ids as [|id ids IH]; intros outs H; cbn [emit]; auto. destruct (take_at id outs) as [a r]. rewrite H by (left; auto). rewrite IH by (intros; apply H; right; auto). auto.
  Qed.
  Lemma m_ext_nth (M : Mid) k p c ly : mgood M -> kadd (m_pool M) k = (mlen M, p) ->
    knth (m_ext M p c ly) (mlen M) = Some k /\ nth_error (m_coefs (m_ext M p c ly)) (mlen M) = Some c /\
    forall i, (i < mlen M)%nat -> knth (m_ext M p c ly) i = knth M i /\ nth_error (m_coefs (m_ext M p c ly)) i = nth_error (m_coefs M) i.
  Proof.
    intros G Ek. destruct (kadd_new _ _ _ G Ek) as [Hp _]. unfold knth. cbn [m_ext m_pool m_coefs]. rewrite Hp. split; [|split].
    - unfold mlen. rewrite nth_error_app2 by auto. rewrite Nat.sub_diag. auto.
    - rewrite <- (mg_c _ G). rewrite nth_error_app2 by auto. rewrite Nat.sub_diag. auto.
    - intros i Hi. rewrite !nth_error_app1; auto. rewrite (mg_c _ G). auto.
  Qed.
  Lemma mid_old (M : Mid) k p c ly id : mgood M -> kadd (m_pool M) k = (mlen M, p) -> (id < mlen M)%nat -> mid_insn (m_ext M p c ly) id = mid_insn M id.
  Proof. intros G Ek Hi. destruct (m_ext_nth M k p c ly G Ek) as [_ [_ H]]. destruct (H id Hi) as [A B]. unfold knth in A. unfold mid_insn. rewrite A, B. auto. Qed.
  Lemma mid_real (M : Mid) e f p c ly : mgood M -> kadd (m_pool M) (e, f) = (mlen M, p) -> good (mlen M) e ->
    exists x, mid_insn (m_ext M p c ly) (mlen M) = Some (Some (DVar x)) /\ good (mlen M) x /\ forall E m, ev E m x = ev E m e * mk c + mb c.
  Proof.
    intros G Ek Ge. destruct (m_ext_nth M _ p c ly G Ek) as [A [B _]]. unfold knth in A. unfold mid_insn. rewrite A, B. cbn [obind fst].
    destruct (e_eqb e (e_linear F 1 (mlen M))) eqn:Ee.
    { exfalso. apply e_eqb_spec in Ee. subst e. assert (1 <= mlen M < mlen M)%nat; [|lia]. apply (g_vars _ _ Ge). cbn. auto. }
    destruct (mul_constant_good _ e (mk c) Ge) as [e2 [-> [G2 V2]]]. cbn [obind]. destruct (is0 F (mb c)) eqn:E0.
    - exists e2. split; auto. split; auto. intros E m. apply is0_spec in E0. rewrite V2, E0. ring.
    - destruct (good_from_terms (mlen M) (e2 ++ [t_const F (mb c)])) as [Q1 Q2].
      + apply Forall_app. split; [apply G2|repeat constructor].
      + intros x Hx. unfold e_vars in Hx. rewrite flat_map_app in Hx. apply in_app_or in Hx. destruct Hx as [Hx|Hx]; [apply (g_vars _ _ G2); auto|destruct Hx].
      + eexists. split; [reflexivity|]. split; auto. intros E m. rewrite Q2, ev_app, V2. fold (e_const F (mb c)). rewrite ev_const. auto.
  Qed.
  Lemma mid_fake (M : Mid) f p ly : mgood M -> kadd (m_pool M) (e_linear F 1 (mlen M), f) = (mlen M, p) -> mid_insn (m_ext M p mcoef_default ly) (mlen M) = Some None.
  Proof.
    intros G Ek. destruct (m_ext_nth M _ p mcoef_default ly G Ek) as [A [B _]]. unfold knth in A. unfold mid_insn. rewrite A, B. cbn [obind fst].
    replace (e_eqb (e_linear F 1 (mlen M)) (e_linear F 1 (mlen M))) with true; auto. symmetry. apply e_eqb_spec. auto.
  Qed.

  Record EI (n : nat) (M : Mid) (outs : Outs) (is : list (DInsn F)) : Prop := {
    ei_emit : emit_all n M outs = Some is;
    ei_sort : ssorted outs;
    ei_bound : Forall (fun p => (S n <= fst p <= mlen M)%nat) outs;
    ei_n : (S n <= mlen M)%nat
  }.
  Lemma ext_emit n (M : Mid) k p c ly outs is oi : mgood M -> EI n M outs is -> kadd (m_pool M) k = (mlen M, p) -> mid_insn (m_ext M p c ly) (mlen M) = Some oi ->
    EI n (m_ext M p c ly) outs (is ++ oi_list oi).
  Proof.
    intros G [A B C D] Ek Hm. destruct (kadd_new _ _ _ G Ek) as [Hp _]. pose proof (m_ext_len _ _ c ly _ Hp) as Hl. split; rewrite ?Hl.
    - unfold emit_all in *. rewrite Hl. replace (S (mlen M) - S n)%nat with (S (mlen M - S n)) by lia. apply emit_snoc_var; auto.
      + eapply Forall_impl; [|exact C]. cbn; intros; lia.
      + rewrite (emit_ext M) ; auto. intros id Hid. apply in_seq in Hid. apply (mid_old M k); auto. lia.
      + replace (S n + (mlen M - S n))%nat with (mlen M) by lia. auto.
    - auto.
    - eapply Forall_impl; [|exact C]. cbn; intros; lia.
    - lia.
  Qed.
  Lemma ssorted_snoc outs k i : ssorted outs -> Forall (fun p => (fst p <= k)%nat) outs -> ssorted (outs ++ [(k, i)]).
  Proof.
    intros Hs. induction Hs as [|p outs Hs IH Hf]; intros Hb; cbn [app]; [repeat constructor|]. inversion Hb; subst. constructor; [apply IH; auto|]. apply Forall_app. split; auto.
  Qed.
  Lemma out_emit n (M : Mid) outs is i : EI n M outs is -> EI n M (outs ++ [(mlen M, i)]) (is ++ [i]).
  Proof.
    intros [A B C D]. split; auto.
    - unfold emit_all in *. replace (mlen M) with (S n + (mlen M - S n))%nat at 2 by lia. apply emit_snoc_out; auto. eapply Forall_impl; [|exact C]. cbn; intros; lia.
    - apply ssorted_snoc; auto. eapply Forall_impl; [|exact C]. cbn; intros; lia.
    - apply Forall_app. split; [auto|]. constructor; [cbn; lia|constructor].
  Qed.

  (* ---------------- values ---------------- *)
  Lemma Pval_app E (M : Mid) (mv l : list F) : mgood M -> length mv = mlen M -> Pval E M (getv mv) -> Pval E M (getv (mv ++ l)).
  Proof.
    intros G Hl P i e f mc Hi Hk Hc. pose proof (nth_error_Some_lt _ _ _ Hk) as Hlt. change (i < mlen M)%nat in Hlt. rewrite getv_app_l by lia. rewrite (P i e f mc Hi Hk Hc).
    destruct (mg_each _ G i e f mc Hi Hk Hc) as [Ge|[-> ->]].
    - rewrite (ev_ext E (getv (mv ++ l)) (getv mv) i e Ge); auto. intros x Hx. apply getv_app_l. lia.
    - rewrite !ev_lin. rewrite getv_app_l by lia. auto.
  Qed.
  Lemma Pval_ext E (M : Mid) k p c ly m : mgood M -> kadd (m_pool M) k = (mlen M, p) -> Pval E M m -> m (mlen M) = ev E m (fst k) * mk c + mb c -> Pval E (m_ext M p c ly) m.
  Proof.
    intros G Ek P Hv i e f mc Hi Hk Hc. destruct (m_ext_nth M k p c ly G Ek) as [A [B H]]. destruct (kadd_new _ _ _ G Ek) as [Hp _].
    pose proof (nth_error_Some_lt _ _ _ Hk) as Hlt. change (i < mlen (m_ext M p c ly))%nat in Hlt. rewrite (m_ext_len _ _ c ly _ Hp) in Hlt.
    destruct (Nat.eq_dec i (mlen M)) as [->|N].
    - rewrite A in Hk. rewrite B in Hc. injection Hk as ->. injection Hc as <-. auto.
    - destruct (H i ltac:(lia)) as [H1 H2]. rewrite H1 in Hk. rewrite H2 in Hc. apply (P i e f mc Hi Hk Hc).
  Qed.
  Lemma good_no_random n e : good n e -> no_random F e.
  Proof.
    intros G. pose proof (g_lq _ _ G) as H. unfold no_random. eapply Forall_impl; [|exact H]. cbn. intros t. destruct (vars t); cbn; auto; try contradiction; discriminate.
  Qed.
  Lemma dvar_step E cs' n e (mv outs : list F) b : good n e -> length mv = n -> step DI E cs' (DVar e) mv outs b <-> outs = [ev E (getv mv) e] /\ b = true.
  Proof.
    intros G Hl. unfold step. cbn [DestI i_call d_call i_inputs d_inputs i_sem d_sem]. split.
    - intros [_ [[v [-> Hv]] ->]]. apply (expr_sem_val F) in Hv; [|eapply good_no_random; eauto]. subst v. auto.
    - intros [-> ->]. split; [|split; auto].
      + apply Forall_forall. intros x Hx. apply (g_vars _ _ G) in Hx. unfold inb. lia.
      + eexists. split; [reflexivity|]. apply (expr_sem_val F); auto. eapply good_no_random; eauto.
  Qed.

  (* growing by expressions: instructions without calls that have exactly one outcome *)
  Lemma grow_emit n (M M' : Mid) outs is : mgood M -> mgrow M M' -> EI n M outs is -> exists new, EI n M' outs (is ++ new) /\ mlen M' = (mlen M + nouts DI new)%nat /\
    wf_insns DI new (mlen M - 1) /\ Forall (fun i => d_call F i = None) new /\
    forall E (mv : list F), length mv = mlen M -> Pval E M (getv mv) -> exists l, length (mv ++ l) = mlen M' /\ Pval E M' (getv (mv ++ l)) /\
      forall cs' mv' b, exec DI E cs' new mv mv' b <-> mv' = mv ++ l /\ b = true.
  Proof.
    intros G Hg He. induction Hg as [|M' e f c p ly Hg IH Ge Ek Hc Hci Hf].
    - exists []. rewrite app_nil_r. split; auto. split; [cbn; lia|]. split; [exact I|]. split; [constructor|]. intros E mv Hl P. exists []. rewrite app_nil_r. split; auto. split; auto. intros cs' mv' b. apply (exec_nil DI).
    - destruct IH as [new [A [B [C [D H]]]]]. pose proof (mgrow_good _ _ G Hg) as G'. destruct (mid_real M' e f p c ly G' Ek Ge) as [x [X1 [X2 X3]]].
      destruct (kadd_new _ _ _ G' Ek) as [Hp _]. pose proof (m_ext_len _ _ c ly _ Hp) as Hl. pose proof (mgood_len _ G) as Hpos. exists (new ++ [DVar x]). split; [|split; [|split; [|split]]].
      + rewrite app_assoc. apply (ext_emit n M' (e, f) p c ly outs (is ++ new) (Some (DVar x))); auto.
      + rewrite Hl, (nouts_app DI), B. cbn [nouts DestI i_nout d_nout]. lia.
      + apply (wf_insns_app DI). split; auto. cbn [wf_insns]. split; [|exact I]. cbn [DestI i_inputs d_inputs]. apply Forall_forall. intros y Hy. apply (g_vars _ _ X2) in Hy. lia.
      + apply Forall_app. split; [auto|]. repeat constructor.
      + intros E mv Hm P. destruct (H E mv Hm P) as [l [H1 [H2 H3]]]. exists (l ++ [ev E (getv (mv ++ l)) x]). rewrite app_assoc. split; [|split].
        * rewrite app_length, H1, Hl. cbn. lia.
        * apply (Pval_ext E M' (e, f)); auto.
          -- apply Pval_app; auto.
          -- rewrite getv_app_r by lia. rewrite H1, Nat.sub_diag. unfold getv at 1. cbn [nth fst]. rewrite X3. f_equal. f_equal. apply (ev_ext E _ _ (mlen M') e Ge). intros y Hy. symmetry. apply getv_app_l. lia.
        * intros cs' mv' b. rewrite (exec_snoc DI). split.
          -- intros [mid [o [b1 [b2 [Y1 [Y2 [-> ->]]]]]]]. apply H3 in Y1. destruct Y1 as [-> ->]. apply (dvar_step E cs' (mlen M') x) in Y2; auto. destruct Y2 as [-> ->]. auto.
          -- intros [-> ->]. eexists _, _, true, true. split; [apply H3; auto|]. split; [apply (dvar_step E cs' (mlen M') x); auto|auto].
  Qed.

  (* ---------------- one instruction ---------------- *)
  Record BI (n : nat) (B : FB) (is : list (DInsn F)) : Prop := {
    bi_good : mgood (fb_mid B);
    bi_ex : gall (fb_mid B) (fb_exprs B);
    bi_ei : EI n (fb_mid B) (fb_outs B) is;
    bi_n : mlen (fb_mid B) = (S n + nouts DI is)%nat;
    bi_wf : wf_insns DI is n
  }.
  (* [sv]: values of the source variables; [mv]: of the emitted ones *)
  Definition R (E : Env F) (B : FB) (sv mv : list F) : Prop :=
    length mv = mlen (fb_mid B) /\ Pval E (fb_mid B) (getv mv) /\ sv = map (ev E (getv mv)) (fb_exprs B).
  Lemma R_ext E (M : Mid) es (mv l : list F) : gall M es -> length mv = mlen M -> map (ev E (getv (mv ++ l))) es = map (ev E (getv mv)) es.
  Proof.
    intros G Hl. apply map_ext_in. intros e He. unfold gall in G. rewrite Forall_forall in G. apply (ev_ext E _ _ (mlen M) e (G e He)). intros x Hx. apply getv_app_l. lia.
  Qed.
  Record fstep (n : nat) (B B' : FB) (i : LInsn F) (is new : list (DInsn F)) : Prop := {
    fs_bi : BI n B' (is ++ new);
    fs_ex : exists es, fb_exprs B' = fb_exprs B ++ es /\ length es = l_nout F i;
    fs_calls : forall i' o l' k, In i' new -> d_call F i' = Some (o, l', k) -> exists l, l_callf F i = Some (o, l, k) /\ length l' = length l;
    fs_fwd : forall E cs sv mv outs b, R E B sv mv -> call_wf LI cs i -> step LI E cs i sv outs b -> exists mv', R E B' (sv ++ outs) mv' /\
      forall cs', (forall o l k ins outs b, l_callf F i = Some (o, l, k) -> length ins = length l -> run LI E cs o ins outs b -> run DI E cs' o ins outs b) -> exec DI E cs' new mv mv' b;
    fs_bwd : forall E cs cs' sv mv mv' b, R E B sv mv -> Forall (call_wf DI cs') new -> exec DI E cs' new mv mv' b ->
      (forall o l k ins outs b, l_callf F i = Some (o, l, k) -> length ins = length l -> run DI E cs' o ins outs b -> run LI E cs o ins outs b) ->
      exists outs, step LI E cs i sv outs b /\ R E B' (sv ++ outs) mv'
  }.
  Lemma push_case n B is i (M' : Mid) e : BI n B is -> l_callf F i = None -> l_nout F i = 1%nat -> mgrow (fb_mid B) M' -> good (mlen M') e ->
    Forall (fun x => (x < length (fb_exprs B))%nat) (l_inputs F i) ->
    (forall E m outs, Pval E M' m -> l_sem F E i (getv (map (ev E m) (fb_exprs B))) outs <-> outs = [ev E m e]) -> exists new, fstep n B (fb_push B M' e) i is new.
  Proof.
    intros Hb Hc Hn Hg Ge Hin Hsem. destruct (grow_emit n _ _ _ _ (bi_good _ _ _ Hb) Hg (bi_ei _ _ _ Hb)) as [new [A [B1 [C [D H]]]]]. exists new.
    assert (Hgall : gall M' (fb_exprs B)) by (eapply gall_grow; [apply Hb|eauto|apply Hb]).
    assert (HR : forall E sv mv, R E B sv mv -> exists l, R E (fb_push B M' e) (sv ++ [ev E (getv (mv ++ l)) e]) (mv ++ l) /\ Pval E M' (getv (mv ++ l)) /\ sv = map (ev E (getv (mv ++ l))) (fb_exprs B) /\
      forall cs' mv' b, exec DI E cs' new mv mv' b <-> mv' = mv ++ l /\ b = true).
    { intros E sv mv [R1 [R2 R3]]. destruct (H E mv R1 R2) as [l [L1 [L2 L3]]]. exists l. assert (Hsv : sv = map (ev E (getv (mv ++ l))) (fb_exprs B)).
      { rewrite R3. symmetry. apply (R_ext E (fb_mid B)); auto. apply Hb. }
      split; [|auto]. split; [exact L1|]. split; [exact L2|]. cbn [fb_push fb_exprs]. rewrite map_app. cbn [map]. congruence. }
    assert (Hst : forall E cs sv outs b m, Pval E M' m -> sv = map (ev E m) (fb_exprs B) -> step LI E cs i sv outs b <-> outs = [ev E m e] /\ b = true).
    { intros E cs sv outs b m P ->. unfold step. change (@i_call F LI i) with (l_callf F i). rewrite Hc. change (@i_sem F LI) with (l_sem F). rewrite (Hsem E m outs P). split; [tauto|].
      intros [-> ->]. split; auto. eapply Forall_impl; [|exact Hin]. cbn. intros x Hx. unfold inb. rewrite map_length. auto. }
    split.
    - split; cbn [fb_push fb_mid fb_exprs fb_outs].
      + eapply mgrow_good; [apply Hb|eauto].
      + apply Forall_app. split; auto.
      + auto.
      + rewrite B1, (bi_n _ _ _ Hb), (nouts_app DI). lia.
      + apply (wf_insns_app DI). split; [apply Hb|]. pose proof (bi_n _ _ _ Hb) as Hbn. replace (n + nouts DI is)%nat with (mlen (fb_mid B) - 1)%nat by lia. auto.
    - exists [e]. auto.
    - intros i' o l' k Hi' Hcall. rewrite Forall_forall in D. rewrite (D i' Hi') in Hcall. discriminate.
    - intros E cs sv mv outs b HRR _ Hs. destruct (HR E sv mv HRR) as [l [L1 [L2 [L3 L4]]]]. apply (Hst E cs sv outs b (getv (mv ++ l)) L2 L3) in Hs. destruct Hs as [-> ->]. exists (mv ++ l). split; auto. intros cs' _. apply L4. auto.
    - intros E cs cs' sv mv mv' b HRR _ Hx _. destruct (HR E sv mv HRR) as [l [L1 [L2 [L3 L4]]]]. apply L4 in Hx. destruct Hx as [-> ->]. eexists. split; [apply (Hst E cs sv _ true (getv (mv ++ l)) L2 L3); auto|auto].
  Qed.
  Lemma new_var_spec (M : Mid) ly : mgood M -> exists M', m_new_var M ly = Some M' /\ mgood M' /\ mlen M' = S (mlen M) /\ (forall E m, Pval E M m -> Pval E M' m) /\
    forall n outs is, EI n M outs is -> EI n M' outs is.
  Proof.
    intros G. unfold m_new_var. destruct (kadd (m_pool M) (e_linear F 1 (mlen M), false)) as [i p] eqn:Ek.
    destruct (kadd_cases _ _ _ _ G Ek) as [->|[Hlt [_ Hn]]].
    2: { exfalso. pose proof (nonnil_idx _ _ _ _ G Hn ltac:(discriminate)) as Hi. destruct (knth_coef _ _ _ G Hn) as [mc Hmc]. destruct (mg_each _ G _ _ _ _ Hi Hn Hmc) as [Ge|[Ee _]].
      - assert (1 <= mlen M < i)%nat; [|lia]. apply (g_vars _ _ Ge). cbn. auto.
      - inversion Ee. lia. }
    rewrite Nat.eqb_refl. eexists. split; [reflexivity|]. destruct (kadd_new _ _ _ G Ek) as [Hp _]. pose proof (mgood_len _ G) as Hpos.
    split; [|split; [|split]].
    - apply (m_ext_good M _ p _ ly G Ek); auto; [apply f1_neq_f0|]. cbn [mcoef_default mkinv mk]. pose proof (finv_l F 1 (f1_neq_f0 F)) as Hy. rewrite <- Hy at 1. ring.
    - apply (m_ext_len _ _ _ _ _ Hp).
    - intros E m P. apply (Pval_ext E M _ p _ ly m G Ek P). cbn [fst mcoef_default mk mb]. rewrite ev_lin. ring.
    - intros n outs is He. pose proof (ext_emit n M _ p mcoef_default ly outs is None G He Ek (mid_fake M _ p ly G Ek)) as Hx. cbn [oi_list] in Hx. rewrite app_nil_r in Hx. auto.
  Qed.
  Lemma add_in_vars_spec k ly : forall (M : Mid) es, mgood M -> exists M', add_in_vars k ly M es = Some (M', es ++ map (e_linear F 1) (seq (mlen M) k)) /\ mgood M' /\ mlen M' = (mlen M + k)%nat /\
    (forall E m, Pval E M m -> Pval E M' m) /\ forall n outs is, EI n M outs is -> EI n M' outs is.
  Proof.
    induction k as [|k IH]; intros M es G; cbn [add_in_vars seq map].
    - exists M. rewrite app_nil_r. split; [reflexivity|]. split; [exact G|]. split; [lia|]. auto.
    - destruct (new_var_spec M ly G) as [M1 [-> [A [B [C D]]]]]. cbn [obind]. destruct (IH M1 (es ++ [e_linear F 1 (mlen M)]) A) as [M' [-> [A' [B' [C' D']]]]].
      exists M'. rewrite B, <- app_assoc. split; [reflexivity|]. split; [exact A'|]. split; [lia|]. split; [auto|auto].
  Qed.
  Lemma getv_new (mv outs : list F) k : length outs = k -> map (getv (mv ++ outs)) (seq (length mv) k) = outs.
  Proof.
    intros <-. revert mv. induction outs as [|o outs IH]; intros mv; cbn [length seq map]; auto. f_equal.
    - unfold getv. rewrite app_nth2 by auto. rewrite Nat.sub_diag. auto.
    - specialize (IH (mv ++ [o])). rewrite app_length in IH. cbn [length] in IH. rewrite Nat.add_1_r, <- app_assoc in IH. exact IH.
  Qed.
  Lemma map_fake E (mv outs : list F) k : length outs = k -> map (ev E (getv (mv ++ outs))) (map (e_linear F 1) (seq (length mv) k)) = outs.
  Proof.
    intros H. rewrite map_map. transitivity (map (getv (mv ++ outs)) (seq (length mv) k)); [|apply getv_new; auto]. apply map_ext. intros x. rewrite ev_lin. ring.
  Qed.
  (* a call or a coefficient that is not a constant: an instruction with [k] results of its own *)
  Lemma out_case n B is i (M1 : Mid) d k ly : BI n B is -> l_nout F i = k -> d_nout F d = k -> mgrow (fb_mid B) M1 -> Forall (fun x => (1 <= x < mlen M1)%nat) (d_inputs F d) ->
    (forall o l' j, d_call F d = Some (o, l', j) -> exists l, l_callf F i = Some (o, l, j) /\ length l' = length l) ->
    (forall E cs (mv : list F) outs b, length mv = mlen M1 -> Pval E M1 (getv mv) -> call_wf LI cs i -> step LI E cs i (map (ev E (getv mv)) (fb_exprs B)) outs b ->
       length outs = k /\ forall cs', (forall o l k ins outs b, l_callf F i = Some (o, l, k) -> length ins = length l -> run LI E cs o ins outs b -> run DI E cs' o ins outs b) -> step DI E cs' d mv outs b) ->
    (forall E cs cs' (mv : list F) outs b, length mv = mlen M1 -> Pval E M1 (getv mv) -> step DI E cs' d mv outs b ->
       (forall o l k ins outs b, l_callf F i = Some (o, l, k) -> length ins = length l -> run DI E cs' o ins outs b -> run LI E cs o ins outs b) ->
       step LI E cs i (map (ev E (getv mv)) (fb_exprs B)) outs b) ->
    exists B' new, fb_add_in_vars {| fb_exprs := fb_exprs B; fb_mid := M1; fb_outs := fb_outs B |} (fb_outs B ++ [(mlen M1, d)]) k ly = Some B' /\ fstep n B B' i is new.
  Proof.
    intros Hb Hk Hd Hg Hin Hcalls Hf Hbk. destruct (grow_emit n _ _ _ _ (bi_good _ _ _ Hb) Hg (bi_ei _ _ _ Hb)) as [new [A [B1 [C [D H]]]]].
    pose proof (mgrow_good _ _ (bi_good _ _ _ Hb) Hg) as G1. unfold fb_add_in_vars. cbn [fb_mid fb_exprs].
    destruct (add_in_vars_spec k ly M1 (fb_exprs B) G1) as [M' [-> [G' [L' [P' EI']]]]]. cbn [obind fst snd].
    assert (Hgall : gall M1 (fb_exprs B)) by (eapply gall_grow; [apply Hb|eauto|apply Hb]). pose proof (mgood_len _ G1) as Hpos.
    eexists _, (new ++ [d]). split; [reflexivity|].
    assert (HR : forall E sv (mv : list F) l outs, R E B sv mv -> length (mv ++ l) = mlen M1 -> Pval E M1 (getv (mv ++ l)) -> length outs = k ->
      sv = map (ev E (getv (mv ++ l))) (fb_exprs B) /\
      R E {| fb_exprs := fb_exprs B ++ map (e_linear F 1) (seq (mlen M1) k); fb_mid := M'; fb_outs := fb_outs B ++ [(mlen M1, d)] |} (sv ++ outs) ((mv ++ l) ++ outs)).
    { intros E sv mv l outs [R1 [R2 R3]] L1 L2 Ho. assert (Hsv : sv = map (ev E (getv (mv ++ l))) (fb_exprs B)).
      { rewrite R3. symmetry. apply (R_ext E (fb_mid B)); auto. apply Hb. }
      split; auto. split; [|split]; cbn [fb_mid fb_exprs].
      - rewrite app_length. lia.
      - apply P'. apply Pval_app; auto.
      - rewrite map_app, <- L1, (map_fake E (mv ++ l) outs k Ho). rewrite (R_ext E M1 (fb_exprs B) (mv ++ l) outs Hgall L1). congruence. }
    split.
    - split; cbn [fb_mid fb_exprs fb_outs].
      + auto.
      + apply Forall_app. split.
        * eapply Forall_impl; [|exact Hgall]. intros e He. apply (good_mono _ _ _ He). lia.
        * apply Forall_forall. intros e He. apply in_map_iff in He. destruct He as [x [<- Hx]]. apply in_seq in Hx. apply good_linear; [apply f1_neq_f0|lia].
      + apply EI'. rewrite app_assoc. apply out_emit. auto.
      + rewrite L', B1, (bi_n _ _ _ Hb), app_assoc, !(nouts_app DI). cbn [nouts DestI i_nout]. lia.
      + pose proof (bi_n _ _ _ Hb) as Hbn. apply (wf_insns_app DI). split; [apply Hb|]. replace (n + nouts DI is)%nat with (mlen (fb_mid B) - 1)%nat by lia.
        apply (wf_insns_app DI). split; auto. cbn [wf_insns]. split; [|exact I]. eapply Forall_impl; [|exact Hin]. cbn. intros; lia.
    - eexists. split; [reflexivity|]. rewrite map_length, seq_length. auto.
    - intros i' o l' j Hi' Hcall. apply in_app_or in Hi'. destruct Hi' as [Hi'|[<-|[]]]; [|apply Hcalls; auto]. rewrite Forall_forall in D. rewrite (D i' Hi') in Hcall. discriminate.
    - intros E cs sv mv outs b HRR Hw Hs. pose proof HRR as [R1 [R2 R3]]. destruct (H E mv R1 R2) as [l [L1 [L2 L3]]].
      assert (Hsv : sv = map (ev E (getv (mv ++ l))) (fb_exprs B)). { rewrite R3. symmetry. apply (R_ext E (fb_mid B)); auto. apply Hb. }
      rewrite Hsv in Hs. destruct (Hf E cs (mv ++ l) outs b L1 L2 Hw Hs) as [Ho Hs']. destruct (HR E sv mv l outs HRR L1 L2 Ho) as [_ HR'].
      exists ((mv ++ l) ++ outs). split; auto. intros cs' Hsub. apply (exec_snoc DI). exists (mv ++ l), outs, true, b. split; [apply L3; auto|]. split; [apply Hs'; auto|]. auto.
    - intros E cs cs' sv mv mv' b HRR Hw Hx Hsub. pose proof HRR as [R1 [R2 R3]]. destruct (H E mv R1 R2) as [l [L1 [L2 L3]]].
      apply (exec_snoc DI) in Hx. destruct Hx as [mid [outs [b1 [b2 [X1 [X2 [-> ->]]]]]]]. apply L3 in X1. destruct X1 as [-> ->].
      apply Forall_app in Hw. destruct Hw as [_ Hw]. pose proof (Forall_inv Hw) as Hw1. pose proof (step_len DI (DestL F false) E cs' d (mv ++ l) outs b2 Hw1 X2) as Sl. change (@i_nout F DI d) with (d_nout F d) in Sl.
      destruct (HR E sv mv l outs HRR L1 L2 ltac:(congruence)) as [Hsv HR']. exists outs. split; [|exact HR']. rewrite Hsv. apply (Hbk E cs cs'); auto.
  Qed.

  Lemma add_and_check_spec K refs B (M : Mid) e : mgood M -> good (mlen M) e -> (length (fb_exprs B) < length refs)%nat ->
    exists M' e', add_and_check K refs B M e = Some (fb_push B M' e') /\ mgrow M M' /\ good (mlen M') e' /\ forall E m, Pval E M' m -> ev E m e' = ev E m e.
  Proof.
    intros G Ge Hl. unfold add_and_check. destruct (nth_error_Some_ex refs (length (fb_exprs B)) Hl) as [r ->]. cbn [obind].
    destruct (count_spec _ _ Ge) as [d0 [d1 [d2 [-> _]]]]. cbn [obind]. destruct (e_degree_spec _ _ Ge) as [d [-> _]]. cbn [obind].
    destruct (should_compress K r (d0, d1, d2) && negb (Nat.eqb d 0)).
    - destruct (make_single_spec M e G Ge) as [M1 [e1 [-> [A [B1 [C D]]]]]]. cbn [obind fst snd]. eexists _, _. split; [reflexivity|]. auto.
    - eexists _, _. split; [reflexivity|]. split; [constructor|]. auto.
  Qed.
  Lemma really_singles_spec es : forall (M : Mid), mgood M -> gall M es -> exists M' xs, really_singles M es = Some (M', xs) /\ mgrow M M' /\ length xs = length es /\ Forall (fun x => (1 <= x < mlen M')%nat) xs /\
    forall E m, Pval E M' m -> map m xs = map (ev E m) es.
  Proof.
    induction es as [|e es IH]; intros M G Ga; cbn [really_singles].
    - exists M, []. split; auto. split; [constructor|]. auto.
    - inversion Ga as [|? ? Ge Ga']; subst. destruct (make_really_single_spec M e G Ge) as [M1 [x [-> [A [B C]]]]]. cbn [obind fst snd]. pose proof (mgrow_good _ _ G A) as G1.
      destruct (IH M1 G1 (gall_grow _ _ _ G A Ga')) as [M2 [xs [-> [A2 [B2 [C2 D2]]]]]]. cbn [obind fst snd]. eexists _, _. split; [reflexivity|]. split; [eapply mgrow_trans; eauto|]. split; [cbn; lia|]. split.
      + constructor; auto. pose proof (mgrow_len _ _ G1 A2). lia.
      + intros E m P. cbn [map]. rewrite (D2 E m P), (C E m (mgrow_Pval _ _ _ _ G1 A2 P)). auto.
  Qed.
  Lemma get_exprs_spec (B : FB) l : Forall (fun x => (x < length (fb_exprs B))%nat) l -> exists es, get_exprs B l = Some es /\ length es = length l /\ (forall e, In e es -> In e (fb_exprs B)) /\
    forall E m, map (ev E m) es = map (getv (map (ev E m) (fb_exprs B))) l.
  Proof.
    unfold get_exprs. induction l as [|x l IH]; intros H; cbn [omap].
    - exists []. split; auto. split; auto. split; [intros e []|auto].
    - inversion H as [|? ? H1 H2]; subst. destruct (nth_error_Some_ex _ _ H1) as [e He]. rewrite He. destruct (IH H2) as [es [-> [A [B1 C]]]]. exists (e :: es). split; auto. split; [cbn; lia|]. split.
      + intros e' [<-|He']; auto. eapply nth_error_In; eauto.
      + intros E m. cbn [map]. rewrite C. f_equal. unfold getv. rewrite (nth_indep _ 0 (ev E m e)) by (rewrite map_length; auto). rewrite (map_nth (ev E m)). f_equal. symmetry. apply nth_error_nth; auto.
  Qed.
  Lemma sub_gall (M : Mid) es es' : gall M es -> (forall e, In e es' -> In e es) -> gall M es'.
  Proof. unfold gall. rewrite !Forall_forall. auto. Qed.
  Lemma mul_eval_pval E m (es : list Expr) l (g : nat -> F) : map (ev E m) es = map g l -> pval E m es = mul_eval g l.
  Proof. intros H. rewrite mul_eval_prod. unfold pval. rewrite H. induction l as [|x l IH] in es, H |- *; cbn; auto. destruct es; [discriminate|]. cbn in H. injection H as _ H. f_equal. eapply IH; eauto. Qed.

  Lemma fb_insn_spec K ol refs n B is i q : BI n B is -> Forall (fun x => (0 < x < length (fb_exprs B))%nat) (l_inputs F i) -> l_validate F q i = true -> (length (fb_exprs B) + l_nout F i <= length refs)%nat ->
    (forall o l k, l_callf F i = Some (o, l, k) -> In o (keys ol)) ->
    (exists B' new, fb_insn K ol refs B i = Ok B' /\ fstep n B B' i is new) \/ (fb_insn K ol refs B i = OutOfFuel /\ ~ costs_ok K).
  Proof.
    intros Hb Hin0 Hv Hr Hol. pose proof (bi_good _ _ _ Hb) as G. pose proof (bi_ex _ _ _ Hb) as Ga.
    assert (Hin : Forall (fun x => (x < length (fb_exprs B))%nat) (l_inputs F i)) by (eapply Forall_impl; [|exact Hin0]; cbn; intros; lia).
    assert (Hpush : l_callf F i = None -> l_nout F i = 1%nat -> forall M1 e, mgrow (fb_mid B) M1 -> good (mlen M1) e ->
      (forall E m outs, Pval E M1 m -> l_sem F E i (getv (map (ev E m) (fb_exprs B))) outs <-> outs = [ev E m e]) -> exists B' new, of_opt (add_and_check K refs B M1 e) = Ok B' /\ fstep n B B' i is new).
    { intros Hc Hn M1 e Hg Ge Hs. pose proof (mgrow_good _ _ G Hg) as G1. destruct (add_and_check_spec K refs B M1 e G1 Ge ltac:(lia)) as [M2 [e2 [-> [A [B1 C]]]]].
      destruct (push_case n B is i M2 e2 Hb Hc Hn (mgrow_trans _ _ _ Hg A) B1 Hin) as [new Hnew].
      - intros E m outs P. rewrite (C E m P). apply Hs. eapply mgrow_Pval; eauto.
      - eexists _, _. split; [reflexivity|exact Hnew]. }
    destruct i as [lc|vs|c|id vs k|gt vs]; cbn [fb_insn].
    - left. cbn [l_inputs] in Hin. clear Hin0.
      assert (Hops : exists ops, omap (fun t : nat * F => let* e := nth_error (fb_exprs B) (fst t) in Some (e, snd t)) (lc_terms lc) = Some ops /\ Forall (fun x => good (mlen (fb_mid B)) (fst x)) ops /\
        forall E m, lval E m ops = fsum F (map (fun t => getv (map (ev E m) (fb_exprs B)) (fst t) * snd t) (lc_terms lc))).
      { unfold lc_vars in Hin. clear Hpush Hv Hr Hol. induction (lc_terms lc) as [|[x c] ts IH]; cbn [omap].
        - exists []. split; auto.
        - cbn [map fst] in Hin. inversion Hin as [|? ? H1 H2]; subst. cbn [fst snd]. destruct (nth_error_Some_ex _ _ H1) as [e He]. rewrite He. cbn [obind]. destruct (IH H2) as [ops [-> [A C]]]. eexists. split; [reflexivity|]. split.
          + constructor; auto. cbn [fst]. unfold gall in Ga. rewrite Forall_forall in Ga. apply Ga. eapply nth_error_In; eauto.
          + intros E m. rewrite lval_cons, C. cbn [fst snd map]. unfold fsum; cbn [fold_right]. f_equal. f_equal. unfold getv. rewrite (nth_indep _ 0 (ev E m e)) by (rewrite map_length; auto). rewrite (map_nth (ev E m)). f_equal. symmetry. apply nth_error_nth; auto. }
      destruct Hops as [ops [-> [Gops Vops]]]. cbn [obind].
      destruct (f_lin_comb_inner_spec (fb_mid B) (ops ++ (if is0 F (lc_const lc) then [] else [(e_const F (lc_const lc), 1)])) G) as [M1 [e [-> [A [B1 C]]]]].
      { apply Forall_app. split; auto. destruct (is0 F (lc_const lc)); constructor; [apply good_const|constructor]. }
      cbn [obind fst snd]. apply Hpush; auto. intros E m outs P. cbn [l_sem]. rewrite (C E m P), lval_app, Vops, lc_eval_sum.
      replace (lval E m (if is0 F (lc_const lc) then [] else [(e_const F (lc_const lc), 1)])) with (lc_const lc).
      + assert (Hx : forall a b : F, a + b = b + a) by (intros; ring). rewrite Hx. reflexivity.
      + destruct (is0 F (lc_const lc)) eqn:E0; [apply is0_spec in E0; rewrite E0; reflexivity|]. unfold lval, fsum. cbn [map fold_right fst snd]. rewrite ev_const. ring.
    - cbn [l_inputs l_validate] in *. apply Nat.leb_le in Hv. destruct (get_exprs_spec B vs Hin) as [es [-> [A [B1 C]]]]. cbn [of_opt rbind].
      destruct (f_mul_vec_spec K (fb_mid B) es G (sub_gall _ _ _ Ga B1) ltac:(lia)) as [[M1 [e [-> [P [Q R1]]]]]|[-> Hk]]; cbn [rbind fst snd]; [left|right; auto].
      apply Hpush; auto. intros E m outs Pv. cbn [l_sem]. rewrite (R1 E m Pv), (mul_eval_pval E m es vs (getv (map (ev E m) (fb_exprs B))) (C E m)). reflexivity.
    - left. destruct c as [c| |id].
      + destruct (push_case n B is (LConst (CConst c)) (fb_mid B) (e_const F c) Hb) as [new Hnew]; auto; [constructor|apply good_const| |eauto].
        intros E m outs _. cbn [l_sem]. unfold const_sem. cbn [coef_sem]. rewrite ev_const. split; [intros [v [-> ->]]; auto|intros ->; eauto].
      + destruct (out_case n B is (LConst CRandom) (fb_mid B) (DConst CRandom) 1 1 Hb eq_refl eq_refl (mg_refl _)) as [B' [new [E1 H]]].
        * constructor.
        * intros; discriminate.
        * intros E cs mv outs b _ _ _ Hs. unfold step in *. cbn [HlI i_call l_callf i_sem l_sem] in Hs. destruct Hs as [_ [[v [-> Hc]] ->]]. split; auto. intros cs' _. cbn. split; auto. split; auto. exists v; auto.
        * intros E cs cs' mv outs b _ _ Hs _. unfold step in *. cbn [DestI i_call d_call i_sem d_sem] in Hs. destruct Hs as [_ [[v [-> Hc]] ->]]. cbn. split; auto. split; auto. exists v; auto.
        * destruct B as [es M outs]. cbn [fb_exprs fb_mid fb_outs] in *. rewrite E1. cbn [of_opt]. eauto.
      + destruct (out_case n B is (LConst (CPub id)) (fb_mid B) (DConst (CPub id)) 1 1 Hb eq_refl eq_refl (mg_refl _)) as [B' [new [E1 H]]].
        * constructor.
        * intros; discriminate.
        * intros E cs mv outs b _ _ _ Hs. unfold step in *. cbn [HlI i_call l_callf i_sem l_sem] in Hs. destruct Hs as [_ [[v [-> Hc]] ->]]. split; auto. intros cs' _. cbn. split; auto. split; auto. exists v; auto.
        * intros E cs cs' mv outs b _ _ Hs _. unfold step in *. cbn [DestI i_call d_call i_sem d_sem] in Hs. destruct Hs as [_ [[v [-> Hc]] ->]]. cbn. split; auto. split; auto. exists v; auto.
        * destruct B as [es M outs]. cbn [fb_exprs fb_mid fb_outs] in *. rewrite E1. cbn [of_opt]. eauto.
    - left. cbn [l_inputs] in *. destruct (lookup id ol) as [sub|] eqn:El.
      2: { exfalso. pose proof (Hol id vs k eq_refl) as Hx. apply lookup_keys in Hx. destruct Hx as [v Hx]. congruence. }
      cbn [obind]. destruct (get_exprs_spec B vs Hin) as [es [-> [A [B1 C]]]]. cbn [obind]. destruct (really_singles_spec es (fb_mid B) G (sub_gall _ _ _ Ga B1)) as [M1 [xs [-> [P [Q [R1 S]]]]]]. cbn [obind fst snd].
      destruct (out_case n B is (LCall id vs k) M1 (DCall id xs k) k (max_layer M1 xs 1 + sub) Hb eq_refl eq_refl P) as [B' [new [E1 H]]].
      + auto.
      + intros o l' j Hj. cbn [d_call] in Hj. injection Hj as <- <- <-. exists vs. split; auto. congruence.
      + intros E cs mv outs b Hl Pv Hw Hs. unfold step in Hs. cbn [HlI i_call l_callf] in Hs. destruct Hs as [_ Hs]. destruct (Hw id vs k eq_refl) as [co [W1 [W2 W3]]]. split; [rewrite (run_len LI _ _ _ _ _ _ _ Hs W1); auto|].
        intros cs' Hsub. unfold step. cbn [DestI i_call d_call]. split; [eapply Forall_impl; [|exact R1]; cbn; unfold inb; intros; lia|]. apply (Hsub id vs k); auto; [rewrite map_length; congruence|].
        rewrite (S E (getv mv) Pv), C. auto.
      + intros E cs cs' mv outs b Hl Pv Hs Hsub. unfold step in *. cbn [DestI i_call d_call] in Hs. cbn [HlI i_call l_callf]. destruct Hs as [_ Hs]. split; [eapply Forall_impl; [|exact Hin]; cbn; unfold inb; intros; rewrite map_length; auto|].
        apply (Hsub id vs k); auto; [rewrite map_length; auto|]. rewrite <- C, <- (S E (getv mv) Pv). auto.
      + rewrite E1. cbn [of_opt]. eauto.
    - left. cbn [l_inputs] in *. destruct (get_exprs_spec B vs Hin) as [es [-> [A [B1 C]]]]. cbn [obind]. destruct (really_singles_spec es (fb_mid B) G (sub_gall _ _ _ Ga B1)) as [M1 [xs [-> [P [Q [R1 S]]]]]]. cbn [obind fst snd].
      apply Hpush; auto.
      + split; [apply canonical_single; [reflexivity|right; apply f1_neq_f0]|repeat constructor|]. intros x Hx. unfold e_vars, e_custom in Hx. cbn in Hx. rewrite app_nil_r in Hx. rewrite Forall_forall in R1. auto.
      + intros E m outs Pv. cbn [l_sem]. unfold e_custom. rewrite ev_cons, ev_nil. unfold term_val. cbn [vars coef vs_val]. rewrite <- C, <- (S E m Pv).
        replace (e_gate E gt (map m xs) * 1 + 0) with (e_gate E gt (map m xs)) by ring. reflexivity.
  Qed.

  (* ---------------- the reference counts ---------------- *)
  Lemma bump_all u xs : forall l : list Refs, Forall (fun x => (x < length l)%nat) xs -> exists l', fold_left (f_bump u) xs (Some l) = Some l' /\ length l' = length l.
  Proof.
    induction xs as [|x xs IH]; intros l H; cbn [fold_left]; [eauto|]. inversion H as [|? ? H1 H2]; subst. unfold f_bump at 2. cbn [obind]. destruct (nth_error_Some_ex _ _ H1) as [r ->]. cbn [obind].
    destruct (IH (upd l x (use u r))) as [l' [E1 E2]]; [rewrite upd_length; auto|]. exists l'. split; auto. rewrite E2, upd_length. auto.
  Qed.
  Lemma insn_refs_all is : forall l : list Refs, (1 <= length l)%nat -> wf_insns LI is (length l - 1) -> exists l', fold_left (insn_refs (F := F)) is (Some l) = Some l' /\ length l' = (length l + nouts LI is)%nat.
  Proof.
    induction is as [|i is IH]; intros l Hl H; cbn [fold_left nouts]; [exists l; split; auto; lia|]. cbn [wf_insns] in H. destruct H as [H1 H2].
    assert (Hi : exists l1, insn_refs (Some l) i = Some (l1 ++ repeat (0, 0, 0)%nat (l_nout F i)) /\ length l1 = length l).
    { assert (H1' : Forall (fun x => (x < length l)%nat) (l_inputs F i)). { eapply Forall_impl; [|exact H1]. cbn; intros; lia. }
      unfold insn_refs. destruct i as [lc|vs|c|id vs k|gt vs]; cbn [l_inputs] in H1'.
      - destruct (bump_all UAdd _ l H1') as [l1 [-> E]]. exists l1. split; [reflexivity|exact E].
      - destruct (bump_all UMul _ l H1') as [l1 [-> E]]. exists l1. split; [reflexivity|exact E].
      - exists l. split; reflexivity.
      - destruct (bump_all USingle _ l H1') as [l1 [-> E]]. exists l1. split; [reflexivity|exact E].
      - destruct (bump_all USingle _ l H1') as [l1 [-> E]]. exists l1. split; [reflexivity|exact E]. }
    destruct Hi as [l1 [-> E1]]. set (r0 := repeat ((0, 0, 0)%nat : Refs) (l_nout F i)) in *. assert (Hlen : @length Refs (l1 ++ r0) = (length l + l_nout F i)%nat) by (rewrite app_length; unfold r0; rewrite repeat_length; lia).
    destruct (IH (l1 ++ r0)) as [l' [E2 E3]]; [rewrite app_length; lia| |].
    - rewrite Hlen. replace (length l + l_nout F i - 1)%nat with (length l - 1 + l_nout F i)%nat by lia. exact H2.
    - exists l'. split; auto. rewrite E3, Hlen. change (@i_nout F LI i) with (l_nout F i). lia.
  Qed.
  Lemma ref_counts_spec (c : Circuit LI) : wf_circuit LI c -> exists refs, ref_counts c = Some refs /\ length refs = (S (num_inputs c) + nouts LI (instructions c))%nat.
  Proof.
    intros [A B C]. unfold ref_counts. destruct (insn_refs_all (instructions c) (@repeat (nat * nat * nat) (0, 0, 0)%nat (S (num_inputs c)))) as [l1 [E0 E1]].
    - unfold Refs. rewrite repeat_length. lia.
    - unfold Refs. rewrite repeat_length. replace (S (num_inputs c) - 1)%nat with (num_inputs c) by lia. auto.
    - unfold Refs in *. rewrite repeat_length in E1. rewrite E0. destruct (bump_all USingle (outputs c) l1) as [l2 [E2' E2]]; [eapply Forall_impl; [|exact C]; cbn; unfold Refs in *; intros; lia|].
      unfold Refs in *. rewrite E2'. destruct (bump_all USingle (constraints c) l2) as [l3 [E3 E4]]; [eapply Forall_impl; [|exact B]; cbn; unfold Refs in *; intros; lia|]. exists l3. split; [exact E3|]. unfold Refs in *. lia.
  Qed.

  (* ---------------- the instructions ---------------- *)
  Definition subs_fwd (E : Env F) cs cs' (is : list (LInsn F)) : Prop :=
    forall i o l k ins outs b, In i is -> l_callf F i = Some (o, l, k) -> length ins = length l -> run LI E cs o ins outs b -> run DI E cs' o ins outs b.
  Definition subs_bwd (E : Env F) cs cs' (is : list (LInsn F)) : Prop :=
    forall i o l k ins outs b, In i is -> l_callf F i = Some (o, l, k) -> length ins = length l -> run DI E cs' o ins outs b -> run LI E cs o ins outs b.
  Record fsteps (n : nat) (B B' : FB) (si : list (LInsn F)) (is new : list (DInsn F)) : Prop := {
    fss_bi : BI n B' (is ++ new);
    fss_ex : length (fb_exprs B') = (length (fb_exprs B) + nouts LI si)%nat;
    fss_calls : forall i' o l' k, In i' new -> d_call F i' = Some (o, l', k) -> exists i l, In i si /\ l_callf F i = Some (o, l, k) /\ length l' = length l;
    fss_fwd : forall E cs sv mv sv' b, R E B sv mv -> Forall (call_wf LI cs) si -> exec LI E cs si sv sv' b -> exists mv', R E B' sv' mv' /\
      forall cs', subs_fwd E cs cs' si -> exec DI E cs' new mv mv' b;
    fss_bwd : forall E cs cs' sv mv mv' b, R E B sv mv -> Forall (call_wf DI cs') new -> exec DI E cs' new mv mv' b -> subs_bwd E cs cs' si -> exists sv', exec LI E cs si sv sv' b /\ R E B' sv' mv'
  }.
  Lemma fb_insns_spec K ol refs n q si : forall B is, BI n B is -> (1 <= length (fb_exprs B))%nat -> wf_insns LI si (length (fb_exprs B) - 1) -> Forall (fun i => l_validate F q i = true) si ->
    (length (fb_exprs B) + nouts LI si <= length refs)%nat -> (forall i o l k, In i si -> l_callf F i = Some (o, l, k) -> In o (keys ol)) ->
    (exists B' new, fb_insns K ol refs B si = Ok B' /\ fsteps n B B' si is new) \/ (fb_insns K ol refs B si = OutOfFuel /\ ~ costs_ok K).
  Proof.
    induction si as [|i si IH]; intros B is Hb Hl Hw Hv Hr Hol; cbn [fb_insns].
    - left. exists B, []. split; auto. split.
      + rewrite app_nil_r; auto.
      + cbn; lia.
      + intros i' o l' k [].
      + intros E cs sv mv sv' b HR _ H. apply (exec_nil LI) in H. destruct H as [-> ->]. exists mv. split; auto. intros. apply (exec_nil DI). auto.
      + intros E cs cs' sv mv mv' b HR _ H _. apply (exec_nil DI) in H. destruct H as [-> ->]. exists sv. split; auto. apply (exec_nil LI). auto.
    - cbn [wf_insns nouts] in *. destruct Hw as [Hw1 Hw2]. inversion Hv as [|? ? Hv1 Hv2]; subst. change (@i_nout F LI i) with (l_nout F i) in *.
      assert (Hw1' : Forall (fun x => (0 < x < length (fb_exprs B))%nat) (l_inputs F i)) by (eapply Forall_impl; [|exact Hw1]; cbn; intros; lia).
      assert (Hol1 : forall o l k, l_callf F i = Some (o, l, k) -> In o (keys ol)) by (intros o l k Hc; apply (Hol i o l k); [left; auto|auto]).
      destruct (fb_insn_spec K ol refs n B is i q Hb Hw1' Hv1 ltac:(lia) Hol1) as [[B1 [n1 [-> S1]]]|[-> Hk]].
      2: { right. auto. }
      cbn [rbind]. destruct (fs_ex _ _ _ _ _ _ S1) as [es [Ex El]]. assert (Hlen : length (fb_exprs B1) = (length (fb_exprs B) + l_nout F i)%nat) by (rewrite Ex, app_length; lia).
      assert (Hw2' : wf_insns LI si (length (fb_exprs B1) - 1)).
      { rewrite Hlen. replace (length (fb_exprs B) + l_nout F i - 1)%nat with (length (fb_exprs B) - 1 + l_nout F i)%nat by lia. auto. }
      assert (Hol2 : forall i o l k, In i si -> l_callf F i = Some (o, l, k) -> In o (keys ol)) by (intros j o l k Hj; apply Hol; right; auto).
      destruct (IH B1 (is ++ n1) (fs_bi _ _ _ _ _ _ S1) ltac:(lia) Hw2' Hv2 ltac:(lia) Hol2) as [[B2 [n2 [-> S2]]]|[-> Hk]]; [|right; auto].
      left. exists B2, (n1 ++ n2). split; auto. split.
      + rewrite app_assoc. apply S2.
      + rewrite (fss_ex _ _ _ _ _ _ S2), Hlen. cbn [nouts]. change (@i_nout F LI i) with (l_nout F i). lia.
      + intros i' o l' k Hi Hc. apply in_app_or in Hi. destruct Hi as [Hi|Hi].
        * destruct (fs_calls _ _ _ _ _ _ S1 i' o l' k Hi Hc) as [l [C1 C2]]. exists i, l. split; [left; auto|auto].
        * destruct (fss_calls _ _ _ _ _ _ S2 i' o l' k Hi Hc) as [j [l [C0 [C1 C2]]]]. exists j, l. split; [right; auto|auto].
      + intros E cs sv mv sv' b HR Hcw H. apply (exec_cons LI) in H. destruct H as [outs [b1 [b2 [X1 [X2 ->]]]]]. inversion Hcw as [|? ? W1 W2]; subst.
        destruct (fs_fwd _ _ _ _ _ _ S1 E cs sv mv outs b1 HR W1 X1) as [mv1 [HR1 Y1]]. destruct (fss_fwd _ _ _ _ _ _ S2 E cs _ mv1 sv' b2 HR1 W2 X2) as [mv2 [HR2 Y2]].
        exists mv2. split; auto. intros cs' Hs. apply (exec_app DI). exists mv1, b1, b2. split; [|split; auto].
        * apply Y1. intros o l k ins outs0 b Hc. apply (Hs i o l k). left; auto. auto.
        * apply Y2. intros j o l k ins outs0 b Hj. apply (Hs j o l k). right; auto.
      + intros E cs cs' sv mv mv' b HR Hcw H Hs. apply (exec_app DI) in H. destruct H as [mv1 [b1 [b2 [X1 [X2 ->]]]]]. apply Forall_app in Hcw. destruct Hcw as [W1 W2].
        destruct (fs_bwd _ _ _ _ _ _ S1 E cs cs' sv mv mv1 b1 HR W1 X1) as [outs [Y1 HR1]].
        { intros o l k ins outs0 b Hc. apply (Hs i o l k). left; auto. auto. }
        destruct (fss_bwd _ _ _ _ _ _ S2 E cs cs' _ mv1 mv' b2 HR1 W2 X2) as [sv' [Y2 HR2]].
        { intros j o l k ins outs0 b Hj. apply (Hs j o l k). right; auto. }
        exists sv'. split; auto. apply (exec_cons LI). eauto 8.
  Qed.

  (* ---------------- the constraints ---------------- *)
  Lemma fb_cons_spec (B : FB) l : forall M, mgood M -> gall M (fb_exprs B) -> Forall (fun x => (x < length (fb_exprs B))%nat) l ->
    (exists M' xs, fb_cons B M l = Ok (M', xs) /\ mgrow M M' /\ Forall (fun x => (1 <= x < mlen M')%nat) xs /\
       forall E m, Pval E M' m -> forallb (fun x => is0 F (getv (map (ev E m) (fb_exprs B)) x)) l = forallb (fun x => is0 F (m x)) xs) \/
    (fb_cons B M l = Err /\ exists x, In x l /\ forall E m, getv (map (ev E m) (fb_exprs B)) x <> 0).
  Proof.
    induction l as [|x l IH]; intros M G Ga H; cbn [fb_cons].
    - left. exists M, []. split; auto. split; [constructor|]. split; [constructor|]. auto.
    - inversion H as [|? ? H1 H2]; subst. destruct (nth_error_Some_ex _ _ H1) as [e He]. rewrite He. pose proof Ga as Ga0. unfold gall in Ga0. rewrite Forall_forall in Ga0. pose proof (Ga0 e (nth_error_In _ _ He)) as Ge.
      assert (Hval : forall E m, getv (map (ev E m) (fb_exprs B)) x = ev E m e).
      { intros E m. unfold getv. rewrite (nth_indep _ 0 (ev E m e)) by (rewrite map_length; auto). rewrite (map_nth (ev E m)). f_equal. apply nth_error_nth; auto. }
      destruct (constant_value F e) as [c|] eqn:Ec.
      + apply (constant_value_spec _ _ _ Ge) in Ec. subst e. destruct (is0 F c) eqn:E0.
        * destruct (IH M G Ga H2) as [[M' [xs [-> [A [B1 C]]]]]|[-> [y [Y1 Y2]]]].
          -- left. exists M', xs. split; auto. split; auto. split; auto. intros E m P. cbn [forallb]. rewrite Hval, ev_const, E0. cbn [andb]. apply C; auto.
          -- right. split; auto. exists y. split; [right; auto|auto].
        * right. split; auto. exists x. split; [left; auto|]. intros E m. rewrite Hval, ev_const. intros Hz. apply is0_spec in Hz. congruence.
      + destruct (make_really_single_spec M e G Ge) as [M1 [y [-> [A [B1 C]]]]]. cbn [of_opt rbind fst snd]. pose proof (mgrow_good _ _ G A) as G1.
        destruct (IH M1 G1 (gall_grow _ _ _ G A Ga) H2) as [[M' [xs [-> [A2 [B2 C2]]]]]|[-> [z [Z1 Z2]]]]; cbn [rbind fst snd].
        * left. eexists _, _. split; [reflexivity|]. split; [eapply mgrow_trans; eauto|]. split.
          -- constructor; auto. pose proof (mgrow_len _ _ G1 A2). lia.
          -- intros E m P. cbn [forallb]. rewrite (C2 E m P), Hval, (C E m (mgrow_Pval _ _ _ _ G1 A2 P)). auto.
        * right. split; auto. exists z. split; [right; auto|auto].
  Qed.
  Lemma forallb_perm {A} (f : A -> bool) a b : Permutation a b -> forallb f a = forallb f b.
  Proof.
    intros H. apply eq_true_iff_eq. rewrite !forallb_forall. split; intros Hx x Hi; apply Hx; [apply (Permutation_in _ (Permutation_sym H))|apply (Permutation_in _ H)]; auto.
  Qed.

  (* ---------------- a circuit ---------------- *)
  Lemma m_new_good : mgood (F := F) m_new.
  Proof.
    split; cbn.
    - pose proof (pool_add_spec (@Key F) key_eqb key_eqb_spec (pool_new Key) ([], false)) as H. unfold kadd. cbn in H. apply H. apply pinv_new.
    - reflexivity.
    - reflexivity.
    - reflexivity.
    - intros [|i] mc H; [|destruct i; discriminate]. injection H as <-. split; [apply f1_neq_f0|]. cbn. pose proof (finv_l F 1 (f1_neq_f0 F)) as Hy. rewrite <- Hy at 1. ring.
    - intros [|i] e f mc Hi H; [lia|]. unfold knth in H. destruct i; discriminate.
    - intros [|i] e mc H; unfold knth in H; [discriminate|]. destruct i; discriminate.
  Qed.
  Definition circ_fwd (c : Circuit LI) (c' : Circuit DI) : Prop :=
    forall E cs cs' ins sv b, length ins = num_inputs c -> Forall (call_wf LI cs) (instructions c) -> subs_fwd E cs cs' (instructions c) -> exec LI E cs (instructions c) (0 :: ins) sv b ->
      exists mv, exec DI E cs' (instructions c') (0 :: ins) mv b /\ map (getv mv) (outputs c') = map (getv sv) (outputs c) /\ (S (num_inputs c) + nouts DI (instructions c'))%nat = length mv /\
        forallb (fun x => is0 F (getv mv x)) (constraints c') = forallb (fun x => is0 F (getv sv x)) (constraints c).
  Definition circ_bwd (c : Circuit LI) (c' : Circuit DI) : Prop :=
    forall E cs cs' ins mv b, length ins = num_inputs c -> Forall (call_wf DI cs') (instructions c') -> subs_bwd E cs cs' (instructions c) -> exec DI E cs' (instructions c') (0 :: ins) mv b ->
      exists sv, exec LI E cs (instructions c) (0 :: ins) sv b /\ map (getv mv) (outputs c') = map (getv sv) (outputs c) /\ (S (num_inputs c) + nouts LI (instructions c))%nat = length sv /\
        forallb (fun x => is0 F (getv mv x)) (constraints c') = forallb (fun x => is0 F (getv sv x)) (constraints c).
  (* ---------------- what the instructions look like ---------------- *)
  Definition plain_out (is : list (LInsn F)) (i : DInsn F) : Prop := match i with DVar _ => False | DCall _ _ _ => True | DConst c => In (LConst c) is end.
  Definition plain_insn (is : list (LInsn F)) (i : DInsn F) : Prop := match i with DVar e => no_random F e | DCall _ _ _ => True | DConst c => In (LConst c) is end.
  Lemma aac_outs K refs (B : FB) M e (B' : FB) : add_and_check K refs B M e = Some B' -> fb_outs B' = fb_outs B.
  Proof.
    unfold add_and_check. intros H. apply obind_some in H. destruct H as [r [_ H]]. apply obind_some in H. destruct H as [dc [_ H]]. apply obind_some in H. destruct H as [d [_ H]].
    destruct (should_compress K r dc && negb (Nat.eqb d 0)).
    - apply obind_some in H. destruct H as [s [_ H]]. injection H as <-. reflexivity.
    - injection H as <-. reflexivity.
  Qed.
  Lemma of_opt_ok {A} (o : option A) a : of_opt o = Ok a -> o = Some a.
  Proof. destruct o; cbn; congruence. Qed.
  Lemma rbind_ok {A C} (r : Res A) (f : A -> Res C) c : rbind r f = Ok c -> exists a, r = Ok a /\ f a = Ok c.
  Proof. destruct r; cbn; try discriminate. eauto. Qed.
  Lemma fb_insns_outs K ol refs all : forall is (B B' : FB), incl is all -> fb_insns K ol refs B is = Ok B' -> Forall (fun p => plain_out all (snd p)) (fb_outs B) -> Forall (fun p => plain_out all (snd p)) (fb_outs B').
  Proof.
    induction is as [|i is IH]; intros B B' Hin H Hf; cbn [fb_insns] in H; [injection H as <-; auto|]. apply rbind_ok in H. destruct H as [B1 [H1 H2]]. eapply IH; [|exact H2|]; [intros x Hx; apply Hin; right; auto|].
    assert (Hi : In i all) by (apply Hin; left; auto). clear -Hi H1 Hf. destruct i as [lc|vs|k|id vs n|gt vs]; cbn [fb_insn] in H1.
    - apply of_opt_ok in H1. apply obind_some in H1. destruct H1 as [ops [_ H1]]. apply obind_some in H1. destruct H1 as [r [_ H1]]. apply aac_outs in H1. rewrite H1; auto.
    - apply rbind_ok in H1. destruct H1 as [es [_ H1]]. apply rbind_ok in H1. destruct H1 as [r [_ H1]]. apply of_opt_ok in H1. apply aac_outs in H1. rewrite H1; auto.
    - assert (G : forall B1, fb_add_in_vars B (fb_outs B ++ [(mlen (fb_mid B), DConst k)]) 1 1 = Some B1 -> Forall (fun p => plain_out all (snd p)) (fb_outs B1)).
      { intros B2 H. unfold fb_add_in_vars in H. apply obind_some in H. destruct H as [r [_ H]]. injection H as <-. cbn [fb_outs]. apply Forall_app. split; auto. }
      destruct k; [injection H1 as <-; exact Hf| |]; apply of_opt_ok in H1; auto.
    - apply of_opt_ok in H1. apply obind_some in H1. destruct H1 as [sub [_ H1]]. apply obind_some in H1. destruct H1 as [es [_ H1]]. apply obind_some in H1. destruct H1 as [r [_ H1]].
      unfold fb_add_in_vars in H1. apply obind_some in H1. destruct H1 as [r2 [_ H1]]. injection H1 as <-. cbn [fb_outs]. apply Forall_app. split; auto. repeat constructor.
    - apply of_opt_ok in H1. apply obind_some in H1. destruct H1 as [es [_ H1]]. apply obind_some in H1. destruct H1 as [r [_ H1]]. apply aac_outs in H1. rewrite H1; auto.
  Qed.
  Lemma mid_plain (M : Mid) all id i : mgood M -> (1 <= id)%nat -> mid_insn M id = Some (Some i) -> plain_insn all i.
  Proof.
    intros G Hid H. unfold mid_insn in H. apply obind_some in H. destruct H as [[e f] [Hk H]]. apply obind_some in H. destruct H as [mc [Hm H]]. cbn [fst] in H.
    destruct (mg_each _ G id e f mc Hid Hk Hm) as [Ge|[-> ->]].
    - destruct (e_eqb e (e_linear F 1 id)); [discriminate|]. destruct (mul_constant_good _ e (mk mc) Ge) as [e2 [E2 [G2 V2]]]. rewrite E2 in H. cbn [obind] in H. injection H as <-.
      cbn [plain_insn]. destruct (is0 F (mb mc)); [eapply good_no_random; eauto|].
      destruct (good_from_terms id (e2 ++ [t_const F (mb mc)])) as [Q1 Q2]; [| |eapply good_no_random; eauto].
      + apply Forall_app. split; [apply G2|repeat constructor].
      + intros x Hx. unfold e_vars in Hx. rewrite flat_map_app in Hx. apply in_app_or in Hx. destruct Hx as [Hx|Hx]; [apply (g_vars _ _ G2); auto|destruct Hx].
    - assert (e_eqb (e_linear F 1 id) (e_linear F 1 id) = true) as E by (apply e_eqb_spec; auto). rewrite E in H. discriminate.
  Qed.
  Lemma emit_plain (M : Mid) all : mgood M -> forall ids outs is, Forall (fun id => 1 <= id)%nat ids -> Forall (fun p => plain_out all (snd p)) outs -> emit M ids outs = Some is -> Forall (plain_insn all) is.
  Proof.
    intros G. assert (Ho : forall outs, Forall (fun p : nat * DInsn F => plain_out all (snd p)) outs -> Forall (plain_insn all) (map snd outs)).
    { intros outs H. apply Forall_forall. intros i Hi. apply in_map_iff in Hi. destruct Hi as [p [<- Hp]]. rewrite Forall_forall in H. specialize (H p Hp). destruct (snd p); cbn in *; auto. contradiction. }
    induction ids as [|id ids IH]; intros outs is Hi Hf H; cbn [emit] in H; [injection H as <-; auto|]. inversion Hi as [|? ? Hi1 Hi2]; subst.
    assert (Ht : forall (outs : list (nat * DInsn F)) a r, take_at id outs = (a, r) -> exists p, outs = p ++ r /\ a = map snd p).
    { clear. induction outs as [|[k i] outs IH]; intros a r H; cbn [take_at] in H; [injection H as <- <-; exists []; auto|]. destruct (Nat.eqb k id).
      - destruct (take_at id outs) as [a' r'] eqn:E. injection H as <- <-. destruct (IH _ _ eq_refl) as [p [-> ->]]. exists ((k, i) :: p). auto.
      - injection H as <- <-. exists []. auto. }
    destruct (take_at id outs) as [a r] eqn:E. destruct (Ht _ _ _ E) as [p [-> ->]]. apply Forall_app in Hf. destruct Hf as [Hf1 Hf2].
    apply obind_some in H. destruct H as [i [Hm H]]. apply obind_some in H. destruct H as [l [Hl H]]. injection H as <-. apply Forall_app. split; [auto|]. apply Forall_app. split; [|eapply IH; eauto].
    destruct i as [i|]; constructor; [|constructor]. eapply mid_plain; eauto.
  Qed.

  Lemma fb_circuit_spec K ol q (c : Circuit LI) : wf_circuit LI c -> Forall (fun i => l_validate F q i = true) (instructions c) -> incl (calls c) (keys ol) ->
    (exists c' ly, fb_circuit K ol c = Ok (c', ly) /\ local_ok LI DI c c' /\ circ_fwd c c' /\ circ_bwd c c' /\ Forall (plain_insn (instructions c)) (instructions c')) \/
    (fb_circuit K ol c = Err /\ exists x, In x (constraints c) /\ forall E cs ins sv b, length ins = num_inputs c -> Forall (call_wf LI cs) (instructions c) -> exec LI E cs (instructions c) (0 :: ins) sv b -> getv sv x <> 0) \/
    (fb_circuit K ol c = OutOfFuel /\ ~ costs_ok K).
  Proof.
    intros W Hv Hc. unfold fb_circuit. destruct (ref_counts_spec c W) as [refs [-> Lr]]. cbn [of_opt rbind]. destruct W as [W1 W2 W3]. set (n := num_inputs c) in *.
    unfold fb_add_in_vars. cbn [fb_new fb_mid fb_exprs]. destruct (add_in_vars_spec n 0 m_new [[t_default F]] m_new_good) as [M0 [-> [G0 [L0 [P0 _]]]]]. cbn [obind fst snd of_opt rbind].
    change (mlen m_new) with 1%nat in *. set (B0 := {| fb_exprs := [[t_default F]] ++ map (e_linear F 1) (seq 1 n); fb_mid := M0; fb_outs := [] |}).
    assert (HB0 : BI n B0 []).
    { split; cbn [B0 fb_mid fb_exprs fb_outs]; auto.
      - apply Forall_app. split; [constructor; [apply good_default|constructor]|]. apply Forall_forall. intros e He. apply in_map_iff in He. destruct He as [x [<- Hx]]. apply in_seq in Hx. apply good_linear; [apply f1_neq_f0|lia].
      - split; [|constructor|constructor|lia]. unfold emit_all. replace (mlen M0 - S n)%nat with 0%nat by lia. reflexivity.
      - cbn; lia.
      - exact I. }
    assert (HR0 : forall E ins, length ins = n -> R E B0 (0 :: ins) (0 :: ins)).
    { intros E ins Hl. split; [|split]; cbn [B0 fb_mid fb_exprs].
      - cbn [length]. lia.
      - apply P0. intros [|i] e f mc Hi H; [lia|]. unfold knth in H. destruct i; discriminate.
      - rewrite map_app. cbn [map app]. rewrite ev_default. f_equal. symmetry. apply (map_fake E [0] ins n Hl). }
    assert (Lx0 : length (fb_exprs B0) = S n) by (cbn [B0 fb_exprs]; rewrite app_length, map_length, seq_length; auto).
    destruct (fb_insns_spec K ol refs n q (instructions c) B0 [] HB0) as [[B [is [EqB S1]]]|[-> Hk]].
    { lia. }
    { rewrite Lx0. replace (S n - 1)%nat with n by lia. exact W1. }
    { exact Hv. }
    { lia. }
    { intros i o l k Hi Hcall. apply Hc. eapply (in_calls LI); eauto. }
    2: { right. right. auto. }
    rewrite EqB. pose proof (fb_insns_outs K ol refs _ _ _ _ (incl_refl _) EqB (Forall_nil _)) as Hplain.
    cbn [rbind]. cbn [app] in *. pose proof (fss_bi _ _ _ _ _ _ S1) as HB. cbn [app] in HB. pose proof (fss_ex _ _ _ _ _ _ S1) as Lx. rewrite Lx0 in Lx.
    pose proof (isort_perm Nat.leb (constraints c : list nat)) as Hperm.
    destruct (fb_cons_spec B (isort Nat.leb (constraints c : list nat)) (fb_mid B) (bi_good _ _ _ HB) (bi_ex _ _ _ HB)) as [[M1 [xs [-> [A1 [A2 A3]]]]]|[-> [x [X1 X2]]]].
    { eapply Permutation_Forall; [apply Permutation_sym; exact Hperm|]. eapply Forall_impl; [|exact W2]. cbn. intros; lia. }
    2: { right. left. split; auto. exists x. split; [apply (Permutation_in _ Hperm); auto|]. intros E cs ins sv b Hl Hw Hx.
      destruct (fss_fwd _ _ _ _ _ _ S1 E cs (0 :: ins) (0 :: ins) sv b (HR0 E ins Hl) Hw Hx) as [mv [[_ [_ ->]] _]]. apply X2. }
    left. cbn [rbind fst snd]. pose proof (mgrow_good _ _ (bi_good _ _ _ HB) A1) as G1.
    destruct (get_exprs_spec B (outputs c)) as [es [-> [B1 [B2 B3]]]]; [eapply Forall_impl; [|exact W3]; cbn; intros; lia|]. cbn [of_opt rbind].
    assert (Ga1 : gall M1 es). { eapply gall_grow; [apply HB|exact A1|]. eapply sub_gall; [apply HB|auto]. }
    destruct (really_singles_spec es M1 G1 Ga1) as [M2 [ys [-> [C1 [C2 [C3 C4]]]]]]. cbn [of_opt rbind fst snd].
    pose proof (mgrow_trans _ _ _ A1 C1) as Hg2. destruct (grow_emit n _ _ _ _ (bi_good _ _ _ HB) Hg2 (bi_ei _ _ _ HB)) as [new [D1 [D2 [D3 [D4 D5]]]]].
    rewrite (ei_emit _ _ _ _ D1). cbn [of_opt rbind]. pose proof (bi_n _ _ _ HB) as Hbn. pose proof (mgrow_len _ _ G1 C1) as Hle.
    assert (Hnn : mlen M2 = (S n + nouts DI (is ++ new))%nat) by (rewrite (nouts_app DI); lia).
    eexists _, _. split; [reflexivity|]. split; [|split; [|split]].
    4: { cbn [instructions]. eapply (emit_plain M2 (instructions c)); [eapply mgrow_good; eauto| |exact Hplain|exact (ei_emit _ _ _ _ D1)]. apply Forall_forall. intros x Hx. apply in_seq in Hx. lia. }
    - split; [|cbn [num_inputs outputs instructions]; split; [auto|split; [congruence|]]].
      + split; cbn [instructions num_inputs constraints outputs].
        * apply (wf_insns_app DI). split; [apply HB|]. replace (n + nouts DI is)%nat with (mlen (fb_mid B) - 1)%nat by lia. auto.
        * eapply Forall_impl; [|exact A2]. cbn [DestI c_var]. cbn beta. intros y Hy. lia.
        * eapply Forall_impl; [|exact C3]. cbn beta. intros y Hy. lia.
      + intros i' o l' k Hi Hcall. apply in_app_or in Hi. destruct Hi as [Hi|Hi].
        * apply (fss_calls _ _ _ _ _ _ S1 i' o l' k Hi Hcall).
        * rewrite Forall_forall in D4. pose proof (D4 i' Hi) as Hno. change (@i_call F DI i') with (d_call F i') in Hcall. congruence.
    - intros E cs cs' ins sv b Hl Hw Hs Hx. cbn [instructions outputs constraints num_inputs] in *.
      destruct (fss_fwd _ _ _ _ _ _ S1 E cs (0 :: ins) (0 :: ins) sv b (HR0 E ins Hl) Hw Hx) as [mv1 [[R1 [R2 R3]] Hex]].
      destruct (D5 E mv1 R1 R2) as [l [L1 [L2 L3]]]. exists (mv1 ++ l). assert (Hsv : sv = map (ev E (getv (mv1 ++ l))) (fb_exprs B)). { rewrite R3. symmetry. apply (R_ext E (fb_mid B)); auto. apply HB. }
      split; [|split; [|split]].
      + apply (exec_app DI). exists mv1, b, true. split; [apply Hex; auto|]. split; [apply L3; auto|]. rewrite andb_true_r; auto.
      + rewrite (C4 E _ L2), B3, <- Hsv. auto.
      + lia.
      + rewrite <- (A3 E _ (mgrow_Pval _ _ _ _ G1 C1 L2)), <- Hsv. apply forallb_perm; auto.
    - intros E cs cs' ins mv b Hl Hw Hs Hx. cbn [instructions outputs constraints num_inputs] in *.
      apply (exec_app DI) in Hx. destruct Hx as [mv1 [b1 [b2 [X1 [X2 ->]]]]]. apply Forall_app in Hw. destruct Hw as [Hw1 Hw2].
      destruct (fss_bwd _ _ _ _ _ _ S1 E cs cs' (0 :: ins) (0 :: ins) mv1 b1 (HR0 E ins Hl) Hw1 X1 Hs) as [sv [Y1 [R1 [R2 R3]]]].
      destruct (D5 E mv1 R1 R2) as [l [L1 [L2 L3]]]. apply L3 in X2. destruct X2 as [-> ->]. rewrite andb_true_r.
      assert (Hsv : sv = map (ev E (getv (mv1 ++ l))) (fb_exprs B)). { rewrite R3. symmetry. apply (R_ext E (fb_mid B)); auto. apply HB. }
      exists sv. split; auto. split; [rewrite (C4 E _ L2), B3, <- Hsv; auto|]. split; [rewrite R3, map_length; lia|].
      rewrite <- (A3 E _ (mgrow_Pval _ _ _ _ G1 C1 L2)), <- Hsv. apply forallb_perm; auto.
  Qed.

  (* ---------------- all circuits ---------------- *)
  Definition never_zero (c : Circuit LI) (x : nat) : Prop :=
    forall E cs ins sv b, length ins = num_inputs c -> Forall (call_wf LI cs) (instructions c) -> exec LI E cs (instructions c) (0 :: ins) sv b -> getv sv x <> 0.
  Definition fb_ok (c : Circuit LI) (c' : Circuit DI) : Prop := local_ok LI DI c c' /\ circ_fwd c c' /\ circ_bwd c c' /\ Forall (plain_insn (instructions c)) (instructions c').
  Lemma fb_loop_spec K q cs order : forall ol acc, (forall pre id post c, order = pre ++ id :: post -> lookup id cs = Some c -> incl (calls c) (pre ++ keys ol)) ->
    (forall id, In id order -> exists c, lookup id cs = Some c /\ wf_circuit LI c /\ Forall (fun i => l_validate F q i = true) (instructions c)) ->
    (exists cs', fb_loop K cs order ol acc = Ok (cs' ++ acc) /\ keys cs' = rev order /\ forall id c', In (id, c') cs' -> exists c, lookup id cs = Some c /\ fb_ok c c') \/
    (fb_loop K cs order ol acc = Err /\ exists id c x, lookup id cs = Some c /\ In x (constraints c) /\ never_zero c x) \/
    (fb_loop K cs order ol acc = OutOfFuel /\ ~ costs_ok K).
  Proof.
    induction order as [|id order IH]; intros ol acc Ho Hc; cbn [fb_loop].
    - left. exists []. split; auto. split; auto. intros id c' [].
    - destruct (Hc id (or_introl eq_refl)) as [c [Hl [W V]]]. rewrite Hl.
      destruct (fb_circuit_spec K ol q c W V (Ho [] id order c eq_refl Hl)) as [[c' [ly [-> Hok]]]|[[-> [x [X1 X2]]]|[-> Hk]]]; cbn [rbind fst snd].
      + destruct (IH ((id, ly) :: ol) ((id, c') :: acc)) as [[cs' [-> [K1 L1]]]|[[-> Hx]|[-> Hk]]].
        * intros pre id' post c1 E1 Hl1. specialize (Ho (id :: pre) id' post c1 ltac:(cbn; congruence) Hl1). intros o Hoc. specialize (Ho o Hoc). cbn [keys map fst] in *.
          apply in_or_app. cbn [app] in Ho. destruct Ho as [<-|Ho]; [right; left; auto|]. apply in_app_or in Ho. destruct Ho; [left; auto|right; right; auto].
        * intros; apply Hc; right; auto.
        * left. exists (cs' ++ [(id, c')]). rewrite <- app_assoc. cbn [app]. split; auto. unfold keys in *. rewrite map_app, K1. cbn [map fst rev]. split; auto.
          intros id1 c1 Hin. apply in_app_iff in Hin. destruct Hin as [Hin|[Hin|[]]]; auto. injection Hin as <- <-. exists c. auto.
        * right. left. auto.
        * right. right. auto.
      + right. left. split; auto. exists id, c, x. auto.
      + right. right. auto.
  Qed.
  Definition l_insns_valid (rc : RootCircuit LI) : Prop :=
    forall id c, lookup id (circuits rc) = Some c -> Forall (fun i : Insn LI => l_validate F (num_public_inputs rc) i = true) (instructions c).
  Record fb_rel (rc : RootCircuit LI) (rc' : RootCircuit DI) : Prop := {
    fr_wf : wf_root DI rc';
    fr_pub : num_public_inputs rc' = num_public_inputs rc;
    fr_zero : expected_num_output_zeroes rc' = expected_num_output_zeroes rc;
    fr_keys : forall id, In id (keys (circuits rc')) <-> In id (keys (circuits rc));
    fr_fwd : forall id c, lookup id (circuits rc) = Some c -> exists c', lookup id (circuits rc') = Some c' /\ fb_ok c c'
  }.
  Lemma fb_process_spec K (rc : RootCircuit LI) : wf_root LI rc -> l_insns_valid rc ->
    (exists rc', fb_process K rc = Ok rc' /\ fb_rel rc rc') \/
    (fb_process K rc = Err /\ exists id c x, lookup id (circuits rc) = Some c /\ In x (constraints c) /\ never_zero c x) \/
    (fb_process K rc = OutOfFuel /\ ~ costs_ok K).
  Proof.
    intros [W [rank R0] [c0 [Hc0 Hz]]] Hv. destruct (root_order_spec LI rc W) as [q [E1 [N1 [K1 O1]]]]; [eauto|].
    unfold fb_process. rewrite E1. cbn [of_opt rbind].
    destruct (fb_loop_spec K (num_public_inputs rc) (circuits rc) (rev q) [] []) as [[cs' [-> [K2 L2]]]|[[-> Hx]|[-> Hk]]].
    - intros pre id post c E2 Hl o Ho. cbn [keys map]. rewrite app_nil_r. apply (f_equal (@rev nat)) in E2. rewrite rev_involutive, rev_app_distr in E2. cbn [rev] in E2. rewrite <- app_assoc in E2. cbn [app] in E2.
      apply in_rev. apply (O1 _ _ _ c o E2 Hl Ho).
    - intros id Hin. apply in_rev in Hin. apply K1 in Hin. apply lookup_keys in Hin. destruct Hin as [c Hc]. exists c. split; auto. split; [apply (wf_each _ _ W id c Hc)|apply (Hv id c Hc)].
    - left. cbn [rbind]. rewrite app_nil_r. rewrite rev_involutive in K2.
      assert (Nk : NoDup (keys cs')) by (rewrite K2; auto).
      assert (Hb : forall id c', lookup id cs' = Some c' -> exists c, lookup id (circuits rc) = Some c /\ fb_ok c c') by (intros id c' H; apply L2; apply lookup_In; auto).
      assert (Hf : forall id c, lookup id (circuits rc) = Some c -> exists c', lookup id cs' = Some c' /\ fb_ok c c').
      { intros id c H. assert (In id (keys cs')) as Hk by (rewrite K2; apply K1; apply lookup_keys; eauto). apply lookup_keys in Hk. destruct Hk as [c' Hc']. destruct (Hb id c' Hc') as [c2 [A B]]. exists c'. split; auto. congruence. }
      eexists. split; [reflexivity|]. split; cbn [num_public_inputs expected_num_output_zeroes circuits]; auto.
      2: { intros id. rewrite K2. apply K1. }
      split; cbn [circuits expected_num_output_zeroes].
      + split; auto.
        * intros id c' H. destruct (Hb id c' H) as [c [A [[B _] _]]]. auto.
        * intros id c' H. destruct (Hb id c' H) as [c [A [[_ [_ [_ D]]] _]]]. apply Forall_forall. intros i' Hi' o l' n Ec'. destruct (D i' o l' n Hi' Ec') as [i [l [B1 [B2 B3]]]].
          pose proof (wf_calls _ _ W _ _ A) as Wl. rewrite Forall_forall in Wl. destruct (Wl i B1 o l n B2) as [co [C1 [C2 C3]]]. destruct (Hf o co C1) as [co' [D1 [[_ [D3 [D4 _]]] _]]].
          exists co'. split; auto. split; congruence.
      + exists rank. intros id c' o H Hoc. destruct (Hb id c' H) as [c [A [[_ [_ [_ D]]] _]]]. apply calls_in in Hoc. destruct Hoc as [i' [l' [n [Hi' Ec']]]]. destruct (D i' o l' n Hi' Ec') as [i [l [B1 [B2 _]]]].
        eapply R0; eauto. eapply in_calls; eauto.
      + destruct (Hf 0%nat c0 Hc0) as [c0' [A [[_ [_ [B _]]] _]]]. exists c0'. split; auto. lia.
    - right. left. auto.
    - right. right. auto.
  Qed.
  Theorem fb_behaviour (rc : RootCircuit LI) rc' E : wf_root LI rc -> fb_rel rc rc' -> forall ins outs b, root_run LI E rc ins outs b <-> root_run DI E rc' ins outs b.
  Proof.
    intros Wr Hr ins outs b. destruct Wr as [W [rank R0] [c0 [Hc0 Hz]]]. destruct (fr_fwd _ _ Hr 0%nat c0 Hc0) as [c0' [Hc0' Hok0]]. pose proof (wr_cs _ _ (fr_wf _ _ Hr)) as W'.
    assert (Hcalls : forall id c i o l n, lookup id (circuits rc) = Some c -> In i (instructions c) -> l_callf F i = Some (o, l, n) -> exists co, lookup o (circuits rc) = Some co /\ length l = num_inputs co /\ In o (calls c)).
    { intros id c i o l n Hc Hin Hcall. pose proof (wf_calls _ _ W id c Hc) as Wl. rewrite Forall_forall in Wl. destruct (Wl i Hin o l n Hcall) as [co [C1 [C2 C3]]]. exists co. split; auto. split; auto. eapply (in_calls LI); eauto. }
    split.
    - apply (local_root_fwd LI DI E rc rc' c0 c0'); auto; [apply Hok0|apply Hr|].
      apply (local_fwd LI DI E (circuits rc) (circuits rc') rank R0). intros id c Hc IH c1 ins0 outs0 b0 Hc1 Hl H. rewrite Hc in Hc1. injection Hc1 as <-.
      destruct (fr_fwd _ _ Hr id c Hc) as [c' [Hc' [Lo [Hf [Hb _]]]]]. apply run_iff in H. destruct H as [c1 [sv [b1 [Hc1 [X1 [X2 [X3 [-> ->]]]]]]]]. rewrite Hc in Hc1. injection Hc1 as <-.
      destruct (Hf E (circuits rc) (circuits rc') ins0 sv b1 Hl) as [mv [Y1 [Y2 [Y3 Y4]]]]; auto.
      { apply (wf_calls _ _ W id c Hc). }
      { intros i o l k ins1 outs1 b2 Hin Hcall Hlen Hrun. destruct (Hcalls id c i o l k Hc Hin Hcall) as [co [D1 [D2 D3]]]. apply (IH o D3 co); auto. lia. }
      destruct Lo as [[L1 L2 L3] [L4 [L5 _]]]. apply run_iff. exists c', mv, b1. split; auto. split; auto. split; [|split; [|split; [auto|]]].
      + eapply Forall_impl; [|exact L2]. cbn beta. unfold inb. intros k Hk. lia.
      + eapply Forall_impl; [|exact L3]. cbn beta. unfold inb. intros k Hk. lia.
      + f_equal. symmetry. exact Y4.
    - apply (local_root_bwd LI DI E rc rc' c0 c0'); auto; [apply Hok0|apply Hr|].
      apply (local_bwd LI DI E (circuits rc) (circuits rc') rank R0). intros id c Hc IH c1 ins0 outs0 b0 Hc1 Hl H. rewrite Hc in Hc1. injection Hc1 as <-.
      destruct (fr_fwd _ _ Hr id c Hc) as [c' [Hc' [Lo [Hf [Hb _]]]]]. apply run_iff in H. destruct H as [c1 [mv [b1 [Hc1 [X1 [X2 [X3 [-> ->]]]]]]]]. rewrite Hc' in Hc1. injection Hc1 as <-.
      destruct (Hb E (circuits rc) (circuits rc') ins0 mv b1 Hl) as [sv [Y1 [Y2 [Y3 Y4]]]]; auto.
      { apply (wf_calls _ _ W' id c' Hc'). }
      { intros i o l k ins1 outs1 b2 Hin Hcall Hlen Hrun. destruct (Hcalls id c i o l k Hc Hin Hcall) as [co [D1 [D2 D3]]]. apply (IH o D3 co); auto. lia. }
      pose proof (wf_each _ _ W id c Hc) as [L1 L2 L3]. apply run_iff. exists c, sv, b1. split; auto. split; auto. split; [|split; [|split; [auto|]]].
      + eapply Forall_impl; [|exact L2]. cbn beta. unfold inb. intros k Hk. lia.
      + eapply Forall_impl; [|exact L3]. cbn beta. unfold inb. intros k Hk. lia.
      + f_equal. exact Y4.
  Qed.
  (* a circuit with a constraint that is never zero is never accepted, and neither is one that calls it *)
  Inductive reaches {I : IRC F} (cs : list (nat * Circuit I)) : nat -> nat -> Prop :=
  | rch_refl a : reaches cs a a
  | rch_step a c o b : lookup a cs = Some c -> In o (calls c) -> reaches cs o b -> reaches cs a b.
  Lemma exec_true_step (I : IRC F) E cs is : forall vals vals', exec I E cs is vals vals' true -> forall i, In i is -> exists vals0 outs, step I E cs i vals0 outs true.
  Proof.
    induction is as [|j is IH]; intros vals vals' H i Hi; [destruct Hi|]. apply (exec_cons I) in H. destruct H as [outs [b1 [b2 [X1 [X2 Hb]]]]]. symmetry in Hb. apply andb_true_iff in Hb. destruct Hb as [-> ->].
    destruct Hi as [<-|Hi]; eauto.
  Qed.
  Lemma reaches_run (I : IRC F) E cs a b : reaches cs a b -> forall ins outs, run I E cs a ins outs true -> exists ins' outs', run I E cs b ins' outs' true.
  Proof.
    intros H. induction H as [a|a c o b Hc Ho H IH]; intros ins outs Hr; [eauto|]. apply run_iff in Hr. destruct Hr as [c1 [vals [b0 [Hc1 [X1 [X2 [X3 [-> Hb]]]]]]]]. rewrite Hc in Hc1. injection Hc1 as <-.
    symmetry in Hb. apply andb_true_iff in Hb. destruct Hb as [-> _]. apply calls_in in Ho. destruct Ho as [i [l [n [Hi Ec]]]]. destruct (exec_true_step I E cs _ _ _ X1 i Hi) as [v0 [o0 S]]. unfold step in S. rewrite Ec in S.
    destruct S as [_ S]. apply IH in S. auto.
  Qed.
  Lemma never_run (rc : RootCircuit LI) id c x E ins outs : wf_root LI rc -> lookup id (circuits rc) = Some c -> In x (constraints c) -> never_zero c x -> length ins = num_inputs c -> ~ run LI E (circuits rc) id ins outs true.
  Proof.
    intros [W _ _] Hc Hx Hn Hl Hr. apply run_iff in Hr. destruct Hr as [c1 [vals [b0 [Hc1 [X1 [X2 [X3 [-> Hb]]]]]]]]. rewrite Hc in Hc1. injection Hc1 as <-. symmetry in Hb. apply andb_true_iff in Hb. destruct Hb as [-> Hb].
    rewrite forallb_forall in Hb. specialize (Hb x Hx). cbn [HlI c_verify c_var] in Hb. apply is0_spec in Hb. apply (Hn E (circuits rc) ins vals true Hl (wf_calls _ _ W id c Hc) X1). auto.
  Qed.
End FbSim.
