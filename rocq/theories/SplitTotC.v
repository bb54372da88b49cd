(* Totality of ir_split.rs, continued: expansion of calls, random sums, recursion. *)
From Verif Require Import Prelude Field Sorting Expr Topo Ir IrFacts IrInst Sim Builder BuilderFacts LaySched Layering IrSplit SplitCut SplitSegs SplitComb SplitTot SplitTotB.
From Coq Require Import Sorted.
Open Scope nat_scope.

Section LayC.
  Context {F : Fld}.
  Notation DI := (DestI F false).
  Notation Pool := (CPool (F := F)).

  Lemma lay_snoc ml at_ (is : list (DInsn F)) i nin sc sci : lay anyU ml at_ is nin sc -> lay anyU ml at_ [i] (nin + nouts DI is) sci -> lay anyU ml at_ (is ++ [i]) nin (sc ++ sci).
  Proof. apply lay_app. Qed.
  Lemma lay_more ml l at_ (is : list (DInsn F)) nin sc : length ml = S (nin + nouts DI is) -> lay anyU ml at_ is nin sc -> lay anyU (ml ++ l) at_ is nin sc.
  Proof. intros Hl. apply lay_ext. intros x Hx. apply getn_app1. lia. Qed.
  Lemma getn_last ml x : getn (ml ++ [x]) (length ml) = x.
  Proof. unfold getn. rewrite app_nth2, Nat.sub_diag by lia. auto. Qed.
  Lemma Forall2_in {A B} (R : A -> B -> Prop) l r : Forall2 R l r -> forall x y, In (x, y) (combine l r) -> R x y.
  Proof. induction 1 as [|a b l r H H' IH]; cbn [combine]; intros x y Hi; [destruct Hi|]. destruct Hi as [E|Hi]; [injection E as <- <-|]; auto. Qed.

  (* ------------------------------------------------------------ layers *)
  Definition lrec_total (rec : nat -> list nat -> option (list nat * list nat)) (i : DInsn F) : Prop :=
    forall id l n, i = DCall id l n -> forall ins, length ins = length l -> exists r, rec id ins = Some r /\ length (fst r) = n.
  Lemma layer_insns_total rec is : forall ml cc, Forall (lrec_total rec) is -> exists ml' cc', layer_insns rec is ml cc = Some (ml', cc') /\ length ml' = length ml + nouts DI is.
  Proof.
    induction is as [|i is IH]; intros ml cc H; [exists ml, cc; cbn; auto|]. inversion H as [|? ? Hi H']; subst. rewrite nouts_cons. destruct i as [e|id l n|k]; cbn [layer_insns d_nout].
    - destruct (IH (ml ++ [expr_layer ml e]) cc H') as [ml' [cc' [A B]]]. exists ml', cc'. split; auto. rewrite app_length in B. cbn in B. lia.
    - destruct (Hi id l n eq_refl (map (getn ml) l)) as [r [R1 R2]]; [apply map_length|]. rewrite R1. cbn [obind]. rewrite R2, Nat.eqb_refl. cbn [guard obind]. destruct (IH (ml ++ fst r) (cc ++ map S (snd r)) H') as [ml' [cc' [A B]]]. exists ml', cc'. split; auto. rewrite app_length in B. lia.
    - destruct (IH (ml ++ [1]) cc H') as [ml' [cc' [A B]]]. exists ml', cc'. split; auto. rewrite app_length in B. cbn in B. lia.
  Qed.
  Lemma layer_insns_mono (rec rec' : nat -> list nat -> option (list nat * list nat)) is : (forall id ins r, rec id ins = Some r -> rec' id ins = Some r) -> forall ml cc r, layer_insns (F := F) rec is ml cc = Some r -> layer_insns rec' is ml cc = Some r.
  Proof.
    intros Hr. induction is as [|i is IH]; intros ml cc r H; auto. destruct i as [e|id l n|k]; cbn [layer_insns] in *; auto. apply obind_some in H. destruct H as [q [Hq H]]. rewrite (Hr _ _ _ Hq). cbn [obind]. destruct (guard _); [|discriminate]. cbn [obind] in *. auto.
  Qed.
  Lemma output_layers_mono (cs : list (nat * Circuit DI)) f : forall g, f <= g -> forall id ins r, output_layers f cs id ins = Some r -> output_layers g cs id ins = Some r.
  Proof.
    induction f as [|f IH]; intros g Hg id ins r H; [discriminate|]. destruct g as [|g]; [lia|]. cbn [output_layers] in *. destruct (lookup id cs) as [c|]; [|discriminate]. cbn [obind] in *. apply obind_some in H. destruct H as [q [Hq H]].
    rewrite (layer_insns_mono _ _ _ (IH g ltac:(lia)) _ _ _ Hq). cbn [obind]. auto.
  Qed.
  Lemma output_layers_det (cs : list (nat * Circuit DI)) f g id ins a b : output_layers f cs id ins = Some a -> output_layers g cs id ins = Some b -> a = b.
  Proof. intros Ha Hb. apply (output_layers_mono cs f (Nat.max f g)) in Ha; [|lia]. apply (output_layers_mono cs g (Nat.max f g)) in Hb; [|lia]. congruence. Qed.

  (* ------------------------------------------------------------ the calls of the segments of a sub-circuit *)
  Section Call.
    Variables (vnew l base at_ : list nat) (nin : nat).
    Hypothesis Hb : 0 < length base.
    Hypothesis Hv : forall x, x < length vnew -> getn vnew x < length base /\ (0 < x -> 0 < getn vnew x).
    Hypothesis Hl : Forall (fun x => 0 < x < length vnew) l.
    Notation il := (map (fun x => getn base (getn vnew x)) l).
    Lemma deref_total ints r lv : ref_at il ints r lv -> exists x, deref vnew l (length base - 1) r = Some x /\ 0 < x < length (base ++ ints) /\ getn (base ++ ints) x = lv.
    Proof.
      destruct r as [i|k|]; cbn [ref_at deref]; [| |intros []].
      - rewrite nth_error_map. destruct (nth_error l i) as [y|] eqn:Ey; [|discriminate]. intros E. injection E as <-. cbn [obind]. rewrite Forall_forall in Hl. assert (Hy : 0 < y < length vnew) by (apply Hl; eapply nth_error_In; eauto). destruct (Hv y) as [V1 V2]; [lia|].
        exists (getn vnew y). split; [apply nth_error_nth'; lia|]. split; [rewrite app_length; split; [apply V2|]; lia|]. apply getn_app1. auto.
      - intros H. assert (Hk : k < length ints) by (apply nth_error_Some; congruence). exists (length base - 1 + k + 1). split; auto. rewrite app_length. split; [lia|]. replace (length base - 1 + k + 1) with (length base + k) by lia. rewrite getn_app2. apply nth_error_nth with (d := 0) in H. auto.
    Qed.
    Lemma derefs_total ints rs m : Forall (ref_le il ints m) rs -> exists xs, omap (deref vnew l (length base - 1)) rs = Some xs /\ Forall (fun x => 0 < x < length (base ++ ints) /\ getn (base ++ ints) x <= m) xs.
    Proof.
      induction 1 as [|r rs [lv [H1 H2]] H IH]; [exists []; split; auto; constructor|]. destruct IH as [xs [A B]]. destruct (deref_total ints r lv H1) as [x [X1 [X2 X3]]]. exists (x :: xs). cbn [omap]. rewrite X1. cbn [obind]. rewrite A. cbn [obind]. split; auto. constructor; auto. split; auto. lia.
    Qed.
    Lemma call_segs_total (pool : Pool) segs : forall ints ints' insns sc, segs_lay pool at_ il ints segs ints' -> lay anyU (base ++ ints) at_ insns nin sc -> length (base ++ ints) = S (nin + nouts DI insns) ->
      exists insns' sc', call_segs pool vnew l (length base - 1) segs insns (base ++ ints) sc = Some (insns', base ++ ints', sc') /\ lay anyU (base ++ ints') at_ insns' nin sc' /\ length (base ++ ints') = S (nin + nouts DI insns').
    Proof.
      induction segs as [|s segs IH]; intros ints ints' insns sc H Hlay Hlen.
      - cbn [segs_lay] in H. subst ints'. exists insns, sc. auto.
      - destruct H as [c [H1 [H2 [H3 [H4 H5]]]]]. cbn [call_segs]. rewrite H1. cbn [obind]. destruct (derefs_total ints (sg_ins s) (sg_start s) H2) as [xs [X1 X2]]. rewrite X1. cbn [obind]. rewrite <- app_assoc. set (no := length (outputs c)) in *. set (ints1 := ints ++ repeat (sg_end s) no) in *.
        assert (X3 : Forall (fun x => 0 < x < length (base ++ ints) /\ getn (base ++ ints1) x <= sg_start s) xs). { eapply Forall_impl; [|exact X2]. cbn beta. intros x [Y1 Y2]. split; auto. unfold ints1. rewrite app_assoc, getn_app1 by lia. auto. }
        rewrite (proj2 (forallb_forall _ _)); [|intros x Hx; rewrite Forall_forall in X3; apply Nat.leb_le; apply X3; auto]. cbn [guard obind].
        apply (IH ints1 ints'); auto.
        + apply lay_snoc; [unfold ints1; rewrite app_assoc; apply lay_more; auto|]. cbn [lay]. exists (sg_start s), (sg_end s), []. split; auto. rewrite Forall_forall in X3. split; [intros x Hx; destruct (X3 x Hx); unfold anyU; split; auto; lia|]. split; auto. split; auto. split; auto. intros k Hk. unfold ints1. rewrite app_assoc. replace (S (nin + nouts DI insns) + k) with (length (base ++ ints) + k) by lia. rewrite getn_app2. apply nth_error_nth. apply nth_error_repeat. auto.
        + unfold ints1. rewrite app_assoc, app_length, repeat_length, Hlen, nouts_app. cbn [nouts i_nout DestI d_nout]. fold no. lia.
    Qed.
  End Call.

  (* ------------------------------------------------------------ expand_sub_circuit_calls_phase1 *)
  (* what a split of circuit [id] with input layers [il] gives a caller with split points [at_] *)
  Definition sub_tot (at_ : list nat) (rec : nat -> list nat -> Pool -> option (Spl * Pool)) (id n : nat) (il : list nat) (ol : list nat * list nat) (pool : Pool) : Prop :=
    exists sp pool' ints, rec id il pool = Some (sp, pool') /\ segs_lay pool' at_ il [] (sp_segs sp) ints /\
      Forall2 (ref_at il ints) (firstn n (sp_outs sp)) (fst ol) /\
      Forall (fun r => exists k l, r = RInt k /\ nth_error ints k = Some l /\ In l (snd ol)) (skipn n (sp_outs sp)).
  Section Exp.
    Variables (at_ il0 : list nat) (nin : nat).
    Variables (lrec layers : nat -> list nat -> option (list nat * list nat)) (rec : nat -> list nat -> Pool -> option (Spl * Pool)).
    Hypothesis Hmono : forall id ins r, lrec id ins = Some r -> layers id ins = Some r.
    Record PI (P : P1 (F := F)) (oml cc : list nat) : Prop := {
      pi_len : length (p_ml P) = S (nin + nouts DI (p_insns P));
      pi_first : firstn (S nin) (p_ml P) = 0 :: il0;
      pi_v : length (p_vnew P) = length oml;
      pi_x : forall x, x < length oml -> getn (p_vnew P) x < length (p_ml P) /\ (0 < x -> 0 < getn (p_vnew P) x) /\ getn (p_ml P) (getn (p_vnew P) x) = getn oml x;
      pi_lay : lay anyU (p_ml P) at_ (p_insns P) nin (p_sc P);
      pi_sub : Forall (fun x => 0 < x < length (p_ml P) /\ In (S (getn (p_ml P) x)) cc) (p_sub P) }.
    Lemma firstn_more (a b : list nat) n : n <= length a -> firstn n (a ++ b) = firstn n a.
    Proof. intros H. rewrite firstn_app. replace (n - length a) with 0 by lia. cbn. apply app_nil_r. Qed.
    (* one new variable *)
    Lemma pi_one P oml cc i lv : PI P oml cc -> lay anyU (p_ml P ++ [lv]) at_ [i] (nin + nouts DI (p_insns P)) [] -> d_nout F i = 1 ->
      PI {| p_vnew := p_vnew P ++ [length (p_ml P)]; p_insns := p_insns P ++ [i]; p_sub := p_sub P; p_ml := p_ml P ++ [lv]; p_sc := p_sc P; p_pool := p_pool P |} (oml ++ [lv]) cc.
    Proof.
      intros [A1 A2 A3 A4 A5 A6] Hi Hn. constructor; cbn [p_ml p_insns p_vnew p_sc p_sub].
      - rewrite app_length, nouts_app. cbn [nouts length i_nout DestI]. rewrite Hn. lia.
      - rewrite firstn_more by lia. auto.
      - rewrite !app_length, A3. auto.
      - intros x Hx. rewrite !app_length in *. cbn [length] in *. destruct (Nat.eq_dec x (length oml)) as [->|Hne].
        + rewrite getn_last, <- A3, getn_last, getn_last. split; lia.
        + destruct (A4 x) as [B1 [B2 B3]]; [lia|]. rewrite !getn_app1 by lia. split; [lia|]. auto.
      - rewrite <- (app_nil_r (p_sc P)). apply lay_snoc; auto. apply lay_more; auto.
      - eapply Forall_impl; [|exact A6]. cbn beta. intros x [B1 B2]. rewrite app_length. rewrite getn_app1 by lia. split; [cbn; lia|auto].
    Qed.
    Lemma expand1_total i P oml cc oml' cc' : layer_insns lrec [i] oml cc = Some (oml', cc') -> PI P oml cc -> Forall (fun x => 0 < x < length oml) (d_inputs F i) ->
      (forall id l n il ol pool, i = DCall id l n -> length il = length l -> lrec id il = Some ol -> sub_tot at_ rec id n il ol pool) ->
      exists P', expand1 layers rec i P = Some P' /\ PI P' oml' cc'.
    Proof.
      intros H HP Hx Hc. pose proof HP as [A1 A2 A3 A4 A5 A6]. destruct i as [e|id l n|k]; cbn [layer_insns expand1 d_inputs] in *.
      - injection H as <- <-. eexists. split; [reflexivity|]. rewrite Forall_forall in Hx.
        assert (E : expr_layer (p_ml P) (e_replace F (getn (p_vnew P)) e) = expr_layer oml e).
        { unfold expr_layer. f_equal. f_equal. rewrite e_replace_vars, map_map. apply map_ext_in. intros x Hi. apply A4. specialize (Hx x Hi). lia. }
        change (fun x => getn (p_vnew P) x) with (getn (p_vnew P)). rewrite E. apply pi_one; auto. cbn [lay]. rewrite <- A1, getn_last. split; [|split; auto; unfold expr_layer; lia]. intros x Hi. rewrite e_replace_vars in Hi. apply in_map_iff in Hi. destruct Hi as [y [<- Hi]]. specialize (Hx y Hi). destruct (A4 y) as [B1 [B2 B3]]; [lia|]. split; [split; [apply B2|]; lia|]. unfold anyU. split; auto. rewrite getn_app1, B3 by auto. unfold expr_layer. apply Nat.lt_succ_r. apply maxl_in. apply in_map. auto.
      - apply obind_some in H. destruct H as [ol [Hol H]]. destruct (Nat.eqb_spec (length (fst ol)) n) as [Hn|]; [|discriminate]. cbn [guard obind] in H. injection H as <- <-.
        set (il := map (fun x => getn (p_ml P) (getn (p_vnew P) x)) l). assert (E : il = map (getn oml) l). { apply map_ext_in. intros x Hi. rewrite Forall_forall in Hx. apply A4. specialize (Hx x Hi). lia. }
        rewrite <- E in Hol. destruct (Hc id l n il ol (p_pool P) eq_refl) as [sp [pool' [ints [R1 [R2 [R3 R4]]]]]]; [unfold il; rewrite map_length; auto|auto|]. rewrite R1. cbn [obind fst snd]. rewrite (Hmono _ _ _ Hol). cbn [obind].
        assert (Hv : forall x, x < length (p_vnew P) -> getn (p_vnew P) x < length (p_ml P) /\ (0 < x -> 0 < getn (p_vnew P) x)). { intros x Hi. rewrite A3 in Hi. destruct (A4 x Hi) as [B1 [B2 B3]]. auto. }
        assert (Hl : Forall (fun x => 0 < x < length (p_vnew P)) l) by (rewrite A3; auto). assert (Hb : 0 < length (p_ml P)) by lia.
        destruct (call_segs_total (p_vnew P) l (p_ml P) at_ nin Hb Hv Hl pool' (sp_segs sp) [] ints (p_insns P) (p_sc P) R2) as [insns' [sc' [C1 [C2 C3]]]]; [rewrite app_nil_r; auto|rewrite app_nil_r; auto|]. rewrite app_nil_r in C1. rewrite C1. cbn [obind].
        assert (D : exists outs, omap (deref (p_vnew P) l (length (p_ml P) - 1)) (firstn n (sp_outs sp)) = Some outs /\ Forall2 (fun x lv => 0 < x < length (p_ml P ++ ints) /\ getn (p_ml P ++ ints) x = lv) outs (fst ol)).
        { clear - R3 Hb Hv Hl. induction R3 as [|r lv rs lvs H R3 IH]; [exists []; split; [auto|constructor]|]. destruct IH as [os [I1 I2]]. destruct (deref_total (p_vnew P) l (p_ml P) Hb Hv Hl ints r lv H) as [x [X1 X2]]. exists (x :: os). cbn [omap]. rewrite X1. cbn [obind]. rewrite I1. cbn [obind]. split; auto. }
        destruct D as [outs [D1 D2]]. rewrite D1. cbn [obind]. rewrite (proj2 (forallb_forall _ _)); [|intros [x lv] Hi; cbn [fst snd]; apply Nat.eqb_eq; apply (Forall2_in _ _ _ D2 x lv Hi)]. cbn [guard obind].
        assert (D' : exists ccs, omap (deref_cc (length (p_ml P) - 1)) (skipn n (sp_outs sp)) = Some ccs /\ Forall (fun x => 0 < x < length (p_ml P ++ ints) /\ In (getn (p_ml P ++ ints) x) (snd ol)) ccs).
        { clear - R4 Hb. induction R4 as [|r rs [k [lv [-> [K1 K2]]]] R4 IH]; [exists []; split; [auto|constructor]|]. destruct IH as [os [I1 I2]]. exists (length (p_ml P) - 1 + k + 1 :: os). cbn [omap deref_cc obind]. rewrite I1. cbn [obind]. split; auto. constructor; auto. assert (Hk : k < length ints) by (apply nth_error_Some; congruence). replace (length (p_ml P) - 1 + k + 1) with (length (p_ml P) + k) by lia. rewrite app_length, getn_app2. split; [lia|]. apply nth_error_nth with (d := 0) in K1. unfold getn. rewrite K1. auto. }
        destruct D' as [ccs [E1 E2]]. rewrite E1. cbn [obind]. eexists. split; [reflexivity|]. assert (Lo : length outs = length (fst ol)) by (clear - D2; induction D2; cbn; auto). constructor; cbn [p_ml p_insns p_vnew p_sc p_sub]; auto.
        + rewrite firstn_more by lia. auto.
        + rewrite !app_length. lia.
        + intros x Hi. rewrite app_length in Hi. destruct (Nat.lt_ge_cases x (length oml)) as [Hlt|Hge].
          * destruct (A4 x Hlt) as [B1 [B2 B3]]. rewrite !(getn_app1 _ _ x) by lia. rewrite getn_app1 by lia. rewrite app_length. split; [lia|]. auto.
          * assert (Ex : x = length oml + (x - length oml)) by lia. rewrite Ex. rewrite (getn_app2 oml). replace (getn (p_vnew P ++ outs) (length oml + (x - length oml))) with (getn outs (x - length oml)) by (rewrite <- A3, getn_app2; auto). set (j := x - length oml) in *. clearbody j. assert (Hj : j < length (fst ol)) by lia.
            destruct (nth_error (fst ol) j) as [lv|] eqn:Ej; [|apply nth_error_None in Ej; lia]. destruct (nth_error outs j) as [y|] eqn:Eo; [|apply nth_error_None in Eo; lia]. assert (Hin : In (y, lv) (combine outs (fst ol))). { clear - Ej Eo. revert j Ej Eo. generalize (fst ol). induction outs as [|a outs IH]; intros [|b q] [|j] Ej Eo; cbn in *; try discriminate; [injection Ej as ->; injection Eo as ->; auto|right; eapply IH; eauto]. }
            destruct (Forall2_in _ _ _ D2 y lv Hin) as [B1 B2]. apply nth_error_nth with (d := 0) in Ej, Eo. fold (getn (fst ol) j) in Ej. fold (getn outs j) in Eo. rewrite Ej, Eo. split; [lia|]. split; [lia|]. auto.
        + apply Forall_app. split.
          * eapply Forall_impl; [|exact A6]. cbn beta. intros x [B1 B2]. rewrite app_length, getn_app1 by lia. split; [lia|]. apply in_or_app. auto.
          * eapply Forall_impl; [|exact E2]. cbn beta. intros x [B1 B2]. split; auto. apply in_or_app. right. apply in_map. auto.
      - injection H as <- <-. eexists. split; [reflexivity|]. apply pi_one; auto. cbn [lay]. rewrite <- A1, getn_last. split; auto.
    Qed.
    Lemma layer_cons i is oml cc : layer_insns (F := F) lrec (i :: is) oml cc = let* r := layer_insns lrec [i] oml cc in layer_insns lrec is (fst r) (snd r).
    Proof. destruct i as [e|id l n|k]; cbn [layer_insns obind fst snd]; auto. destruct (lrec _ _) as [r|]; cbn [obind]; auto. destruct (guard _); cbn [obind]; auto. Qed.
    Lemma layer_len i oml cc oml' cc' : layer_insns (F := F) lrec [i] oml cc = Some (oml', cc') -> length oml' = length oml + d_nout F i.
    Proof.
      destruct i as [e|id l n|k]; cbn [layer_insns d_nout]; intros H; [injection H as <- _; rewrite app_length; auto| |injection H as <- _; rewrite app_length; auto].
      apply obind_some in H. destruct H as [r [_ H]]. destruct (Nat.eqb_spec (length (fst r)) n) as [Hn|]; [|discriminate]. cbn [guard obind] in H. injection H as <- _. rewrite app_length. lia.
    Qed.
    Lemma expand_total is : forall P oml cc oml' cc', layer_insns lrec is oml cc = Some (oml', cc') -> PI P oml cc -> 0 < length oml -> wf_insns DI is (length oml - 1) ->
      (forall id l n il ol pool, In (DCall id l n) is -> length il = length l -> lrec id il = Some ol -> sub_tot at_ rec id n il ol pool) ->
      exists P', ofold (fun P i => expand1 layers rec i P) is P = Some P' /\ PI P' oml' cc'.
    Proof.
      induction is as [|i is IH]; intros P oml cc oml' cc' H HP Hp Hw Hc; [cbn in H; injection H as <- <-; exists P; cbn; auto|].
      rewrite layer_cons in H. apply obind_some in H. destruct H as [[o1 c1] [H1 H2]]. cbn [fst snd] in H2. destruct Hw as [W1 W2].
      destruct (expand1_total i P oml cc o1 c1 H1 HP) as [P1' [E1 HP1]]; [eapply Forall_impl; [|exact W1]; cbn beta; intros; lia|intros; subst i; eapply Hc; eauto; left; auto|]. pose proof (layer_len _ _ _ _ _ H1) as Hl.
      cbn [ofold]. rewrite E1. cbn [obind]. apply (IH P1' o1 c1); auto; [lia| |intros; eapply Hc; eauto; right; auto]. replace (length o1 - 1) with (length oml - 1 + i_nout (i : Insn DI)) by (cbn [i_nout DestI]; lia). auto.
    Qed.
  End Exp.

  (* ------------------------------------------------------------ the random sums of a circuit other than the root *)
  Section CombLay.
    Variables (ml0 sub cns at_ cc sc : list nat) (nin : nat).
    Hypothesis Hsub : Forall (fun x => 0 < x < length ml0 /\ In (S (getn ml0 x)) cc) sub.
    Hypothesis Hcns : Forall (fun x => 0 < x < length ml0 /\ In (S (getn ml0 x)) cc) cns.
    Lemma cterms_in add i t x : In t (comb_terms (F := F) false ml0 sub cns add i) -> In x (vs_vars (vars t)) -> (In x sub \/ In x cns) /\ getn ml0 x = i.
    Proof.
      unfold comb_terms. rewrite app_nil_r. intros Ht Hx. apply in_app_or in Ht. destruct Ht as [H|H]; apply in_map_iff in H; destruct H as [y [<- Hy]]; cbn in Hx; destruct Hx as [<-|[]]; apply filter_In in Hy; rewrite Nat.eqb_eq in Hy; tauto.
    Qed.
    Lemma cterms_ne add i t ts : comb_terms (F := F) false ml0 sub cns add i = t :: ts -> exists x, (In x sub \/ In x cns) /\ getn ml0 x = i.
    Proof.
      intros E. assert (Ht : In t (comb_terms (F := F) false ml0 sub cns add i)) by (rewrite E; left; auto). assert (Hx : exists x, In x (vs_vars (vars t))).
      { clear - Ht. unfold comb_terms in Ht. apply in_app_or in Ht. destruct Ht as [H|H]; apply in_map_iff in H; destruct H as [y [<- _]]; exists y; left; auto. }
      destruct Hx as [x Hx]. exists x. eapply cterms_in; eauto.
    Qed.
    Lemma comb_lay n : forall i (insns : list (DInsn F)) ml add lst insns' ml' add', comb false ml0 sub cns n i insns ml add lst = (insns', ml', add') ->
      lay anyU ml at_ insns nin sc -> length ml = S (nin + nouts DI insns) -> S nin <= length ml0 <= length ml -> firstn (length ml0) ml = ml0 ->
      (forall x old, lst = Some (x, old) -> forall y, In y (e_vars F old) -> 0 < y < length ml /\ getn ml y <= i) ->
      Forall (fun x => nin < x < length ml /\ In (getn ml x) cc) add ->
      lay anyU ml' at_ insns' nin sc /\ length ml' = S (nin + nouts DI insns') /\ length ml0 <= length ml' /\ firstn (length ml0) ml' = ml0 /\ Forall (fun x => nin < x < length ml' /\ In (getn ml' x) cc) add'.
    Proof.
      induction n as [|n IH]; intros i insns ml add lst insns' ml' add' H Hl Hlen H0 Hf HL Ha; cbn [comb] in H.
      - injection H as <- <- <-. split; auto. split; auto. split; [lia|]. auto.
      - assert (Hget : forall x, x < length ml0 -> getn ml x = getn ml0 x). { intros x Hx. rewrite <- Hf. unfold getn. rewrite <- (firstn_skipn (length ml0) ml) at 1. apply app_nth1. rewrite firstn_length. lia. }
        destruct (comb_terms false ml0 sub cns add i) as [|t ts] eqn:Et.
        + apply (IH _ _ _ _ _ _ _ _ H); auto. intros x old E y Hy. destruct (HL x old E y Hy). split; auto.
        + destruct (cterms_ne _ _ _ _ Et) as [z [Hz Ez]]. rewrite <- Et in H. cbv zeta in H. set (ts' := comb_again lst (comb_terms false ml0 sub cns add i)) in *.
          assert (Hz' : In (S i) cc). { rewrite Forall_forall in Hsub, Hcns. rewrite <- Ez. destruct Hz as [Hz|Hz]; [apply Hsub|apply Hcns]; auto. }
          assert (Hv : forall y, In y (e_vars F ts') -> 0 < y < length ml /\ getn ml y <= i).
          { unfold ts'. destruct (again_cases lst (comb_terms false ml0 sub cns add i)) as [->|[x [old [E1 [E2 ->]]]]]; [|apply (HL x old E1)]. intros y Hy. apply in_flat_map in Hy. destruct Hy as [u [Hu Hy]]. destruct (cterms_in _ _ _ _ Hu Hy) as [Hy1 Hy2].
            assert (Hy3 : 0 < y < length ml0) by (rewrite Forall_forall in Hsub, Hcns; destruct Hy1 as [Hy1|Hy1]; [apply Hsub|apply Hcns]; auto). split; [lia|]. rewrite Hget by lia. lia. }
          apply IH in H; auto.
          * rewrite <- (app_nil_r sc). apply lay_snoc; [apply lay_more; auto|]. cbn [lay]. rewrite <- Hlen, getn_last. split; [|split; [lia|auto]]. intros y Hy. apply from_terms_vars in Hy. destruct (Hv y Hy) as [B1 B2]. rewrite getn_app1 by lia. unfold anyU. split; [lia|]. split; [lia|auto].
          * rewrite app_length, nouts_app. cbn [nouts length i_nout DestI d_nout]. lia.
          * rewrite app_length. lia.
          * rewrite firstn_more by lia. auto.
          * intros x old E y Hy. injection E as <- <-. destruct (Hv y Hy) as [B1 B2]. rewrite app_length, getn_app1 by lia. split; lia.
          * apply Forall_app. split; [|constructor; [|constructor]].
            -- eapply Forall_impl; [|exact Ha]. cbn beta. intros x [B1 B2]. rewrite app_length, getn_app1 by lia. split; [lia|auto].
            -- rewrite app_length, getn_last. cbn [length]. split; [lia|auto].
    Qed.
  End CombLay.
End LayC.
