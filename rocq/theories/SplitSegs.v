(* Facts about ir_split.rs: the segments of a circuit, run one after another, compute what the circuit computes. *)
From Verif Require Import Prelude Field Sorting Expr Topo Ir IrFacts IrInst Sim Builder BuilderFacts LaySched Layering IrSplit SplitCut.
Open Scope nat_scope.

Section Segs.
  Context {F : Fld}.
  Notation DI := (DestI F false).
  Let L : IRC_laws DI := DestL F false.
  Notation Pool := (CPool (F := F)).

  (* ------------------------------------------------------------ structure *)
  Definition pcall (pool : Pool) (i : DInsn F) : Prop :=
    forall id l n, i = DCall id l n -> exists c, cpool_get pool id = Some c /\ length l = num_inputs c /\ n = length (outputs c).
  Definition pool_ok (pool : Pool) : Prop := forall id c, cpool_get pool id = Some c ->
    constraints c = [] /\ wf_circuit DI c /\ Forall (pcall pool) (instructions c) /\ (forall o, In o (calls c) -> o < id).
  Definition pool_le (p q : Pool) : Prop := exists ext, q = p ++ ext.
  Lemma pool_le_refl p : pool_le p p.
  Proof. exists []. rewrite app_nil_r. auto. Qed.
  Lemma pool_le_trans p q r : pool_le p q -> pool_le q r -> pool_le p r.
  Proof. intros [a ->] [b ->]. exists (a ++ b). rewrite app_assoc. auto. Qed.
  Lemma pool_le_get p q id c : pool_le p q -> cpool_get p id = Some c -> cpool_get q id = Some c.
  Proof. intros [a ->]. apply cpool_get_app. Qed.
  Lemma pcall_le p q i : pool_le p q -> pcall p i -> pcall q i.
  Proof. intros Hl H id l n E1. destruct (H id l n E1) as [c [H1 H2]]. exists c. split; auto. eapply pool_le_get; eauto. Qed.
  Lemma cpool_get_lt (p : Pool) id c : cpool_get p id = Some c -> id <= length p.
  Proof. destruct id; cbn; [discriminate|]. intros H. apply nth_error_Some_lt in H. lia. Qed.
  Lemma cpool_add_ok (p : Pool) c id p' : cpool_add p c = (id, p') -> pool_ok p -> constraints c = [] -> wf_circuit DI c -> Forall (pcall p) (instructions c) -> pool_ok p' /\ pool_le p p' /\ cpool_get p' id = Some c.
  Proof.
    intros H Hp H1 H2 H3. destruct (cpool_add_spec p c id p' H) as [Hl [Hg Hc]]. assert (Hl' : pool_le p p') by exact Hl. split; [|split; auto]. destruct Hc as [->|[-> ->]]; auto.
    intros id' c' Hc'. destruct id' as [|k]; [discriminate|]. cbn [cpool_get] in Hc'. destruct (Nat.lt_ge_cases k (length p)) as [Hk|Hk].
    - rewrite nth_error_app1 in Hc' by auto. destruct (Hp (S k) c' Hc') as [A1 [A2 [A3 A4]]]. split; auto. split; auto. split; auto. eapply Forall_impl; [|exact A3]. intros i. apply pcall_le; auto.
    - rewrite nth_error_app2 in Hc' by auto. destruct (k - length p) as [|m] eqn:Ek; [|destruct m; discriminate]. cbn in Hc'. inversion Hc'; subst c'. split; auto. split; auto. split; [eapply Forall_impl; [|exact H3]; intros i; apply pcall_le; auto|].
      intros o Ho. apply calls_in in Ho. destruct Ho as [i [l [n [Hi Ec]]]]. rewrite Forall_forall in H3. destruct i as [e|id0 l0 n0|k0]; cbn in Ec; try discriminate. inversion Ec; subst. destruct (H3 _ Hi o l n eq_refl) as [d [Hd _]]. apply cpool_get_lt in Hd. lia.
  Qed.

  Lemma combine_inv {A B} (l : list A) : forall (r : list B) k a b, nth_error (combine l r) k = Some (a, b) -> nth_error l k = Some a /\ nth_error r k = Some b.
  Proof. induction l as [|x l IH]; intros [|y r] [|k] a b H; cbn in *; try discriminate; [inversion H; auto|apply IH; auto]. Qed.
  Lemma omap_inv {A B} (f : A -> option B) (l : list A) : forall r k y, omap f l = Some r -> nth_error r k = Some y -> exists x, nth_error l k = Some x /\ f x = Some y.
  Proof.
    induction l as [|x l IH]; intros r k y H Hk; cbn [omap] in H; [inversion H; subst; destruct k; discriminate|]. destruct (f x) as [u|] eqn:Ef; [|discriminate]. cbn [obind] in H. destruct (omap f l) as [us|]; [|discriminate]. cbn [obind] in H. inversion H; subst.
    destruct k as [|k]; cbn [nth_error] in *; [inversion Hk; subst; eauto|apply (IH us); auto].
  Qed.
  Definition isref (G : SegSt) (j : nat) (r : SRef) : Prop := nth_error (g_new G) j = Some r \/ nth_error (g_fin G) j = Some (Some r).
  Lemma outs_fold ml mx loc stop js : forall outs G outs' G', fold_left (seg_out1 ml mx loc stop) js (outs, G) = (outs', G') ->
    exists added, outs' = outs ++ map (getn loc) added /\ g_count G' = g_count G + length added /\ (forall j, In j added -> getn loc j <> 0) /\
      forall j r, isref G' j r -> isref G j r \/ exists k, nth_error added k = Some j /\ r = RInt (g_count G + k).
  Proof.
    induction js as [|x js IH]; intros outs G outs' G' H; cbn [fold_left] in H.
    - inversion H; subst. exists []. cbn. rewrite app_nil_r, Nat.add_0_r. repeat split; auto; intros j [].
    - unfold seg_out1 at 2 in H. destruct (_ && negb (getn loc x =? 0)) eqn:Ec; [|apply IH in H; auto]. apply andb_true_iff in Ec. destruct Ec as [_ Ec]. apply negb_true_iff, Nat.eqb_neq in Ec.
      apply IH in H. destruct H as [added [-> [Hc [Hn Hr]]]]. cbn [g_count] in *. exists (x :: added). rewrite <- app_assoc. split; auto. split; [cbn [length]; lia|]. split; [intros j [<-|Hj]; auto|].
      intros j r Hjr. destruct (Hr j r Hjr) as [[Hj|Hj]|[k [Hk ->]]].
      + cbn [g_new] in Hj. unfold upd_ref in Hj. rewrite nth_error_upd in Hj. destruct ((x =? j) && _) eqn:Ex; [|left; left; auto]. apply andb_true_iff in Ex. destruct Ex as [Ex _]. apply Nat.eqb_eq in Ex. subst x. inversion Hj; subst. right. exists 0. split; [auto|f_equal; lia].
      + cbn [g_fin] in Hj. destruct (nth x (g_isout G) false); [|left; right; auto]. rewrite nth_error_upd in Hj. destruct ((x =? j) && _) eqn:Ex; [|left; right; auto]. apply andb_true_iff in Ex. destruct Ex as [Ex _]. apply Nat.eqb_eq in Ex. subst x. inversion Hj; subst. right. exists 0. split; [auto|f_equal; lia].
      + right. exists (S k). split; auto. f_equal. lia.
  Qed.
  Lemma set_locals_spec nv js j : getn (set_locals nv js) j <> 0 -> exists k, getn (set_locals nv js) j = S k /\ nth_error js k = Some j.
  Proof.
    unfold set_locals. intros H.
    assert (G : forall ps loc, getn (fold_left (fun loc p => upd loc (fst p) (snd p)) ps loc) j <> 0 -> getn loc j = getn (fold_left (fun loc p => upd loc (fst p) (snd p)) ps loc) j \/ In (j, getn (fold_left (fun loc p => upd loc (fst p) (snd p)) ps loc) j) ps).
    { clear. induction ps as [|[a b] ps IH]; intros loc H; cbn [fold_left fst snd] in *; auto. destruct (IH _ H) as [Hj|Hj]; [|right; right; auto]. rewrite getn_upd in Hj. destruct ((a =? j) && (j <? length loc)) eqn:Ea; [|auto]. apply andb_true_iff in Ea. rewrite Nat.eqb_eq in Ea. right. left. rewrite <- Hj. f_equal. tauto. }
    destruct (G _ _ H) as [Hj|Hj].
    - exfalso. apply H. rewrite <- Hj. unfold getn. clear. revert j. induction nv as [|n IH]; intros [|j]; cbn; auto.
    - set (m := getn _ j) in *. clearbody m. apply In_nth_error in Hj. destruct Hj as [k Hk]. apply combine_inv in Hk. destruct Hk as [H1 H2]. exists k. split; auto. assert (k < length js) by (apply nth_error_Some_lt in H1; auto). rewrite nth_error_seq in H2 by auto. inversion H2. lia.
  Qed.
  Lemma set_locals_len nv js : length (set_locals nv js) = nv.
  Proof.
    unfold set_locals. assert (G : forall ps (loc : list nat), length (fold_left (fun loc (p : nat * nat) => upd loc (fst p) (snd p)) ps loc) = length loc).
    { induction ps as [|p ps IH]; intros loc; cbn [fold_left]; auto. rewrite IH. apply upd_length. }
    rewrite G. apply repeat_length.
  Qed.
  Lemma set_locals_le nv js j : getn (set_locals nv js) j <= length js.
  Proof. destruct (Nat.eq_dec (getn (set_locals nv js) j) 0) as [->|H]; [lia|]. destruct (set_locals_spec nv js j H) as [k [-> Hk]]. apply nth_error_Some_lt in Hk. lia. Qed.
  Lemma seg_inputs_pos nin nv start ml mx j : In j (seg_inputs nin nv start ml mx) -> 1 <= j.
  Proof. unfold seg_inputs. rewrite in_app_iff, !filter_In, !in_seq. lia. Qed.

  (* what seg1 does *)
  Definition seg_refs (nin start : nat) (ml js : list nat) (G : SegSt) : list SRef := map (fun j => if (getn ml j =? start) && (j <=? nin) then RIn (j - 1) else nth j (g_new G) RUnknown) js.
  Lemma seg1_inv nin nv (is : list (DInsn F)) ml mx start stop G pool s G' pool' : seg1 nin nv is ml mx start stop G pool = Some (s, G', pool') ->
    exists is' loc' (c : Circuit DI), let js := seg_inputs nin nv start ml mx in
      seg_insns ml start stop is nin (length js) (set_locals nv js) = Some (is', loc') /\ sg_ins s = seg_refs nin start ml js G /\
      num_inputs c = length js /\ instructions c = is' /\ constraints c = [] /\ cpool_add pool c = (sg_id s, pool') /\
      exists added, outputs c = map (getn loc') added /\ g_count G' = g_count G + length added /\ (forall j, In j added -> getn loc' j <> 0) /\
        forall j r, isref G' j r -> isref G j r \/ exists k, nth_error added k = Some j /\ r = RInt (g_count G + k).
  Proof.
    unfold seg1. cbv zeta. set (js := seg_inputs nin nv start ml mx). destruct (seg_insns _ _ _ _ _ _ _) as [[is' loc']|] eqn:Es; [|discriminate]. cbn [obind fst snd]. intros H.
    destruct (fold_left _ _ _) as [outs G2] eqn:Ef. destruct (cpool_add _ _) as [id p2] eqn:Ep. inversion H; subst. cbn [sg_ins sg_id]. apply outs_fold in Ef. destruct Ef as [added [Eo [E1 [E2 E3]]]]. cbn [app] in Eo.
    eexists is', loc', _. split; [reflexivity|]. split; [reflexivity|]. split; [|split; [|split; [|split; [exact Ep|]]]]; cbn [num_inputs instructions constraints outputs]; auto. exists added. auto.
  Qed.

  Definition sref_ok (nin cnt : nat) (r : SRef) : Prop := match r with RIn i => i < nin | RInt i => i < cnt | RUnknown => True end.
  Definition Gst (nin : nat) (G : SegSt) : Prop := forall j r, isref G j r -> sref_ok nin (g_count G) r.
  Lemma sref_le nin a b r : a <= b -> sref_ok nin a r -> sref_ok nin b r.
  Proof. destruct r; cbn; intros; auto; lia. Qed.
  Lemma seg1_wf nin nv (is : list (DInsn F)) ml mx start stop G pool s G' pool' : seg1 nin nv is ml mx start stop G pool = Some (s, G', pool') ->
    nv = S (nin + nouts DI is) -> Forall (pcall pool) is -> pool_ok pool -> Gst nin G ->
    pool_ok pool' /\ pool_le pool pool' /\ Gst nin G' /\ exists c, cpool_get pool' (sg_id s) = Some c /\ length (sg_ins s) = num_inputs c /\ g_count G' = g_count G + length (outputs c) /\ Forall (sref_ok nin (g_count G)) (sg_ins s).
  Proof.
    intros H Hnv Hp Hok HG. apply seg1_inv in H. destruct H as [is' [loc' [c H]]]. cbv zeta in H. set (js := seg_inputs nin nv start ml mx) in *. destruct H as [Hs [Hi [Hn [His [Hc [Ha [added [Ho [Hcnt [Hadd Href]]]]]]]]]].
    assert (Hlen : nin + nouts DI is < length (set_locals nv js)) by (rewrite set_locals_len; lia).
    destruct (seg_wf ml start stop is nin _ _ _ _ Hs Hlen (set_locals_le nv js)) as [W1 W2].
    assert (Hpc : Forall (pcall pool) is').
    { apply Forall_forall. intros i Hii id l n E1. subst i. apply (seg_calls ml start stop (fun id k n => exists c, cpool_get pool id = Some c /\ k = num_inputs c /\ n = length (outputs c)) is _ _ _ _ _ Hs); auto.
      intros id' l' n' Hi'. rewrite Forall_forall in Hp. apply (Hp _ Hi' id' l' n' eq_refl). }
    destruct (cpool_add_ok pool c (sg_id s) pool' Ha Hok Hc) as [K1 [K2 K3]].
    { split; [rewrite His, Hn; auto|rewrite Hc; constructor|]. rewrite Ho, His, Hn. apply Forall_forall. intros x Hx. apply in_map_iff in Hx. destruct Hx as [j [<- Hj]]. specialize (Hadd j Hj). specialize (W2 j). lia. }
    { rewrite His. auto. }
    split; auto. split; auto. split.
    { intros j r Hjr. rewrite Hcnt. destruct (Href j r Hjr) as [Hj|[k [Hk ->]]]; [apply (sref_le _ (g_count G)); [lia|apply (HG j); auto]|]. cbn. apply nth_error_Some_lt in Hk. lia. }
    exists c. split; auto. rewrite Hi. unfold seg_refs. rewrite map_length. split; auto. split; [rewrite Hcnt, Ho, map_length; auto|]. apply Forall_forall. intros r Hr. apply in_map_iff in Hr. destruct Hr as [j [<- Hj]]. pose proof (seg_inputs_pos _ _ _ _ _ _ Hj).
    destruct ((getn ml j =? start) && (j <=? nin)) eqn:Ej; [apply andb_true_iff in Ej; rewrite Nat.leb_le in Ej; cbn; lia|]. destruct (nth_error (g_new G) j) as [r|] eqn:Er; [rewrite (nth_error_nth _ _ _ Er); apply (HG j); left; auto|]. rewrite nth_overflow; [constructor|]. apply nth_error_None. auto.
  Qed.
  (* the segments of a split circuit fit together: cnt counts the outputs so far *)
  Fixpoint segs_ok (pool : Pool) (nin cnt : nat) (segs : list Seg) (cnt' : nat) : Prop :=
    match segs with
    | [] => cnt' = cnt
    | s :: segs => exists c, cpool_get pool (sg_id s) = Some c /\ length (sg_ins s) = num_inputs c /\ Forall (sref_ok nin cnt) (sg_ins s) /\ segs_ok pool nin (cnt + length (outputs c)) segs cnt'
    end.
  Lemma segs_ok_le p q nin segs : pool_le p q -> forall cnt cnt', segs_ok p nin cnt segs cnt' -> segs_ok q nin cnt segs cnt'.
  Proof.
    intros Hl. induction segs as [|s segs IH]; intros cnt cnt' H; auto. destruct H as [c [H1 [H2 [H3 H4]]]]. exists c. split; [eapply pool_le_get; eauto|auto].
  Qed.
  Lemma segments_wf nin nv (is : list (DInsn F)) ml mx : nv = S (nin + nouts DI is) -> forall at_ G pool ss G' pool', segments nin nv is ml mx at_ G pool = Some (ss, G', pool') -> Forall (pcall pool) is -> pool_ok pool -> Gst nin G ->
    pool_ok pool' /\ pool_le pool pool' /\ Gst nin G' /\ segs_ok pool' nin (g_count G) ss (g_count G').
  Proof.
    intros Hnv. induction at_ as [|start at_ IH]; intros G pool ss G' pool' H Hp Hok HG; cbn [segments] in H.
    - inversion H; subst. split; auto. split; [apply pool_le_refl|]. split; auto. reflexivity.
    - destruct at_ as [|stop rest]; [inversion H; subst; split; auto; split; [apply pool_le_refl|]; split; auto; reflexivity|].
      destruct (seg1 _ _ _ _ _ _ _ _ _) as [[[s G1] p1]|] eqn:E1; [|discriminate]. cbn [obind] in H. destruct (segments nin nv is ml mx (stop :: rest) G1 p1) as [[[ss2 G2] p2]|] eqn:E2; [|discriminate]. cbn [obind] in H. inversion H; subst ss G' pool'.
      destruct (seg1_wf _ _ _ _ _ _ _ _ _ _ _ _ E1 Hnv Hp Hok HG) as [A1 [A2 [A3 [c [A4 [A5 [A6 A7]]]]]]].
      destruct (IH _ _ _ _ _ E2) as [B1 [B2 [B3 B4]]]; auto; [eapply Forall_impl; [|exact Hp]; intros i; apply pcall_le; auto|].
      split; auto. split; [eapply pool_le_trans; eauto|]. split; auto. exists c. split; [eapply pool_le_get; eauto|]. split; auto. split; auto. rewrite <- A6. auto.
  Qed.
  Definition G0 (nin nv : nat) (outs : list nat) : SegSt :=
    {| g_new := RUnknown :: map RIn (seq 0 nin) ++ repeat RUnknown (nv - 1 - nin);
       g_isout := map (fun j => memb j outs && negb ((1 <=? j) && (j <=? nin))) (seq 0 nv);
       g_fin := None :: map (fun i => Some (RIn i)) (seq 0 nin) ++ repeat None (nv - 1 - nin);
       g_count := 0 |}.
  Lemma G0_refs nin nv outs j r : isref (G0 nin nv outs) j r -> r = RUnknown \/ exists i, i < nin /\ j = S i /\ r = RIn i.
  Proof.
    unfold G0, isref. cbn [g_new g_fin]. destruct j as [|j]; cbn [nth_error]; [intros [H|H]; inversion H; auto|]. destruct (Nat.lt_ge_cases j nin) as [Hj|Hj].
    - rewrite !nth_error_app1 by (rewrite map_length, seq_length; auto). rewrite !nth_error_map, !nth_error_seq by auto. cbn. intros [H|H]; inversion H; right; exists j; auto.
    - rewrite !nth_error_app2 by (rewrite map_length, seq_length; auto). rewrite !map_length, !seq_length. intros [H|H]; apply nth_error_In, repeat_spec in H; [auto|discriminate].
  Qed.
  Lemma cut_inv nin (is : list (DInsn F)) outs ml sc at_ pool sp pool' : cut nin is outs ml sc at_ pool = Some (sp, pool') ->
    exists mx G', segments nin (S (nin + nouts DI is)) is ml mx at_ (G0 nin (S (nin + nouts DI is)) outs) pool = Some (sp_segs sp, G', pool') /\ omap (fun x => nth x (g_fin G') None) outs = Some (sp_outs sp).
  Proof.
    unfold cut. intros H. apply obind_some in H. destruct H as [? [_ H]]. apply obind_some in H. destruct H as [? [_ H]]. apply obind_some in H. destruct H as [? [_ H]]. apply obind_some in H. destruct H as [? [_ H]]. apply obind_some in H. destruct H as [mx [_ H]]. cbv zeta in H. fold (G0 nin (S (nin + nouts DI is)) outs) in H.
    apply obind_some in H. destruct H as [[[ss G'] p2] [Hs H]]. apply obind_some in H. destruct H as [fo [Ho H]]. inversion H; subst. exists mx, G'. auto.
  Qed.
  Definition spl_ok (pool : Pool) (nin nout : nat) (sp : Spl) : Prop :=
    exists cnt, segs_ok pool nin 0 (sp_segs sp) cnt /\ Forall (sref_ok nin cnt) (sp_outs sp) /\ length (sp_outs sp) = nout.
  Lemma spl_ok_le p q nin nout sp : pool_le p q -> spl_ok p nin nout sp -> spl_ok q nin nout sp.
  Proof. intros Hl [cnt [H1 H2]]. exists cnt. split; auto. eapply segs_ok_le; eauto. Qed.
  Lemma cut_wf nin (is : list (DInsn F)) outs ml sc at_ pool sp pool' : cut nin is outs ml sc at_ pool = Some (sp, pool') -> Forall (pcall pool) is -> pool_ok pool ->
    pool_ok pool' /\ pool_le pool pool' /\ spl_ok pool' nin (length outs) sp.
  Proof.
    intros H Hp Hok. apply cut_inv in H. destruct H as [mx [G' [Hs Ho]]]. destruct (segments_wf _ _ _ _ _ eq_refl _ _ _ _ _ _ Hs Hp Hok) as [A1 [A2 [A3 A4]]].
    { intros j r Hr. apply G0_refs in Hr. destruct Hr as [->|[i [H1 [_ ->]]]]; [constructor|auto]. }
    split; auto. split; auto. exists (g_count G'). split; auto. split; [|apply omap_length in Ho; auto]. apply Forall_forall. intros r Hr. apply In_nth_error in Hr. destruct Hr as [k Hk]. destruct (omap_inv _ _ _ _ _ Ho Hk) as [x [_ Hx]].
    apply (A3 x). right. destruct (nth_error (g_fin G') x) as [o|] eqn:Eo; [rewrite (nth_error_nth _ _ _ Eo) in Hx; congruence|]. rewrite nth_overflow in Hx; [discriminate|]. apply nth_error_None. auto.
  Qed.
End Segs.
