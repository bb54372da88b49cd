(* Facts about layered circuits: validated circuits evaluate in bounds, and the evaluator computes what [lrun] says. *)
From Verif Require Import Prelude Field Zp Expr Topo Ir Layered.

Lemma flat_map_ext_in {A B} (f g : A -> list B) l : (forall x, In x l -> f x = g x) -> flat_map f l = flat_map g l.
Proof. induction l as [|x l IH]; intros H; cbn; auto. rewrite H by (left; auto). rewrite IH; auto. intros y Hy. apply H. right; auto. Qed.

Section LF.
  Context {F : Fld}.
  Add Field LFf : (fth F).
  Notation UG := (UG F). Notation Segment := (Segment F). Notation LCircuit := (LCircuit F).

  (* ------------------------------------------------------------ what validation guarantees *)
  Definition wire_ok (ins : list nat) (i : Inp) : Prop := exists n, nth_error ins (il i) = Some n /\ io i < n.
  Definition gate_inb (s : Segment) (g : UG) : Prop := Forall (wire_ok (s_ins s)) (k_ins (g_in g)) /\ g_out g < s_outs s.
  Definition alloc_ok (sub s : Segment) (a : Alloc) : Prop :=
    length (a_in a) = length (s_ins sub) /\ a_out a + s_outs sub <= s_outs s /\
    forall l x y z, nth_error (a_in a) l = Some x -> nth_error (s_ins sub) l = Some y -> nth_error (s_ins s) l = Some z -> x + y <= z.
  Definition child_wf (segs : list Segment) (i : nat) (s : Segment) (ch : nat * list Alloc) : Prop :=
    fst ch < i /\ exists sub, nth_error segs (fst ch) = Some sub /\ length (s_ins sub) <= length (s_ins s) /\ Forall (alloc_ok sub s) (snd ch).
  Definition wf_seg (segs : list Segment) (i : nat) (s : Segment) : Prop :=
    s_ins s <> [] /\ Forall (gate_inb s) (seg_gates s) /\ Forall (child_wf segs i s) (s_children s).
  Definition wf_segs (segs : list Segment) : Prop := forall i s, nth_error segs i = Some s -> wf_seg segs i s.

  Lemma combine3_nth (x y z : list nat) l a b c : nth_error x l = Some a -> nth_error y l = Some b -> nth_error z l = Some c -> In (a, b, c) (combine (combine x y) z).
  Proof.
    revert x y z. induction l as [|l IH]; intros [|u x] [|v y] [|w z] H1 H2 H3; cbn in *; try discriminate.
    - left. congruence.
    - right. apply (IH x y z); auto.
  Qed.
  Lemma seg_ok_wf nl segs i s : seg_ok nl segs i s = true -> wf_seg segs i s.
  Proof.
    unfold seg_ok. rewrite !andb_true_iff. intros [[[[H1 H2] H3] H4] H5]. split; [|split].
    - destruct (s_ins s); [discriminate|congruence].
    - rewrite forallb_forall in H4. apply Forall_forall. intros g Hg. specialize (H4 g Hg). unfold gate_ok in H4. apply andb_true_iff in H4. destruct H4 as [A B].
      split; [|apply Nat.ltb_lt; auto]. rewrite forallb_forall in A. apply Forall_forall. intros w Hw. specialize (A w Hw). apply andb_true_iff in A. destruct A as [_ A].
      destruct (nth_error (s_ins s) (il w)) as [n|] eqn:E; [|discriminate]. exists n. split; auto. apply Nat.ltb_lt; auto.
    - rewrite forallb_forall in H5. apply Forall_forall. intros ch Hch. specialize (H5 ch Hch). unfold child_ok in H5. apply andb_true_iff in H5. destruct H5 as [A B].
      split; [apply Nat.ltb_lt; auto|]. destruct (nth_error segs (fst ch)) as [sub|]; [|discriminate]. apply andb_true_iff in B. destruct B as [B C].
      exists sub. split; auto. split; [apply Nat.leb_le; auto|]. rewrite forallb_forall in C. apply Forall_forall. intros a Ha. specialize (C a Ha). rewrite !andb_true_iff in C.
      destruct C as [[[C1 C2] C3] C4]. split; [apply Nat.eqb_eq; auto|]. split; [apply Nat.leb_le; auto|]. intros l x y z X Y Z. unfold zip3_ok in C2. rewrite forallb_forall in C2.
      specialize (C2 _ (combine3_nth _ _ _ _ _ _ _ X Y Z)). cbn in C2. apply andb_true_iff in C2. destruct C2 as [_ C2]. apply Nat.leb_le in C2. auto.
  Qed.
  Lemma segs_ok_nth nl (all l : list Segment) : forall i j s, segs_ok nl all i l = true -> nth_error l j = Some s -> seg_ok nl all (i + j) s = true.
  Proof.
    induction l as [|x l IH]; intros i [|j] s H Hj; cbn in *; try discriminate; apply andb_true_iff in H; destruct H as [H1 H2].
    - injection Hj as ->. rewrite Nat.add_0_r. auto.
    - replace (i + S j) with (S i + j) by lia. eauto.
  Qed.
  Lemma validate_wf_segs (c : LCircuit) : l_validate c = true -> wf_segs (l_segs c).
  Proof.
    unfold l_validate. rewrite !andb_true_iff. intros [[H _] _] i s Hi. eapply seg_ok_wf. apply (segs_ok_nth _ _ _ 0 i s H Hi).
  Qed.

  (* ------------------------------------------------------------ flattening *)
  Lemma flat_fuel segs : wf_segs segs -> forall id f1 f2, id < f1 -> id < f2 -> flat f1 segs id = flat f2 segs id.
  Proof.
    intros W. induction id as [id IH] using lt_wf_ind. intros [|f1] [|f2] H1 H2; try lia. cbn [flat]. destruct (nth_error segs id) as [s|] eqn:E; auto. f_equal.
    destruct (W id s E) as [_ [_ Wc]]. apply flat_map_ext_in. intros ch Hch. rewrite Forall_forall in Wc. destruct (Wc ch Hch) as [Hlt _].
    apply flat_map_ext. intros a. rewrite (IH (fst ch) Hlt f1 f2); auto; lia.
  Qed.
  Lemma k_ins_map f k : k_ins (k_map f k) = map f (k_ins k).
  Proof. destruct k; auto. Qed.
  Lemma wire_ok_shift sub s a i : alloc_ok sub s a -> length (s_ins sub) <= length (s_ins s) -> wire_ok (s_ins sub) i -> wire_ok (s_ins s) (shift (a_in a) i).
  Proof.
    intros [A1 [A2 A3]] Hl [n [Hn Hi]]. unfold shift, wire_ok. cbn [il io]. assert (Hlt : il i < length (s_ins sub)) by (eapply nth_error_Some_lt; eauto).
    destruct (nth_error_Some_ex (s_ins s) (il i)) as [z Hz]; [lia|]. destruct (nth_error_Some_ex (a_in a) (il i)) as [x Hx]; [lia|].
    exists z. split; auto. specialize (A3 _ _ _ _ Hx Hn Hz). rewrite (nth_error_nth _ _ 0 Hx). lia.
  Qed.
  Lemma flat_inb segs : wf_segs segs -> forall f id s, nth_error segs id = Some s -> Forall (gate_inb s) (flat f segs id).
  Proof.
    intros W. induction f as [|f IH]; intros id s Hs; cbn [flat]; [constructor|]. rewrite Hs. destruct (W id s Hs) as [_ [Wg Wc]].
    apply Forall_app. split; auto. apply Forall_forall. intros g Hg. apply in_flat_map in Hg. destruct Hg as [ch [Hch Hg]]. apply in_flat_map in Hg. destruct Hg as [a [Ha Hg]].
    apply in_map_iff in Hg. destruct Hg as [g0 [<- Hg]]. rewrite Forall_forall in Wc. destruct (Wc ch Hch) as [_ [sub [Hsub [Hl Hal]]]]. rewrite Forall_forall in Hal. specialize (Hal a Ha).
    pose proof (IH _ _ Hsub) as Hf. rewrite Forall_forall in Hf. destruct (Hf g0 Hg) as [G1 G2]. split; cbn [ushift g_in g_out].
    - rewrite k_ins_map. apply Forall_forall. intros w Hw. apply in_map_iff in Hw. destruct Hw as [w0 [<- Hw]]. rewrite Forall_forall in G1. eapply wire_ok_shift; eauto.
    - destruct Hal as [_ [Hal _]]. lia.
  Qed.

  (* ------------------------------------------------------------ accumulating *)
  Definition addc (nxt : list F) (cs : list (nat * F)) : list F := fold_left (fun l p => upd l (fst p) (fadd (nth (fst p) l f0) (snd p))) cs nxt.
  Lemma addc_len cs : forall nxt, length (addc nxt cs) = length nxt.
  Proof. unfold addc. induction cs as [|p cs IH]; intros nxt; auto. cbn [fold_left]. rewrite IH. apply upd_length. Qed.
  Lemma addc_app nxt a b : addc nxt (a ++ b) = addc (addc nxt a) b.
  Proof. apply fold_left_app. Qed.
  Lemma at_out_cons o p cs : at_out o (p :: cs) = fadd (if fst p =? o then snd p else f0) (at_out o cs) :> F.
  Proof. unfold at_out. cbn [filter]. destruct (fst p =? o); cbn [map fsum fold_right]; [auto|]. unfold fsum. ring. Qed.
  Lemma at_out_app o a b : at_out o (a ++ b) = fadd (at_out o a) (at_out o b) :> F.
  Proof. unfold at_out. rewrite filter_app, map_app, fsum_app. auto. Qed.
  Lemma at_out_perm o (a b : list (nat * F)) : Permutation a b -> at_out o a = at_out o b.
  Proof.
    intros H. unfold at_out. apply fsum_perm. apply Permutation_map. induction H; cbn [filter]; auto.
    - destruct (fst x =? o); auto.
    - destruct (fst x =? o), (fst y =? o); auto. constructor.
    - eapply perm_trans; eauto.
  Qed.
  Lemma addc_nth cs : forall nxt o, o < length nxt -> nth o (addc nxt cs) f0 = fadd (nth o nxt f0) (at_out o cs).
  Proof.
    induction cs as [|p cs IH]; intros nxt o Ho.
    - unfold addc, at_out. cbn. ring.
    - change (addc nxt (p :: cs)) with (addc (upd nxt (fst p) (fadd (nth (fst p) nxt f0) (snd p))) cs). rewrite IH by (rewrite upd_length; auto). rewrite at_out_cons, nth_upd.
      destruct (Nat.eqb_spec (fst p) o) as [->|Hne].
      + replace (o <? length nxt) with true by (symmetry; apply Nat.ltb_lt; auto). cbn [andb]. ring.
      + cbn [andb]. ring.
  Qed.

  (* ------------------------------------------------------------ the evaluator *)
  Section EvalSpec.
    Variable pub : nat -> option F. Variable gate : nat -> list F -> F. Variable rnd : nat -> F.
    Notation AL := (scalar_alg pub gate rnd).
    Definition lenv : Env F := {| e_pub := fun i => match pub i with Some v => v | None => f0 end; e_gate := gate;
      e_hint := fun _ _ _ _ => False; e_rnd := fun r => exists k, r = rnd k |}.
    Definition coef_ok (c : Coef F) : Prop := forall i, c = CPub i -> pub i <> None.
    Definition coefs_ok (segs : list Segment) : Prop := forall id s g, nth_error segs id = Some s -> In g (seg_gates s) -> coef_ok (g_coef g).
    Definition shape (cur : list (list F)) (ins : list nat) : Prop := Forall2 (fun l n => length l = n) cur ins.

    Lemma shape_nth cur ins l n : shape cur ins -> nth_error ins l = Some n -> exists x, nth_error cur l = Some x /\ length x = n.
    Proof.
      intros H. revert l. induction H as [|x m cur ins Hx H IH]; intros [|l] Hn; cbn in *; try discriminate; eauto. injection Hn as <-. eauto.
    Qed.
    Lemma wire_spec cur ins i : shape cur ins -> wire_ok ins i -> wire AL cur i = Some (wireF cur i).
    Proof.
      intros Hs [n [Hn Hi]]. destruct (shape_nth _ _ _ _ Hs Hn) as [x [Hx Hl]]. unfold wire, wireF. assert (Hx' : @nth_error (list (al AL)) cur (il i) = Some x) by exact Hx. rewrite Hx'. cbn [obind]. rewrite (nth_error_nth _ _ [] Hx).
      apply (nth_error_nth' (A := F)). lia.
    Qed.
    Lemma coef_spec k c : coef_ok c -> exists v k', al_coef AL k c = Some (v, k') /\ coef_sem lenv c v.
    Proof.
      intros H. destruct c as [c| |i]; cbn.
      - eauto.
      - exists (rnd k), (S k). split; eauto.
      - destruct (pub i) as [v|] eqn:E; [|exfalso; apply (H i); auto]. cbn. eauto.
    Qed.
    Lemma omap_wire cur ins l : shape cur ins -> Forall (wire_ok ins) l -> omap (wire AL cur) l = Some (map (wireF cur) l).
    Proof. intros Hs. induction 1 as [|i l Hi H IH]; auto. cbn [omap map]. rewrite (wire_spec _ _ _ Hs Hi), IH. auto. Qed.
    Lemma k_val_spec cur ins k (c : F) : shape cur ins -> Forall (wire_ok ins) (k_ins k) -> k_val AL cur k c = Some (fmul (kindv lenv cur k) c).
    Proof.
      intros Hs H. destruct k as [a b|a| |t l]; cbn [k_ins k_val kindv] in *.
      - inversion H as [|? ? Ha H2]; subst. inversion H2 as [|? ? Hb _]; subst. rewrite (wire_spec _ _ _ Hs Ha), (wire_spec _ _ _ Hs Hb). auto.
      - inversion H as [|? ? Ha H2]; subst. rewrite (wire_spec _ _ _ Hs Ha). auto.
      - f_equal. change (c = fmul f1 c :> F). ring.
      - rewrite (omap_wire _ _ _ Hs H). auto.
    Qed.
    Lemma apply_gates_spec (s : Segment) gs : forall cur nxt k, shape cur (s_ins s) -> length nxt = s_outs s -> Forall (gate_inb s) gs -> Forall (fun g => coef_ok (g_coef g)) gs ->
      exists cs k', apply_gates AL gs cur nxt k = Some (addc nxt cs, k') /\ Forall2 (contrib lenv cur) gs cs.
    Proof.
      induction gs as [|g gs IH]; intros cur nxt k Hs Hn Hg Hc; cbn [apply_gates].
      - exists [], k. split; auto.
      - inversion Hg as [|? ? [G1 G2] Hg2]; subst. inversion Hc as [|? ? C1 Hc2]; subst. destruct (coef_spec k _ C1) as [v [k1 [E1 E2]]]. rewrite E1. cbn [obind fst snd].
        rewrite (k_val_spec _ _ _ _ Hs G1). cbn [obind]. unfold acc. destruct (nth_error_Some_ex nxt (g_out g)) as [x Hx]; [lia|]. cbn [al scalar_alg] in *. rewrite Hx. cbn [obind].
        destruct (IH cur (upd nxt (g_out g) (fadd x (fmul (kindv lenv cur (g_in g)) v))) k1) as [cs [k2 [A B]]]; auto; [rewrite upd_length; auto|].
        exists ((g_out g, fmul (kindv lenv cur (g_in g)) v) :: cs), k2. split.
        + cbn [al_add scalar_alg] in *. rewrite A. unfold addc. cbn [fold_left fst snd]. rewrite (nth_error_nth _ _ f0 Hx). auto.
        + constructor; auto. split; cbn; eauto.
    Qed.

    (* slices *)
    Lemma slice_spec (l : list F) off len : off + len <= length l -> slice AL l off len = Some (firstn len (skipn off l)).
    Proof. intros H. unfold slice. destruct (Nat.leb_spec (off + len) (@length (al AL) l)); auto. cbn in *. lia. Qed.
    Lemma nth_slice (l : list F) off len j d : j < len -> nth j (firstn len (skipn off l)) d = nth (off + j) l d.
    Proof.
      intros H. rewrite <- (firstn_skipn off l) at 2. destruct (Nat.le_gt_cases off (length l)) as [Ho|Ho].
      - rewrite app_nth2; rewrite firstn_length; [|lia]. replace (off + j - Nat.min off (length l)) with j by lia.
        rewrite <- (firstn_skipn len (skipn off l)) at 2. destruct (Nat.lt_ge_cases j (length (firstn len (skipn off l)))) as [Hj|Hj].
        + rewrite app_nth1; auto.
        + rewrite nth_overflow by auto. rewrite firstn_length in Hj. rewrite app_nth2 by (rewrite firstn_length; lia). rewrite nth_overflow; auto. rewrite !skipn_length, firstn_length. rewrite skipn_length in *. lia.
      - rewrite skipn_all2 by lia. rewrite firstn_nil. destruct j; cbn; rewrite nth_overflow; auto; rewrite app_length, firstn_length; cbn; lia.
    Qed.
    Lemma slices_spec cur : forall offs lens ins, shape cur ins -> length offs = length lens -> length lens <= length ins ->
      (forall l x y z, nth_error offs l = Some x -> nth_error lens l = Some y -> nth_error ins l = Some z -> x + y <= z) ->
      exists cs, slices AL cur offs lens = Some cs /\ shape cs lens /\
        forall i, wire_ok lens i -> wireF cs i = wireF cur (shift offs i).
    Proof.
      induction cur as [|l cur IH]; intros offs lens ins Hs Hl Hi H.
      - inversion Hs; subst. destruct lens; [|cbn in Hi; lia]. destruct offs; [|discriminate]. exists []. split; auto. split; [constructor|]. intros i [n [Hn _]]. destruct (il i); discriminate.
      - inversion Hs as [|? n ? ins' Hn Hs']; subst. destruct offs as [|x offs], lens as [|y lens]; try discriminate.
        + exists []. split; auto. split; [constructor|]. intros i [n [Hx _]]. destruct (il i); discriminate.
        + cbn [slices]. cbn in Hl, Hi. rewrite slice_spec by (apply (H 0); auto). cbn [obind].
          destruct (IH offs lens ins' Hs') as [cs [A [B C]]]; [lia|lia|intros k a b c Ha Hb Hc; apply (H (S k)); auto|]. rewrite A. cbn [obind].
          eexists. split; [reflexivity|]. split.
          * constructor; auto. rewrite firstn_length, skipn_length. specialize (H 0 x y (length l) eq_refl eq_refl eq_refl). lia.
          * intros i [n [Hn Hin]]. unfold wireF, shift. destruct i as [[|j] o]; cbn [il io nth] in *.
            -- injection Hn as <-. apply nth_slice. auto.
            -- apply (C (mkInp j o)). exists n. auto.
    Qed.
    Lemma addc_slice off (cs : list (nat * F)) : forall nxt len, off + len <= length nxt -> Forall (fun p => fst p < len) cs ->
      firstn off nxt ++ addc (firstn len (skipn off nxt)) cs ++ skipn (off + len) nxt = addc nxt (map (fun p => (off + fst p, snd p)) cs).
    Proof.
      intros nxt len Hl Hc. apply (nth_ext _ _ f0 f0).
      - rewrite !app_length, !addc_len, !firstn_length, !skipn_length. lia.
      - intros j Hj. rewrite !app_length, addc_len, !firstn_length, !skipn_length in Hj.
        assert (Hs : length (firstn len (skipn off nxt)) = len) by (rewrite firstn_length, skipn_length; lia).
        assert (Hf : length (firstn off nxt) = off) by (rewrite firstn_length; lia).
        rewrite addc_nth by lia.
        assert (Ha : at_out j (map (fun p => (off + fst p, snd p)) cs) = if off <=? j then at_out (j - off) cs else f0).
        { clear -Hc. induction Hc as [|p cs Hp Hc IH]; [destruct (off <=? j); auto|]. cbn [map]. rewrite !at_out_cons. cbn [fst snd]. rewrite IH.
          destruct (Nat.leb_spec off j).
          - destruct (Nat.eqb_spec (off + fst p) j), (Nat.eqb_spec (fst p) (j - off)); auto; lia.
          - destruct (Nat.eqb_spec (off + fst p) j); [lia|]. ring. }
        destruct (Nat.lt_ge_cases j off) as [H1|H1].
        + rewrite app_nth1 by lia. rewrite Ha. destruct (Nat.leb_spec off j); [lia|]. rewrite <- (firstn_skipn off nxt) at 2. rewrite app_nth1 by lia. ring.
        + rewrite app_nth2 by lia. rewrite Hf. rewrite Ha. destruct (Nat.leb_spec off j); [|lia]. destruct (Nat.lt_ge_cases j (off + len)) as [H2|H2].
          * rewrite app_nth1 by (rewrite addc_len; lia). rewrite addc_nth by lia. rewrite nth_slice by lia. replace (off + (j - off)) with j by lia. auto.
          * rewrite app_nth2 by (rewrite addc_len; lia). rewrite addc_len, Hs.
            assert (Hz : at_out (j - off) cs = f0). { clear -Hc H2. induction Hc as [|p cs Hp Hc IH]; auto. rewrite at_out_cons, IH. destruct (Nat.eqb_spec (fst p) (j - off)); [lia|]. ring. }
            rewrite Hz. rewrite <- (firstn_skipn (off + len) nxt) at 2. rewrite app_nth2 by (rewrite firstn_length; lia). rewrite firstn_length. replace (j - off - len) with (j - Nat.min (off + len) (length nxt)) by lia. ring.
    Qed.
    Lemma contrib_shift cs cur (sub : Segment) a g p : (forall i, wire_ok (s_ins sub) i -> wireF cs i = wireF cur (shift (a_in a) i)) -> gate_inb sub g ->
      contrib lenv cs g p -> contrib lenv cur (ushift a g) (a_out a + fst p, snd p).
    Proof.
      intros Hw [G1 _] [C1 [c [C2 C3]]]. split; cbn [ushift g_out g_in g_coef fst snd]; [congruence|]. exists c. split; auto. rewrite C3. f_equal.
      destruct (g_in g) as [x y|x| |t l]; cbn [k_map kindv k_ins] in *; auto.
      - inversion G1 as [|? ? A1 A2]; subst. inversion A2; subst. rewrite !Hw; auto.
      - inversion G1; subst. rewrite Hw; auto.
      - rewrite map_map. f_equal. apply map_ext_in. intros i Hi. apply Hw. rewrite Forall_forall in G1. auto.
    Qed.
    Lemma Forall2_Forall_l {A B} (R : A -> B -> Prop) (P : A -> Prop) (Q : B -> Prop) l l' : (forall a b, R a b -> P a -> Q b) -> Forall2 R l l' -> Forall P l -> Forall Q l'.
    Proof. intros H. induction 1; intros Hp; constructor; inversion Hp; subst; eauto. Qed.

    Theorem apply_segment_spec segs : wf_segs segs -> coefs_ok segs -> forall fuel id s (cur : list (list F)) (nxt : list F) k, nth_error segs id = Some s -> id < fuel ->
      shape cur (s_ins s) -> length nxt = s_outs s ->
      exists cs k', apply_segment AL fuel segs s cur nxt k = Some (addc nxt cs, k') /\ Forall2 (contrib lenv cur) (flat fuel segs id) cs.
    Proof.
      intros W Hc. induction fuel as [|fuel IH]; intros id s cur nxt k Hs Hid Hsh Hn; [lia|]. destruct (W id s Hs) as [_ [Wg Wc]].
      cbn [apply_segment flat]. rewrite Hs.
      destruct (apply_gates_spec s (seg_gates s) cur nxt k Hsh Hn Wg) as [cs1 [k1 [A1 A2]]]. { apply Forall_forall. intros g Hg. eapply Hc; eauto. }
      rewrite A1. cbn [obind fst snd].
      assert (Hal : forall cid sub, nth_error segs cid = Some sub -> cid < fuel -> length (s_ins sub) <= length (s_ins s) ->
        forall als, Forall (alloc_ok sub s) als -> forall (nx : list F) kx, length nx = s_outs s ->
        exists cs k', apply_allocs AL (apply_segment AL fuel segs) sub als cur nx kx = Some (addc nx cs, k') /\
          Forall2 (contrib lenv cur) (flat_map (fun a => map (ushift a) (flat fuel segs cid)) als) cs).
      { intros cid sub Hsub Hlt Hli. induction als as [|a als IHa]; intros Ha nx kx Hnx.
        - exists [], kx. split; [auto|constructor].
        - inversion Ha as [|? ? A0 Ha2]; subst. assert (A0' := A0). destruct A0' as [B1 [B2 B3]]. cbn [apply_allocs flat_map].
          destruct (slices_spec cur (a_in a) (s_ins sub) (s_ins s) Hsh B1 Hli B3) as [cu [S1 [S2 S3]]]. rewrite S1. cbn [obind].
          rewrite slice_spec by (cbn [al scalar_alg] in *; lia). cbn [obind].
          destruct (IH cid sub cu (@firstn F (s_outs sub) (@skipn F (a_out a) nx)) kx Hsub Hlt S2) as [cs [k' [D1 D2]]]; [rewrite firstn_length, skipn_length; lia|].
          match goal with |- context [apply_segment AL fuel segs sub cu ?z kx] => change z with (firstn (s_outs sub) (@skipn F (a_out a) nx)) end.
          rewrite D1. cbn [obind fst snd].
          match goal with |- context [apply_allocs AL _ sub als cur ?z k'] => change z with (@firstn F (a_out a) nx ++ addc (firstn (s_outs sub) (skipn (a_out a) nx)) cs ++ @skipn F (a_out a + s_outs sub) nx) end.
          pose proof (flat_inb segs W fuel cid sub Hsub) as Hfl.
          assert (Hrng : Forall (fun p : nat * F => fst p < s_outs sub) cs).
          { eapply (Forall2_Forall_l _ (gate_inb sub)); [|exact D2|exact Hfl]. intros g p [X _] [_ Y]. lia. }
          rewrite addc_slice; auto; [|lia].
          destruct (IHa Ha2 (addc nx (map (fun p => (a_out a + fst p, snd p)) cs)) k') as [cs2 [k2 [E1 E2]]]; [rewrite addc_len; auto|].
          exists (map (fun p => (a_out a + fst p, snd p)) cs ++ cs2), k2. split; [rewrite addc_app; exact E1|].
          apply Forall2_app; auto. clear -D2 Hfl S3. induction D2 as [|g p gs ps Hgp D2 IHd]; cbn [map]; constructor; inversion Hfl; subst; auto.
          eapply contrib_shift; eauto. }
      assert (Hch : forall chs, Forall (child_wf segs id s) chs -> forall (nx : list F) kx, length nx = s_outs s ->
        exists cs k', apply_children AL (apply_segment AL fuel segs) segs chs cur nx kx = Some (addc nx cs, k') /\
          Forall2 (contrib lenv cur) (flat_map (fun ch => flat_map (fun a => map (ushift a) (flat fuel segs (fst ch))) (snd ch)) chs) cs).
      { induction chs as [|ch chs IHc]; intros Hw nx kx Hnx.
        - exists [], kx. split; [auto|constructor].
        - inversion Hw as [|? ? [H1 [sub [H2 [H3 H4]]]] Hw2]; subst. cbn [apply_children flat_map]. rewrite H2. cbn [obind].
          destruct (Hal (fst ch) sub H2 ltac:(lia) H3 (snd ch) H4 nx kx Hnx) as [cs [k' [D1 D2]]]. rewrite D1. cbn [obind fst snd].
          destruct (IHc Hw2 (addc nx cs) k') as [cs2 [k2 [E1 E2]]]; [rewrite addc_len; auto|]. exists (cs ++ cs2), k2. split; [rewrite addc_app; auto|]. apply Forall2_app; auto. }
      destruct (Hch (s_children s) Wc (addc nxt cs1) k1) as [cs2 [k2 [B1 B2]]]; [rewrite addc_len; auto|].
      exists (cs1 ++ cs2), k2. split; [rewrite addc_app; auto|]. apply Forall2_app; auto.
    Qed.

    Lemma contrib_ext E c1 c2 (g : UG) p : (forall i, In i (k_ins (g_in g)) -> wireF c1 i = wireF c2 i :> F) -> contrib E c1 g p -> contrib E c2 g p.
    Proof.
      intros Hw [C1 [c [C2 C3]]]. split; auto. exists c. split; auto. rewrite C3. f_equal.
      destruct (g_in g) as [x y|x| |t l]; cbn [kindv k_ins] in *; auto.
      - rewrite !Hw; cbn; auto.
      - apply Hw; cbn; auto.
      - f_equal. apply map_ext_in. auto.
    Qed.
    Lemma addc_zero n (cs : list (nat * F)) : addc (repeat f0 n) cs = map (fun o => at_out o cs) (seq 0 n).
    Proof.
      apply (nth_ext _ _ f0 f0); [rewrite addc_len, repeat_length, map_length, seq_length; auto|]. intros j Hj. rewrite addc_len, repeat_length in Hj.
      rewrite addc_nth by (rewrite repeat_length; auto). rewrite nth_repeat. rewrite (nth_indep _ f0 (at_out 0 cs)) by (rewrite map_length, seq_length; auto).
      rewrite (map_nth (fun o => at_out o cs)), seq_nth by auto. cbn. ring.
    Qed.
    Lemma shape_firstn cur sizes ins : shape cur sizes -> length ins <= length sizes -> forallb (fun p => fst p =? snd p) (combine ins sizes) = true -> shape (firstn (length ins) cur) ins.
    Proof.
      intros H. revert ins. induction H as [|x n cur sizes Hx H IH]; intros [|m ins] Hl Hc; cbn in *; try lia; try constructor.
      - apply andb_true_iff in Hc. destruct Hc as [Hc _]. apply Nat.eqb_eq in Hc. lia.
      - apply andb_true_iff in Hc. destruct Hc as [_ Hc]. apply IH; auto. lia.
    Qed.
    Lemma eval_layers_spec (c : LCircuit) : wf_segs (l_segs c) -> coefs_ok (l_segs c) -> forall ids (cur : list (list F)) sizes k, shape cur sizes -> sizes_ok c ids sizes = true ->
      exists cur', eval_layers AL c ids cur k = Some cur' /\ layers_sem lenv (l_segs c) ids cur cur'.
    Proof.
      intros W Hc. induction ids as [|id ids IH]; intros cur sizes k Hs Ho; cbn [eval_layers sizes_ok] in *.
      - exists cur. split; auto. constructor.
      - unfold seg_of in *. destruct (nth_error (l_segs c) id) as [s|] eqn:Es; [|discriminate]. rewrite !andb_true_iff in Ho. destruct Ho as [[O1 O2] O3]. cbn [obind].
        apply Nat.leb_le in O1. assert (Hl : length cur = length sizes) by (eapply Forall2_len; exact Hs).
        destruct (Nat.leb_spec (length (s_ins s)) (@length (list (al AL)) cur)) as [Hle|]; [|cbn in *; lia].
        assert (Hid : id < S (length (l_segs c))) by (apply nth_error_Some_lt in Es; lia).
        destruct (apply_segment_spec (l_segs c) W Hc (S (length (l_segs c))) id s (firstn (length (s_ins s)) cur) (repeat f0 (s_outs s)) k Es Hid) as [cs [k' [A B]]].
        { eapply shape_firstn; eauto. } { apply repeat_length. }
        match goal with |- context [apply_segment AL _ _ s ?z ?y k] => change z with (@firstn (list F) (length (s_ins s)) cur); change y with (repeat (f0 : F) (s_outs s)) end.
        rewrite A. cbn [obind fst snd]. rewrite addc_zero.
        destruct (IH (map (fun o => at_out o cs) (seq 0 (s_outs s)) :: cur) (s_outs s :: sizes) k') as [cur' [C D]]; auto.
        { constructor; auto. rewrite map_length, seq_length. auto. }
        exists cur'. split; auto. econstructor; [|exact D]. exists s, cs. split; auto. split; auto.
        assert (Hid2 : id < length (l_segs c)) by (apply nth_error_Some_lt in Es; lia).
        rewrite (flat_fuel _ W id _ (S (length (l_segs c)))) by auto.
        pose proof (flat_inb _ W (S (length (l_segs c))) id s Es) as Hf. revert B Hf. generalize (flat (S (length (l_segs c))) (l_segs c) id). intros gs B Hf.
        assert (Hsh : length (firstn (length (s_ins s)) cur) = length (s_ins s)) by (rewrite firstn_length; lia).
        clear -B Hf Hsh. induction B as [|g p gs cs Hg B IHb]; constructor; inversion Hf as [|? ? [G1 _] ?]; subst; auto.
        eapply contrib_ext; [|exact Hg]. intros i Hi. rewrite Forall_forall in G1. destruct (G1 i Hi) as [n [Hn _]]. unfold wireF. f_equal.
        apply nth_error_Some_lt in Hn. rewrite <- (firstn_skipn (length (s_ins s)) cur) at 2. rewrite app_nth1; auto. lia.
    Qed.
    Lemma layers_sem_len E (segs : list Segment) ids cur cur' : layers_sem E segs ids cur cur' -> forall id s, ids <> [] -> last ids 0 = id -> nth_error segs id = Some s -> exists out, hd_error cur' = Some out /\ length out = s_outs s.
    Proof.
      induction 1 as [cur|id ids cur nxt cur' H1 H2 IH]; intros j s Hn Hl Hs; [congruence|]. destruct ids as [|j2 ids].
      - cbn in Hl. subst j. inversion H2; subst. destruct H1 as [s' [cs [A [_ ->]]]]. rewrite Hs in A. injection A as <-. cbn [hd_error]. eexists. split; [reflexivity|]. rewrite map_length, seq_length. auto.
      - apply (IH j s); auto. congruence.
    Qed.
    Definition last_size (c : LCircuit) : nat := match nth_error (l_segs c) (last (l_layers c) 0) with Some s => s_outs s | None => 0 end.
    Lemma eval_scalar_spec (c : LCircuit) ins : l_validate c = true -> coefs_ok (l_segs c) -> l_zeroes c <= l_actual c <= last_size c -> input_size c = Some (length ins) ->
      exists outs sat, eval_scalar pub gate rnd c ins = Some (outs, sat) /\ lrun lenv c ins outs sat /\ length outs = l_actual c - l_zeroes c.
    Proof.
      intros Hv Hc Hz Hi. pose proof (validate_wf_segs c Hv) as W. unfold l_validate in Hv. rewrite !andb_true_iff in Hv. destruct Hv as [[_ V2] V3].
      unfold eval_scalar, eval_layered. rewrite Hi. cbn [obind]. change (@length (al AL) ins) with (length ins). rewrite Nat.eqb_refl.
      assert (Hi' := Hi). unfold input_size in Hi'. destruct (l_layers c) as [|id ids] eqn:El; [discriminate|]. destruct (seg_of c id) as [s|] eqn:Es; [|discriminate]. cbn [obind] in Hi'.
      destruct (s_ins s) as [|n ns]; [discriminate|]. cbn in Hi'. injection Hi' as ->. apply andb_true_iff in V3. destruct V3 as [V3 _].
      destruct (eval_layers_spec c W Hc (id :: ids) [ins] [length ins] 0) as [cur [A B]]; auto. { repeat constructor. }
      match goal with |- context [eval_layers AL c ?l ?z 0] => change z with ([ins] : list (list F)) end.
      rewrite A. cbn [obind]. unfold last_size in Hz. rewrite El in Hz.
      assert (Hlast : last (id :: ids) 0 < length (l_segs c)).
      { rewrite forallb_forall in V2. apply Nat.ltb_lt. apply V2. clear. revert id. induction ids as [|x ids IH]; intros id; [left; auto|]. right. apply (IH x). }
      destruct (nth_error_Some_ex (l_segs c) _ Hlast) as [s2 Hs2]. rewrite Hs2 in Hz.
      destruct (layers_sem_len _ _ _ _ _ B _ s2 ltac:(discriminate) eq_refl Hs2) as [out [C D]].
      assert (C' : @hd_error (list (al AL)) cur = Some out) by exact C. rewrite C'. cbn [obind].
      destruct (Nat.leb_spec (l_zeroes c) (l_actual c)); [|lia]. destruct (Nat.leb_spec (l_actual c) (@length (al AL) out)) as [|Hgt]; [|cbn [al scalar_alg] in Hgt; lia]. cbn [andb obind fst snd].
      eexists _, _. split; [reflexivity|]. split.
      - exists cur, out. split; [auto|]. rewrite El. split; [auto|]. split; [auto|]. split; [lia|]. split; reflexivity.
      - rewrite firstn_length, skipn_length. cbn [al scalar_alg]. lia.
    Qed.
  End EvalSpec.

  (* with at most one random value, or no random coefficient, a circuit has one result *)
  Definition quietg (E : Env F) (g : UG) : Prop := (forall r r', e_rnd E r -> e_rnd E r' -> r = r') \/ g_coef g <> CRandom.
  Lemma contrib_det E cur g p q : quietg E g -> contrib E cur g p -> contrib E cur g q -> p = q.
  Proof.
    intros Hq [A1 [c [A2 A3]]] [B1 [d [B2 B3]]]. destruct p as [po pv], q as [qo qv]. cbn in *. f_equal; [congruence|]. rewrite A3, B3. f_equal.
    destruct (g_coef g) as [x| |i] eqn:Ec; cbn in *; try congruence. destruct Hq as [Hq|Hq]; [auto|congruence].
  Qed.
  Lemma flat_coefs (P : Coef F -> Prop) (segs : list Segment) : (forall id s g, nth_error segs id = Some s -> In g (seg_gates s) -> P (g_coef g)) -> forall f id g, In g (flat f segs id) -> P (g_coef g).
  Proof.
    intros H. induction f as [|f IH]; intros id g Hg; cbn [flat] in Hg; [destruct Hg|]. destruct (nth_error segs id) as [s|] eqn:Es; [|destruct Hg].
    apply in_app_or in Hg. destruct Hg as [Hg|Hg]; [eauto|]. apply in_flat_map in Hg. destruct Hg as [ch [_ Hg]]. apply in_flat_map in Hg. destruct Hg as [a [_ Hg]].
    apply in_map_iff in Hg. destruct Hg as [g0 [<- Hg]]. cbn. eauto.
  Qed.
  Lemma layers_sem_det E (segs : list Segment) ids cur c1 c2 : (forall f id g, In g (flat f segs id) -> quietg E g) -> layers_sem E segs ids cur c1 -> layers_sem E segs ids cur c2 -> c1 = c2.
  Proof.
    intros Hq H. revert c2. induction H as [cur|id ids cur nxt cur' H1 H2 IH]; intros c2 G; inversion G as [|? ? ? nxt2 ? G1 G2]; subst; auto.
    assert (nxt = nxt2); [|subst; auto]. destruct H1 as [s [cs [A [B ->]]]], G1 as [s2 [cs2 [A2 [B2 ->]]]]. rewrite A in A2. injection A2 as <-.
    assert (cs = cs2); [|subst; auto]. assert (Hq2 : Forall (quietg E) (flat (length segs) segs id)) by (apply Forall_forall; eauto).
    revert B B2 Hq2. generalize (flat (length segs) segs id). clear. intros gs H. revert cs2. induction H as [|g p gs ps Hg H IH]; intros cs2 H2 Hq; inversion H2; subst; auto. inversion Hq; subst.
    f_equal; [eapply contrib_det; eauto|auto].
  Qed.
  Lemma lrun_det E (c : LCircuit) ins o1 s1 o2 s2 : (forall f id g, In g (flat f (l_segs c) id) -> quietg E g) -> lrun E c ins o1 s1 -> lrun E c ins o2 s2 -> o1 = o2 /\ s1 = s2.
  Proof.
    intros Hq [cur [out [A [B [C [D [-> ->]]]]]]] [cur2 [out2 [A2 [B2 [C2 [D2 [-> ->]]]]]]]. pose proof (layers_sem_det _ _ _ _ _ _ Hq B B2) as <-. rewrite C in C2. injection C2 as <-. auto.
  Qed.

  (* ------------------------------------------------------------ related evaluations *)
  Section Param.
    Variable A B : Alg F.
    Variable R : al A -> al B -> Prop.
    Hypothesis R0 : R (al0 A) (al0 B).
    Hypothesis Radd : forall x y x' y', R x x' -> R y y' -> R (al_add A x y) (al_add B x' y').
    Hypothesis Rmul : forall x y x' y', R x x' -> R y y' -> R (al_mul A x y) (al_mul B x' y').
    Hypothesis Rgate : forall t l l', Forall2 R l l' -> R (al_gate A t l) (al_gate B t l').
    Definition orel {X Y} (Q : X -> Y -> Prop) (a : option X) (b : option Y) : Prop := match a, b with Some x, Some y => Q x y | None, None => True | _, _ => False end.
    Hypothesis Rcoef : forall k c, orel (fun p q => R (fst p) (fst q) /\ snd p = snd q) (al_coef A k c) (al_coef B k c).

    Lemma orel_bind {X Y X' Y'} (P : X -> Y -> Prop) (Q : X' -> Y' -> Prop) a b f g : orel P a b -> (forall x y, P x y -> orel Q (f x) (g y)) -> orel Q (obind a f) (obind b g).
    Proof. destruct a, b; cbn; intros H K; try contradiction; auto. Qed.
    Lemma orel_nth {X Y} (P : X -> Y -> Prop) l l' : Forall2 P l l' -> forall i, orel P (nth_error l i) (nth_error l' i).
    Proof. induction 1; intros [|i]; cbn; auto. Qed.
    Notation RC := (Forall2 (Forall2 R)).
    Notation RK := (fun p q => Forall2 R (fst p) (fst q) /\ snd p = snd q).
    Lemma wire_rel cur cur' i : RC cur cur' -> orel R (wire A cur i) (wire B cur' i).
    Proof. intros H. eapply orel_bind; [apply (orel_nth _ _ _ H)|]. intros x y Hxy. apply orel_nth. auto. Qed.
    Lemma wires_rel cur cur' l : RC cur cur' -> orel (Forall2 R) (omap (wire A cur) l) (omap (wire B cur') l).
    Proof.
      intros H. induction l as [|i l IH]; cbn [omap]; [cbn; auto|]. pose proof (wire_rel cur cur' i H) as Hw. destruct (wire A cur i), (wire B cur' i); cbn in Hw; try contradiction; cbn; auto.
      destruct (omap (wire A cur) l), (omap (wire B cur') l); cbn in *; auto.
    Qed.
    Lemma k_val_rel cur cur' k c c' : RC cur cur' -> R c c' -> orel R (k_val A cur k c) (k_val B cur' k c').
    Proof.
      intros H Hc. destruct k as [a b|a| |t l]; cbn [k_val].
      - eapply orel_bind; [apply wire_rel; eauto|]. intros x x' Hx. eapply orel_bind; [apply wire_rel; eauto|]. intros y y' Hy. cbn. auto.
      - eapply orel_bind; [apply wire_rel; eauto|]. intros x x' Hx. cbn. auto.
      - cbn. auto.
      - eapply orel_bind; [apply wires_rel; eauto|]. intros x x' Hx. cbn. auto.
    Qed.
    Lemma F2_upd l l' i x x' : Forall2 R l l' -> R x x' -> Forall2 R (upd l i x) (upd l' i x').
    Proof. intros H Hx. revert i. induction H; intros [|i]; cbn; auto. Qed.
    Lemma F2_skipn {X Y} (P : X -> Y -> Prop) l l' n : Forall2 P l l' -> Forall2 P (skipn n l) (skipn n l').
    Proof. intros H. revert n. induction H; intros [|n]; cbn; auto. Qed.
    Lemma F2_firstn {X Y} (P : X -> Y -> Prop) l l' n : Forall2 P l l' -> Forall2 P (firstn n l) (firstn n l').
    Proof. intros H. revert n. induction H; intros [|n]; cbn; auto. Qed.
    Lemma acc_rel nxt nxt' o v v' : Forall2 R nxt nxt' -> R v v' -> orel (Forall2 R) (acc A nxt o v) (acc B nxt' o v').
    Proof. intros H Hv. eapply orel_bind; [apply orel_nth; eauto|]. intros x x' Hx. cbn. apply F2_upd; auto. Qed.
    Lemma apply_gates_rel cur cur' gs : RC cur cur' -> forall nxt nxt' k, Forall2 R nxt nxt' -> orel RK (apply_gates A gs cur nxt k) (apply_gates B gs cur' nxt' k).
    Proof.
      intros H. induction gs as [|g gs IH]; intros nxt nxt' k Hn; cbn [apply_gates]; [cbn; auto|].
      eapply orel_bind; [apply Rcoef|]. intros [x k1] [y k2] [Hx Hk]. cbn [fst snd] in *. subst k2. eapply orel_bind; [apply k_val_rel; eauto|]. intros v v' Hv.
      eapply orel_bind; [apply acc_rel; eauto|]. intros n n' Hnn. auto.
    Qed.
    Lemma slice_rel l l' off len : Forall2 R l l' -> orel (Forall2 R) (slice A l off len) (slice B l' off len).
    Proof. intros H. unfold slice. rewrite (Forall2_len _ _ _ H). destruct (_ <=? _); cbn; auto. apply F2_firstn, F2_skipn; auto. Qed.
    Lemma slices_rel : forall cur cur', RC cur cur' -> forall offs lens, orel RC (slices A cur offs lens) (slices B cur' offs lens).
    Proof.
      induction 1 as [|l l' cur cur' Hl H IH]; intros [|o offs] [|n lens]; cbn [slices]; try (cbn; auto; fail).
      eapply orel_bind; [apply slice_rel; eauto|]. intros x y Hx. eapply orel_bind; [apply IH|]. intros r r' Hr. cbn. auto.
    Qed.
    Lemma apply_segment_rel segs : forall fuel s cur cur' nxt nxt' k, RC cur cur' -> Forall2 R nxt nxt' -> orel RK (apply_segment A fuel segs s cur nxt k) (apply_segment B fuel segs s cur' nxt' k).
    Proof.
      induction fuel as [|fuel IH]; intros s cur cur' nxt nxt' k Hc Hn; cbn [apply_segment]; [cbn; auto|].
      eapply orel_bind; [apply apply_gates_rel; eauto|]. intros [n1 k1] [n2 k2] [Hn2 Hk]. cbn [fst snd] in *. subst k2. clear Hn nxt nxt' k.
      assert (Hal : forall sub als n1 n2 k, Forall2 R n1 n2 -> orel RK (apply_allocs A (apply_segment A fuel segs) sub als cur n1 k) (apply_allocs B (apply_segment B fuel segs) sub als cur' n2 k)).
      { intros sub. induction als as [|a als IHa]; intros m1 m2 k Hm; cbn [apply_allocs]; [cbn; auto|]. eapply orel_bind; [apply slices_rel; eauto|]. intros ci ci' Hci.
        eapply orel_bind; [apply slice_rel; eauto|]. intros co co' Hco. eapply orel_bind; [apply IH; eauto|]. intros [r kr] [r' kr'] [Hr Hk]. cbn [fst snd] in *. subst kr'. apply IHa.
        apply Forall2_app; [apply F2_firstn; auto|]. apply Forall2_app; auto. apply F2_skipn; auto. }
      revert n1 n2 k1 Hn2. generalize (s_children s). induction l as [|ch l IHl]; intros n1 n2 k Hn; cbn [apply_children]; [cbn; auto|].
      destruct (nth_error segs (fst ch)) as [sub|]; cbn; auto. eapply orel_bind; [apply Hal; eauto|]. intros [r kr] [r' kr'] [Hr Hk]. cbn [fst snd] in *. subst. auto.
    Qed.
    Lemma eval_layers_rel c : forall ids cur cur' k, RC cur cur' -> orel RC (eval_layers A c ids cur k) (eval_layers B c ids cur' k).
    Proof.
      induction ids as [|id ids IH]; intros cur cur' k H; cbn [eval_layers]; [cbn; auto|]. destruct (seg_of c id) as [s|]; cbn [obind]; [|cbn; auto].
      rewrite (Forall2_len _ _ _ H). destruct (_ <=? _); [|cbn; auto]. eapply orel_bind; [apply apply_segment_rel; [apply F2_firstn; eauto|]|].
      - generalize (s_outs s). induction n; cbn; auto.
      - intros [r kr] [r' kr'] [Hr Hk]. cbn [fst snd] in *. subst. apply IH. auto.
    Qed.
    Lemma eval_layered_rel c ins ins' : Forall2 R ins ins' -> orel (fun p q => Forall2 R (fst p) (fst q) /\ Forall2 R (snd p) (snd q)) (eval_layered A c ins) (eval_layered B c ins').
    Proof.
      intros H. unfold eval_layered. destruct (input_size c); cbn [obind]; [|cbn; auto]. rewrite (Forall2_len _ _ _ H). destruct (_ =? _); [|cbn; auto].
      eapply orel_bind; [apply eval_layers_rel; repeat constructor; eauto|]. intros cur cur' Hc. eapply (orel_bind (Forall2 R)). { destruct Hc; cbn; auto. }
      intros o o' Ho. rewrite (Forall2_len _ _ _ Ho). destruct (_ && _); cbn; auto. split; [apply F2_firstn; auto|apply F2_firstn, F2_skipn; auto].
    Qed.
  End Param.

  (* layered/mod.rs:831-935: every lane of the SIMD evaluation is the scalar evaluation of that lane *)
  Definition full (P : nat) (v : list F) : Prop := length v = P.
  Definition laneof (j : nat) (v : list F) : F := nth j v f0.
  Lemma zipw_lane f a b P j : full P a -> full P b -> j < P -> full P (zipw f a b) /\ laneof j (zipw f a b) = f (laneof j a) (laneof j b).
  Proof.
    unfold full, zipw, laneof. intros <- Hb Hj. split; [rewrite map_length, combine_length; lia|]. rewrite (nth_indep _ f0 (f f0 f0)) by (rewrite map_length, combine_length; lia).
    change (f f0 f0) with ((fun p : F * F => f (fst p) (snd p)) (f0, f0)). rewrite map_nth, combine_nth; auto.
  Qed.
  Theorem eval_simd_lanes P pub gate rnd (c : LCircuit) ins j : j < P -> Forall (full P) ins -> (forall i v, pub i = Some v -> full P v) -> (forall k, full P (rnd k)) ->
    match eval_simd P pub gate rnd c ins with
    | Some (outs, sat) => eval_scalar (fun i => option_map (laneof j) (pub i)) gate (fun k => laneof j (rnd k)) c (map (laneof j) ins) = Some (map (laneof j) outs, nth j sat false) /\
        length sat = P /\ Forall (full P) outs
    | None => eval_scalar (fun i => option_map (laneof j) (pub i)) gate (fun k => laneof j (rnd k)) c (map (laneof j) ins) = None
    end.
  Proof.
    intros Hj Hi Hp Hr. unfold eval_simd, eval_scalar.
    pose proof (eval_layered_rel (simd_alg P pub gate rnd) (scalar_alg (fun i => option_map (laneof j) (pub i)) gate (fun k => laneof j (rnd k))) (fun v x => full P v /\ laneof j v = x)) as H.
    assert (Hrep : forall x : F, full P (repeat x P) /\ laneof j (repeat x P) = x).
    { intros x. split; [apply repeat_length|]. unfold laneof. destruct (nth_in_or_default j (repeat x P) f0) as [Hin|He]; [apply repeat_spec in Hin; auto|].
      apply (nth_error_nth (repeat x P) j f0). apply nth_error_repeat. auto. }
    specialize (H (Hrep f0)).
    assert (H' : orel (fun p q => Forall2 (fun v x => full P v /\ laneof j v = x) (fst p) (fst q) /\ Forall2 (fun v x => full P v /\ laneof j v = x) (snd p) (snd q))
      (eval_layered (simd_alg P pub gate rnd) c ins) (eval_layered (scalar_alg (fun i => option_map (laneof j) (pub i)) gate (fun k => laneof j (rnd k))) c (map (laneof j) ins))).
    { apply H.
      - intros x y x' y' [X1 X2] [Y1 Y2]. destruct (zipw_lane fadd x y P j X1 Y1 Hj) as [A B]. split; auto. cbn. rewrite <- X2, <- Y2. auto.
      - intros x y x' y' [X1 X2] [Y1 Y2]. destruct (zipw_lane fmul x y P j X1 Y1 Hj) as [A B]. split; auto. cbn. rewrite <- X2, <- Y2. auto.
      - intros t l l' Hl. cbn [al_gate simd_alg scalar_alg]. split; [unfold full; rewrite map_length, seq_length; auto|]. unfold laneof.
        rewrite (nth_indep _ f0 (gate t (map (fun v => nth 0 v f0) l))) by (rewrite map_length, seq_length; auto).
        rewrite (map_nth (fun j => gate t (map (fun v => nth j v f0) l))), seq_nth by auto. cbn [Nat.add]. f_equal. induction Hl as [|v x l l' [_ <-] Hl IH]; auto. cbn [map]. rewrite IH. auto.
      - intros k [x| |i]; cbn; [split; [apply Hrep|auto]|auto|]. destruct (pub i) as [v|] eqn:E; cbn; auto. split; auto. split; auto. eapply Hp; eauto.
      - induction Hi; cbn; constructor; auto. }
    clear H. destruct (eval_layered (simd_alg P pub gate rnd) c ins) as [[z o]|], (eval_layered (scalar_alg _ _ _) c (map (laneof j) ins)) as [[z' o']|]; cbn [orel] in H'; try contradiction; cbn [obind fst snd]; auto.
    cbn [fst snd] in H'. destruct H' as [Hz Ho].
    assert (G : forall l l', Forall2 (fun v x => full P v /\ laneof j v = x) l l' -> l' = map (laneof j) l /\ Forall (full P) l).
    { induction 1 as [|v x l l' [A B] _ [IH1 IH2]]; split; auto; cbn; congruence. }
    destruct (G _ _ Hz) as [-> Fz]. destruct (G _ _ Ho) as [-> Fo]. split; [|split; auto; rewrite map_length, seq_length; auto].
    f_equal. f_equal. rewrite (nth_indep _ false ((fun j => forallb (fun v => is0 F (nth j v f0)) z) 0)) by (rewrite map_length, seq_length; auto).
    rewrite (map_nth (fun j => forallb (fun v => is0 F (nth j v f0)) z)), seq_nth by auto. cbn [Nat.add]. clear. induction z as [|v z IH]; auto. cbn [map forallb]. rewrite IH. auto.
  Qed.

  (* x & (x - 1) == 0 *)
  Lemma pow2b_spec x : pow2b x = true -> exists k, x = 2 ^ k.
  Proof.
    induction x as [x IH] using lt_wf_ind. unfold pow2b. rewrite andb_true_iff, negb_true_iff, Nat.eqb_neq, Nat.eqb_eq. intros [Hx Hl].
    destruct (Nat.Even_or_Odd x) as [[y ->]|[y ->]].
    - assert (Hy : y <> 0) by lia. destruct (IH y) as [k ->]; [lia| |exists (S k); cbn; lia].
      unfold pow2b. rewrite andb_true_iff, negb_true_iff, Nat.eqb_neq, Nat.eqb_eq. split; auto.
      apply Nat.bits_inj. intros n. rewrite Nat.bits_0. rewrite Nat.land_spec. assert (Hb : Nat.testbit (Nat.land (2 * y) (2 * y - 1)) (S n) = false) by (rewrite Hl; apply Nat.bits_0).
      rewrite Nat.land_spec in Hb. rewrite Nat.testbit_even_succ in Hb by lia. replace (2 * y - 1) with (2 * (y - 1) + 1) in Hb by lia. rewrite Nat.testbit_odd_succ in Hb by lia. auto.
    - destruct y as [|y]; [exists 0; auto|]. exfalso. assert (Hy : exists n, Nat.testbit (S y) n = true).
      { exists (Nat.log2 (S y)). apply Nat.bit_log2. lia. } destruct Hy as [n Hn].
      assert (Hb : Nat.testbit (Nat.land (2 * S y + 1) (2 * S y + 1 - 1)) (S n) = false) by (rewrite Hl; apply Nat.bits_0).
      rewrite Nat.land_spec, Nat.testbit_odd_succ in Hb by lia. replace (2 * S y + 1 - 1) with (2 * S y) in Hb by lia. rewrite Nat.testbit_even_succ, Hn in Hb by lia. discriminate.
  Qed.

  (* ------------------------------------------------------------ masks *)
  Lemma in_mask_complete segs : wf_segs segs -> forall fuel id s g w, nth_error segs id = Some s -> In g (flat fuel segs id) -> In w (k_ins (g_in g)) -> in_mask fuel segs id w = true.
  Proof.
    intros W. induction fuel as [|fuel IH]; intros id s g w Hs Hg Hw; cbn [flat in_mask] in *; [destruct Hg|]. rewrite Hs in *. destruct (W id s Hs) as [_ [_ Wc]]. apply orb_true_iff.
    apply in_app_or in Hg. destruct Hg as [Hg|Hg].
    - left. apply existsb_exists. exists g. split; auto. apply existsb_exists. exists w. split; auto. rewrite !Nat.eqb_refl. auto.
    - right. apply in_flat_map in Hg. destruct Hg as [ch [Hch Hg]]. apply in_flat_map in Hg. destruct Hg as [a [Ha Hg]]. apply in_map_iff in Hg. destruct Hg as [g0 [<- Hg]].
      apply existsb_exists. exists ch. split; auto. rewrite Forall_forall in Wc. destruct (Wc ch Hch) as [_ [sub [Hsub [Hl Hal]]]]. rewrite Hsub. apply existsb_exists. exists a. split; auto.
      cbn [ushift g_in] in Hw. rewrite k_ins_map in Hw. apply in_map_iff in Hw. destruct Hw as [w0 [<- Hw]]. cbn [shift il io].
      pose proof (flat_inb segs W fuel _ _ Hsub) as Hf. rewrite Forall_forall in Hf. destruct (Hf g0 Hg) as [G1 _]. rewrite Forall_forall in G1. destruct (G1 w0 Hw) as [n [Hn Hi]].
      rewrite Forall_forall in Hal. destruct (Hal a Ha) as [B1 _]. assert (Hlt : il w0 < length (s_ins sub)) by (eapply nth_error_Some_lt; eauto).
      destruct (nth_error_Some_ex (a_in a) (il w0)) as [x Hx]; [lia|]. rewrite Hx, Hn. rewrite (nth_error_nth _ _ 0 Hx).
      replace (x + io w0 - x) with (io w0) by lia. destruct w0 as [wl wo]. cbn [il io] in *. rewrite (IH (fst ch) sub g0 (mkInp wl wo) Hsub Hg Hw).
      destruct (Nat.leb_spec x (x + wo)); [|lia]. destruct (Nat.ltb_spec (x + wo) (x + n)); [auto|lia].
  Qed.
  Lemma out_mask_sound (segs : list Segment) : forall fuel id o, out_mask fuel segs id o = true -> exists g, In g (flat fuel segs id) /\ g_out g = o.
  Proof.
    induction fuel as [|fuel IH]; intros id o H; cbn [flat out_mask] in *; [discriminate|]. destruct (nth_error segs id) as [s|]; [|discriminate].
    apply orb_true_iff in H. destruct H as [H|H]; apply existsb_exists in H.
    - destruct H as [g [Hg H]]. apply Nat.eqb_eq in H. exists g. split; auto. apply in_or_app; auto.
    - destruct H as [ch [Hch H]]. destruct (nth_error segs (fst ch)) as [sub|]; [|discriminate]. apply existsb_exists in H. destruct H as [a [Ha H]]. rewrite !andb_true_iff in H. destruct H as [[H1 _] H2].
      apply Nat.leb_le in H1. destruct (IH _ _ H2) as [g [Hg Hgo]]. exists (ushift a g). split; [|cbn; lia]. apply in_or_app. right. apply in_flat_map. exists ch. split; auto. apply in_flat_map. exists a. split; auto. apply in_map; auto.
  Qed.
  Lemma masks_ok_spec (c : LCircuit) : wf_segs (l_segs c) -> forall ids done, masks_ok c ids done = true -> forall before id after, ids = before ++ id :: after ->
    forall g w, In g (flat (length (l_segs c)) (l_segs c) id) -> In w (k_ins (g_in g)) ->
      match nth_error (rev before ++ done) (il w) with None => True | Some src => exists g', In g' (flat (length (l_segs c)) (l_segs c) src) /\ g_out g' = io w end.
  Proof.
    intros W. induction ids as [|x ids IH]; intros done H before id after He g w Hg Hw; [destruct before; discriminate|]. cbn [masks_ok] in H. unfold seg_of in H.
    destruct (nth_error (l_segs c) x) as [s|] eqn:Es; [|discriminate]. apply andb_true_iff in H. destruct H as [H1 H2]. destruct before as [|y before]; cbn [app rev] in *; injection He as -> ->.
    - destruct (nth_error done (il w)) as [src|] eqn:Ed; auto.
      pose proof (flat_inb _ W (length (l_segs c)) id s Es) as Hf. rewrite Forall_forall in Hf. destruct (Hf g Hg) as [G1 _]. rewrite Forall_forall in G1. destruct (G1 w Hw) as [n [Hn Hi]].
      rewrite forallb_forall in H1. assert (Hin : In (il w, n) (combine (seq 0 (length (s_ins s))) (s_ins s))).
      { assert (Hlt : il w < length (s_ins s)) by (eapply nth_error_Some_lt; eauto). replace (il w, n) with (nth (il w) (combine (seq 0 (length (s_ins s))) (s_ins s)) (0, 0)).
        - apply nth_In. rewrite combine_length, seq_length. lia.
        - rewrite combine_nth by apply seq_length. rewrite seq_nth by auto. rewrite (nth_error_nth _ _ 0 Hn). auto. }
      specialize (H1 _ Hin). cbn beta iota in H1. rewrite Ed in H1. rewrite forallb_forall in H1. specialize (H1 (io w)). rewrite in_seq in H1. specialize (H1 ltac:(lia)).
      apply orb_true_iff in H1. destruct H1 as [H1|H1].
      + apply negb_true_iff in H1. destruct w as [wl wo]. cbn [il io] in *. rewrite (in_mask_complete _ W _ _ _ _ _ Es Hg Hw) in H1. discriminate.
      + apply out_mask_sound in H1. auto.
    - rewrite <- app_assoc. cbn [app]. eapply (IH (y :: done) H2 before id after eq_refl); eauto.
  Qed.
End LF.
