(* Layouts: what querying a layout gives, and that the layouts that are computed never put two things in one slot. *)
From Verif Require Import Prelude Field Zp Sorting Expr Topo Ir IrInst InputMapping Layered SolveDuplicates LayeredFacts LayeredOpt LayeredOptFacts LayeredExpand LayeredCommon IrFacts Sim Layering LaySem LaySched LayInst.
Open Scope nat_scope.

Lemma index_of_some x l v : index_of x l = Some v -> nth_error l v = Some x.
Proof.
  revert v. induction l as [|y l IH]; intros v H; [discriminate|]. cbn in H. destruct (Nat.eqb_spec y x) as [->|Hn]; [apply Some_inj in H; subst; auto|].
  destruct (index_of x l) as [v'|]; [|discriminate]. cbn in H. apply Some_inj in H. subst. cbn. auto.
Qed.
Lemma index_of_in x l : In x l -> exists v, index_of x l = Some v.
Proof.
  induction l as [|y l IH]; intros []; cbn; [subst; rewrite Nat.eqb_refl; eauto|]. destruct (y =? x); eauto. destruct IH as [v ->]; auto. cbn. eauto.
Qed.
Lemma in_combine_seq {A} (l : list A) b i x : In (i, x) (combine (seq b (length l)) l) <-> b <= i /\ nth_error l (i - b) = Some x.
Proof.
  revert b. induction l as [|y l IH]; intros b; cbn [length seq combine].
  - split; [intros []|]. intros [_ H]. destruct (i - b); discriminate.
  - cbn [In]. rewrite IH. split.
    + intros [H|[H1 H2]]; [injection H as <- <-; rewrite Nat.sub_diag; auto|]. split; [lia|]. replace (i - b) with (S (i - S b)) by lia. auto.
    + intros [H1 H2]. destruct (Nat.eq_dec i b) as [->|Hne]; [rewrite Nat.sub_diag in H2; cbn in H2; left; congruence|]. right. split; [lia|]. replace (i - b) with (S (i - S b)) in H2 by lia. auto.
Qed.
Lemma dense_slots c l p o v : In (o, v) (layout_slots (LDense c l p)) <-> nth_error p o = Some (Some v).
Proof.
  cbn [layout_slots]. rewrite in_flat_map. split.
  - intros [[i q] [Hi Hq]]. apply in_combine_seq in Hi. cbn [fst snd] in Hq. destruct q as [v'|]; [|destruct Hq]. destruct Hq as [Hq|[]]. injection Hq as <- <-. rewrite Nat.sub_0_r in Hi. tauto.
  - intros H. exists (o, Some v). split; [apply in_combine_seq; rewrite Nat.sub_0_r; split; [lia|auto]|]. left; auto.
Qed.
Lemma omap_in {A B} (f : A -> option B) l r y : omap f l = Some r -> (In y r <-> exists x, In x l /\ f x = Some y).
Proof.
  revert r. induction l as [|x l IH]; intros r H; cbn [omap] in H.
  - apply Some_inj in H. subst. split; [intros []|intros [x [[] _]]].
  - destruct (f x) as [y0|] eqn:E1; [|discriminate]. cbn [obind] in H. destruct (omap f l) as [r'|] eqn:E2; [|discriminate]. cbn [obind] in H. apply Some_inj in H. subst r. cbn [In]. rewrite (IH r' eq_refl). split.
    + intros [<-|[x' [H1 H2]]]; eauto.
    + intros [x' [[<-|H1] H2]]; [left; congruence|right; eauto].
Qed.
Lemma query_in L vs lq x o : layout_query L vs = Some lq -> (In (x, o) lq <-> exists v, In (o, v) (layout_slots L) /\ nth_error vs v = Some x).
Proof.
  unfold layout_query. destruct (omap _ _) as [l|] eqn:E; [|discriminate]. cbn [obind]. destruct (guard _); [|discriminate]. cbn [obind]. intros H. apply Some_inj in H. subst l.
  rewrite (omap_in _ _ _ (x, o) E). split.
  - intros [[o' v] [H1 H2]]. cbn [fst snd] in H2. destruct (nth_error vs v) as [x'|] eqn:Ev; [|discriminate]. cbn [obind] in H2. apply Some_inj in H2. injection H2 as -> ->. eauto.
  - intros [v [H1 H2]]. exists (o, v). split; auto. cbn [fst snd]. rewrite H2. auto.
Qed.
Lemma query_nodup L vs lq : layout_query L vs = Some lq -> NoDup (keys lq).
Proof.
  unfold layout_query. destruct (omap _ _) as [l|] eqn:E; [|discriminate]. cbn [obind]. unfold guard. destruct (nodupb (map fst l)) eqn:En; [|discriminate]. cbn [obind]. intros H. apply Some_inj in H. subst l. apply nodupb_iff. auto.
Qed.
Lemma query_lookup L vs lq x o : layout_query L vs = Some lq -> (lookup x lq = Some o <-> exists v, In (o, v) (layout_slots L) /\ nth_error vs v = Some x).
Proof.
  intros H. rewrite <- (query_in _ _ _ _ _ H). split; [apply lookup_In|]. apply In_lookup. eapply query_nodup; eauto.
Qed.

(* ------------------------------------------------------------ what a call sees *)
Definition writes (off : nat) (l : list (option nat * nat)) (pl : list (option nat)) : option (list (option nat)) :=
  ofold (fun pl p => match p with (Some p, f) => let* _ := guard (off <=? p) in vset pl (p - off) (Some f) | (None, _) => Some pl end) l pl.
Lemma writes_in off : forall l pl pl', writes off l pl = Some pl' -> forall s f, nth_error pl' s = Some (Some f) -> nth_error pl s = Some (Some f) \/ In (Some (off + s), f) l.
Proof.
  induction l as [|[o f] l IH]; intros pl pl' H s g Hs; cbn [writes ofold] in H; [apply Some_inj in H; subst; auto|]. destruct o as [p|].
  - unfold guard in H. destruct (Nat.leb_spec off p) as [Hle|]; [|discriminate]. cbn [obind] in H. unfold vset in H. destruct (Nat.ltb_spec (p - off) (length pl)) as [Hlt|]; [|discriminate]. cbn [obind] in H.
    destruct (IH _ _ H s g Hs) as [H1|H1]; [|right; right; auto]. destruct (Nat.eq_dec s (p - off)) as [->|Hne].
    + rewrite nth_error_upd_eq in H1 by auto. apply Some_inj, Some_inj in H1. subst g. right. left. f_equal. f_equal. lia.
    + rewrite nth_error_upd_ne in H1 by auto. auto.
  - cbn [obind] in H. destruct (IH _ _ H s g Hs) as [H1|H1]; auto. right. right. auto.
Qed.
Lemma writes_keep off : forall l pl pl', writes off l pl = Some pl' -> forall s f, nth_error pl s = Some (Some f) -> (forall g, ~ In (Some (off + s), g) l) -> nth_error pl' s = Some (Some f).
Proof.
  induction l as [|[o f] l IH]; intros pl pl' H s g Hs Hn; cbn [writes ofold] in H; [apply Some_inj in H; subst; auto|]. destruct o as [p|].
  - unfold guard in H. destruct (Nat.leb_spec off p) as [Hle|]; [|discriminate]. cbn [obind] in H. unfold vset in H. destruct (Nat.ltb_spec (p - off) (length pl)) as [Hlt|]; [|discriminate]. cbn [obind] in H.
    eapply IH; [exact H| |intros h Hh; apply (Hn h); right; auto]. rewrite nth_error_upd_ne; auto. intros Hc. apply (Hn f). left. f_equal. f_equal. lia.
  - cbn [obind] in H. eapply IH; eauto. intros h Hh. apply (Hn h). right. auto.
Qed.
Lemma writes_out off : forall l pl pl', writes off l pl = Some pl' ->
  (forall a b p f g, nth_error l a = Some (Some p, f) -> nth_error l b = Some (Some p, g) -> a = b) ->
  forall p f, In (Some p, f) l -> off <= p /\ nth_error pl' (p - off) = Some (Some f).
Proof.
  induction l as [|[o f] l IH]; intros pl pl' H Hd q g Hin; [destruct Hin|]. cbn [writes ofold] in H.
  assert (Hd' : forall a b p f g, nth_error l a = Some (Some p, f) -> nth_error l b = Some (Some p, g) -> a = b) by (intros a b p f' g' Ha Hb; specialize (Hd (S a) (S b) p f' g' Ha Hb); lia).
  destruct Hin as [Hin|Hin].
  - injection Hin as -> ->. unfold guard in H. destruct (Nat.leb_spec off q) as [Hle|]; [|discriminate]. cbn [obind] in H. unfold vset in H. destruct (Nat.ltb_spec (q - off) (length pl)) as [Hlt|]; [|discriminate]. cbn [obind] in H.
    split; auto. eapply writes_keep; [exact H|apply nth_error_upd_eq; auto|]. intros h Hh. replace (off + (q - off)) with q in Hh by lia. apply In_nth_error in Hh. destruct Hh as [t Ht].
    specialize (Hd 0 (S t) q g h eq_refl Ht). discriminate.
  - destruct o as [p|]; [|cbn [obind] in H; eauto]. unfold guard in H. destruct (off <=? p); [|discriminate]. cbn [obind] in H. destruct (vset _ _ _) as [pl1|]; [|discriminate]. cbn [obind] in H. eauto.
Qed.
Lemma query_shape pos vs fs sv c ly L off : query pos vs fs sv c ly = Some (L, off) -> exists p, L = LDense c ly p.
Proof.
  unfold query. destruct vs as [|v vs]; [intros H; apply Some_inj in H; injection H as <- <-; eauto|]. destruct (block _) as [o n]. destruct (ofold _ _ _); [|discriminate]. cbn [obind]. intros H. apply Some_inj in H. injection H as <- <-. eauto.
Qed.
Lemma query_q1 pos vs fs sv c ly L off lq f s : query pos vs fs sv c ly = Some (L, off) -> layout_query L sv = Some lq -> In (f, s) lq ->
  exists t x, nth_error fs t = Some f /\ nth_error vs t = Some x /\ lookup x pos = Some (off + s).
Proof.
  unfold query. intros H Hq Hin. apply (query_in _ _ _ _ _ Hq) in Hin. destruct Hin as [v [Hs Hv]]. destruct vs as [|x0 vs].
  - apply Some_inj in H. injection H as <- <-. apply dense_slots in Hs. destruct s as [|[|s]]; discriminate.
  - destruct (block _) as [o n] eqn:Eb. destruct (ofold _ _ _) as [pl|] eqn:Ew in H; [|discriminate]. cbn [obind] in H. apply Some_inj in H. injection H as <- <-. apply dense_slots in Hs.
    rewrite nth_error_map in Hs. destruct (nth_error pl s) as [[g|]|] eqn:Eg; cbn [option_map] in Hs; try discriminate. apply Some_inj in Hs. apply index_of_some in Hs. rewrite Hs in Hv. apply Some_inj in Hv. subst g.
    destruct (writes_in _ _ _ _ Ew _ _ Eg) as [Hr|Hr]; [|].
    + apply nth_error_In, repeat_spec in Hr. discriminate.
    + apply In_nth_error in Hr. destruct Hr as [t Ht]. exists t.
      assert (Hc : forall (A B : Type) (l : list A) (r : list B) a b, nth_error (combine l r) t = Some (a, b) -> nth_error l t = Some a /\ nth_error r t = Some b).
      { clear. intros A B l. revert t. induction l as [|y l IH]; intros [|t] [|z r] a b H; cbn in *; try discriminate; [injection H as <- <-; auto|eauto]. }
      apply Hc in Ht. destruct Ht as [H1 H2]. rewrite nth_error_map in H1. destruct (nth_error (x0 :: vs) t) as [x|] eqn:Ex; [|discriminate]. cbn [option_map] in H1. apply Some_inj in H1. eauto.
Qed.
Lemma query_q2 pos vs fs sv c ly L off lq t x f p : query pos vs fs sv c ly = Some (L, off) -> layout_query L sv = Some lq -> NoDup vs ->
  (forall y z q, lookup y pos = Some q -> lookup z pos = Some q -> y = z) -> In f sv -> nth_error vs t = Some x -> nth_error fs t = Some f -> lookup x pos = Some p ->
  exists s, p = off + s /\ In (f, s) lq.
Proof.
  unfold query. intros H Hq Hnd Hinj Hf Hx Hft Hp. destruct vs as [|x0 vs]; [destruct t; discriminate|].
  destruct (block _) as [o n] eqn:Eb. destruct (ofold _ _ _) as [pl|] eqn:Ew in H; [|discriminate]. cbn [obind] in H. apply Some_inj in H. injection H as <- <-.
  assert (Hat : nth_error (combine (map (fun x => lookup x pos) (x0 :: vs)) fs) t = Some (Some p, f)). { apply combine_at; auto. rewrite nth_error_map, Hx. cbn [option_map]. congruence. }
  destruct (writes_out o _ _ _ Ew) with (p := p) (f := f) as [Hle Hpl]; [|eapply nth_error_In; eauto|].
  - intros a b q g h Ha Hb. assert (Hc : forall t (A B : Type) (l : list A) (r : list B) a b, nth_error (combine l r) t = Some (a, b) -> nth_error l t = Some a /\ nth_error r t = Some b).
    { clear. intros t A B l. revert t. induction l as [|y l IH]; intros [|t] [|z r] a b H; cbn in *; try discriminate; [injection H as <- <-; auto|eauto]. }
    apply Hc in Ha, Hb. destruct Ha as [Ha _], Hb as [Hb _]. rewrite nth_error_map in Ha, Hb. destruct (nth_error (x0 :: vs) a) as [ya|] eqn:Ea; [|discriminate]. destruct (nth_error (x0 :: vs) b) as [yb|] eqn:Eb'; [|discriminate].
    cbn [option_map] in Ha, Hb. apply Some_inj in Ha, Hb. assert (ya = yb) by eauto. subst yb. rewrite NoDup_nth_error in Hnd. apply Hnd; [eapply nth_error_Some_lt; eauto|congruence].
  - exists (p - o). split; [lia|]. apply (query_in _ _ _ _ _ Hq). destruct (index_of_in f sv Hf) as [v Hv]. exists v. split; [|apply index_of_some; auto]. apply dense_slots. rewrite nth_error_map, Hpl. cbn [option_map]. rewrite Hv. auto.
Qed.

Lemma map_fst_comb {A B} (l : list A) : forall r : list B, length l = length r -> map fst (combine l r) = l.
Proof. induction l as [|x l IH]; intros [|y r] H; try discriminate; auto. cbn. f_equal. apply IH. cbn in H. lia. Qed.

Section LayLayout.
  Context {F : Fld}.
  Notation DI := (DestI F true).
  Notation Ctx := (Ctx (F := F)).
  Variable cross : bool.
  Variable cs : list (nat * Circuit DI).
  Variable ctxs : list (nat * Ctx).
  Hypothesis Hok : forall id X, lookup id ctxs = Some X -> ctx_ok cross cs ctxs id X.

  Definition apart (subs : list (Layout * nat * nat)) : Prop := forall a b s off k s' off' k', nth_error subs a = Some (s, off, k) -> nth_error subs b = Some (s', off', k') -> a <> b -> off + ly_size s <= off' \/ off' + ly_size s' <= off.
  Lemma pieces_ok (X : Ctx) dense mids : NoDup (map fst mids) -> forall order cur pl subs pl' subs' cur',
    pieces X dense mids order cur pl subs = Some (pl', subs', cur') ->
    (forall i sz, In (i, sz) order -> nth_error (length dense :: map (fun m => ly_size (snd m)) mids) i = Some sz) -> NoDup (map fst order) ->
    (forall o v, In (o, v) pl -> o < cur) -> (forall o v v', In (o, v) pl -> In (o, v') pl -> v = v') ->
    (forall s off k, In (s, off, k) subs -> off + ly_size s <= cur /\ exists i, nth_error mids i = Some (k, s) /\ ~ In (S i) (map fst order)) ->
    (forall s off k o v, In (s, off, k) subs -> In (o, v) pl -> o < off \/ off + ly_size s <= o) -> apart subs -> NoDup (map snd subs) ->
    (forall o v, In (o, v) pl' -> o < cur') /\ (forall o v v', In (o, v) pl' -> In (o, v') pl' -> v = v') /\
    (forall s off k, In (s, off, k) subs' -> off + ly_size s <= cur' /\ In (k, s) mids) /\
    (forall s off k o v, In (s, off, k) subs' -> In (o, v) pl' -> o < off \/ off + ly_size s <= o) /\ apart subs' /\ NoDup (map snd subs').
  Proof.
    intros Hnm. induction order as [|[i sz] order IH]; intros cur pl subs pl' subs' cur' H Ho Hno H1 H2 H3 H4 H5 H6; cbn [pieces] in H.
    - apply Some_inj in H. injection H as <- <- <-. split; auto. split; auto. split; [|auto]. intros s of k Hs. destruct (H3 _ _ _ Hs) as [A [i [B _]]]. split; auto. eapply nth_error_In; eauto.
    - cbn [map fst] in Hno. inversion Hno as [|? ? Hni Hno']; subst. pose proof (Ho i sz (or_introl eq_refl)) as Hsz.
      assert (Ho' : forall i sz, In (i, sz) order -> nth_error (length dense :: map (fun m => ly_size (snd m)) mids) i = Some sz) by (intros; apply Ho; right; auto).
      assert (H3' : forall s off k, In (s, off, k) subs -> off + ly_size s <= cur /\ exists i, nth_error mids i = Some (k, s) /\ ~ In (S i) (map fst order)).
      { intros s of k Hs. destruct (H3 _ _ _ Hs) as [A [i' [B C]]]. split; auto. exists i'. split; auto. intros Hc. apply C. right; auto. }
      destruct i as [|i].
      + cbn [nth_error] in Hsz. apply Some_inj in Hsz. subst sz. set (new := flat_map _ _) in H.
        assert (Hnew : forall o v, In (o, v) new -> cur <= o < cur + length dense /\ nth_error dense (o - cur) = Some (Some v)).
        { intros o v Hv. unfold new in Hv. apply in_flat_map in Hv. destruct Hv as [[i q] [Hi Hq]]. apply in_combine_seq in Hi. rewrite Nat.sub_0_r in Hi. cbn [fst snd] in Hq. destruct q as [v'|]; [|destruct Hq]. destruct Hq as [Hq|[]]. injection Hq as <- <-.
          replace (cur + i - cur) with i by lia. destruct Hi as [_ Hi]. pose proof (nth_error_Some_lt _ _ _ Hi). split; [lia|auto]. }
        destruct (new) as [|n0 tl] eqn:En in H; [eapply IH; eauto|]. rewrite <- En in H. clear En n0 tl. eapply IH; [exact H|auto|auto| | | | |auto|auto].
        * intros o v Hv. apply in_app_iff in Hv. destruct Hv as [Hv|Hv]; [apply H1 in Hv; lia|apply Hnew in Hv; lia].
        * intros o v v' Hv Hv'. apply in_app_iff in Hv, Hv'. destruct Hv as [Hv|Hv], Hv' as [Hv'|Hv']; eauto.
          -- apply H1 in Hv. apply Hnew in Hv'. lia.
          -- apply H1 in Hv'. apply Hnew in Hv. lia.
          -- apply Hnew in Hv, Hv'. destruct Hv as [_ A], Hv' as [_ B]. congruence.
        * intros s of k Hs. destruct (H3' _ _ _ Hs) as [A B]. split; [lia|auto].
        * intros s of k o v Hs Hv. apply in_app_iff in Hv. destruct Hv as [Hv|Hv]; [eauto|]. apply Hnew in Hv. destruct (H3' _ _ _ Hs) as [A _]. lia.
      + destruct (nth_error mids i) as [[k s]|] eqn:Em; [|discriminate]. cbn [obind fst snd] in H. cbn [nth_error] in Hsz. rewrite nth_error_map, Em in Hsz. cbn [option_map snd] in Hsz. apply Some_inj in Hsz. subst sz.
        eapply IH; [exact H|auto|auto| |auto| | | |].
        * intros o v Hv. apply H1 in Hv. lia.
        * intros s' of' k' Hs. apply in_app_iff in Hs. destruct Hs as [Hs|[Hs|[]]].
          -- destruct (H3' _ _ _ Hs) as [A B]. split; [lia|auto].
          -- injection Hs as <- <- <-. split; auto. exists i. split; auto.
        * intros s' of' k' o v Hs Hv. apply in_app_iff in Hs. destruct Hs as [Hs|[Hs|[]]]; [eauto|]. injection Hs as <- <- <-. apply H1 in Hv. auto.
        * intros a b s1 o1 k1 s2 o2 k2 Ha Hb Hab. assert (Hsp : forall a s1 o1 k1, nth_error (subs ++ [(s, cur, k)]) a = Some (s1, o1, k1) -> nth_error subs a = Some (s1, o1, k1) \/ (a = length subs /\ s1 = s /\ o1 = cur)).
          { intros a' s' o' k' Ha'. destruct (Nat.lt_ge_cases a' (length subs)) as [Hlt|Hge]; [left; rewrite nth_error_app1 in Ha'; auto|]. right. rewrite nth_error_app2 in Ha' by auto.
            assert (a' - length subs = 0). { apply nth_error_Some_lt in Ha'. cbn in Ha'. lia. } rewrite H0 in Ha'. cbn in Ha'. apply Some_inj in Ha'. injection Ha' as <- <- <-. split; [lia|auto]. }
          apply Hsp in Ha, Hb. destruct Ha as [Ha|[Ha1 [-> ->]]], Hb as [Hb|[Hb1 [-> ->]]]; [eapply H5; eauto| | |lia].
          -- destruct (H3' _ _ _ (nth_error_In _ _ Ha)) as [A _]. auto.
          -- destruct (H3' _ _ _ (nth_error_In _ _ Hb)) as [A _]. auto.
        * rewrite map_app. cbn [map snd]. apply NoDup_app_iff. split; auto. split; [constructor; [intros []|constructor]|]. intros k' Hk' [<-|[]]. apply in_map_iff in Hk'. destruct Hk' as [[[s' o'] k'] [Hk1 Hk2]]. cbn in Hk1. subst k'.
          destruct (H3 _ _ _ Hk2) as [_ [i' [B C]]]. assert (i' = i); [|subst; apply C; left; auto]. rewrite NoDup_nth_error in Hnm. apply Hnm; [rewrite map_length; eapply nth_error_Some_lt; eauto|]. rewrite !nth_error_map, B, Em. auto.
  Qed.
  Theorem solve_lok : forall fuel reorder id layer L, solve fuel reorder ctxs id layer = Some L -> lok ctxs L /\ ly_circ L = id /\ ly_layer L = layer.
  Proof.
    induction fuel as [|fuel IH]; intros reorder id layer L H; [discriminate|]. cbn [solve] in H. destruct (lookup id ctxs) as [X|] eqn:HX; [|discriminate]. cbn [obind] in H.
    destruct (_ && _) in H.
    - unfold solve_fixed in H. rewrite HX in H. cbn [obind] in H. destruct (nth_error (x_lcs X) layer) as [C|]; [|discriminate]. cbn [obind] in H. destruct (merge_layouts _ _) as [p|]; [|discriminate]. cbn [obind] in H. apply Some_inj in H. subst. repeat split; constructor.
    - unfold solve_normal in H. rewrite HX in H. cbn [obind] in H. destruct (nth_error (x_lcs X) layer) as [C|] eqn:HC; [|discriminate]. cbn [obind] in H.
      destruct (omap _ (lc_prev C)) as [lays|]; [|discriminate]. cbn [obind] in H. destruct (ofold _ _ _) as [groups|]; [|discriminate]. cbn [obind] in H. destruct (lookup 0 groups) as [dense|]; [|discriminate]. cbn [obind] in H.
      destruct (ok_lc _ _ _ _ _ (Hok _ _ HX) _ _ HC) as [_ Hmid]. destruct (lc_mid C) as [|m0 ms] eqn:Emid; [apply Some_inj in H; subst; repeat split; constructor|]. rewrite <- Emid in *. clear Emid m0 ms.
      destruct (omap _ (lc_mid C)) as [mids|] eqn:Em in H; [|discriminate]. cbn [obind] in H. set (sizes := length dense :: _) in H. set (order := isort _ _) in H.
      destruct (pieces X dense mids order 0 [] []) as [[[pl subs] cur]|] eqn:Ep; [|discriminate]. cbn [obind] in H. apply Some_inj in H. subst L. split; [|auto].
      assert (Hmf : map fst mids = lc_mid C).
      { clear -Em. revert mids Em. induction (lc_mid C) as [|k ks IHk]; intros mids Em; cbn [omap] in Em; [apply Some_inj in Em; subst; auto|]. destruct (nth_error (x_calls X) k) as [l|]; [|discriminate]. cbn [obind] in Em.
        destruct (solve fuel reorder ctxs (cl_sub l) (layer - start_of X k)); [|discriminate]. cbn [obind] in Em. destruct (omap _ ks) as [r|]; [|discriminate]. cbn [obind] in Em. apply Some_inj in Em. subst. cbn. f_equal. auto. }
      assert (Hmi : forall k s, In (k, s) mids -> lok ctxs s).
      { intros k s Hks. apply (omap_in _ _ _ (k, s) Em) in Hks. destruct Hks as [k' [_ Hks]]. destruct (nth_error (x_calls X) k') as [l|]; [|discriminate]. cbn [obind] in Hks.
        destruct (solve fuel reorder ctxs (cl_sub l) (layer - start_of X k')) as [L|] eqn:Es; [|discriminate]. cbn [obind] in Hks. apply Some_inj in Hks. injection Hks as <- <-. apply (IH _ _ _ _ Es). }
      assert (Hno : NoDup (map fst order)).
      { eapply Permutation_NoDup; [apply Permutation_map; symmetry; apply isort_perm|]. rewrite map_fst_comb by (rewrite seq_length; auto). apply seq_NoDup. }
      destruct (pieces_ok X dense mids) with (order := order) (cur := 0) (pl := @nil (nat * nat)) (subs := @nil (Layout * nat * nat)) (pl' := pl) (subs' := subs) (cur' := cur) as [A1 [A2 [A3 [A4 [A5 A6]]]]]; auto.
      + rewrite Hmf, Hmid. apply NoDup_filter, seq_NoDup.
      + intros i sz Hi. assert (Hi' : In (i, sz) (combine (seq 0 (length sizes)) sizes)) by (eapply Permutation_in; [apply isort_perm|exact Hi]). apply in_combine_seq in Hi'. rewrite Nat.sub_0_r in Hi'. apply Hi'.
      + intros o v [].
      + intros o v v' [].
      + intros s of k [].
      + intros s of k o v [].
      + intros a b s of k s' of' k' Ha. destruct a; discriminate.
      + constructor.
      + destruct (next_power_of_two_spec cur) as [_ [Hnp _]]. econstructor; [exact HX| |exact A2| | |exact A4|exact A5|exact A6].
        * intros o v Hv. apply A1 in Hv. lia.
        * intros s of k Hs. apply (Hmi k). apply (A3 _ _ _ Hs).
        * intros s of k Hs. destruct (A3 _ _ _ Hs) as [B1 B2]. split; [lia|]. apply (in_map fst) in B2. rewrite Hmf, Hmid in B2. cbn [fst] in B2. apply filter_In in B2. destruct B2 as [B2 B3]. apply in_seq in B2. apply andb_true_iff in B3. rewrite !Nat.ltb_lt in B3. split; lia.
  Qed.
End LayLayout.
