(* The schedules of all circuits and the contexts of their layers are always found. *)
From Verif Require Import Prelude Field Zp Sorting Expr Topo Ir IrInst InputMapping Layered SolveDuplicates LayeredFacts LayeredOpt LayeredOptFacts LayeredExpand LayeredCommon IrFacts Sim Layering LaySem LaySched LayInst LayLayout LayOwn LayTotA.
Open Scope nat_scope.

Lemma lookup_app_l {A} k (m m' : list (nat * A)) v : lookup k m = Some v -> lookup k (m ++ m') = Some v.
Proof. induction m as [|[i x] m IH]; cbn; [discriminate|]. destruct (i =? k); auto. Qed.
Lemma min_fold_ge {A} (kf gf : A -> nat) (h : nat -> nat) (l : list A) : (forall p, In p l -> h (kf p) <= gf p) -> forall u, (forall i, i < length u -> h i <= getn u i) ->
  forall i, i < length u -> h i <= getn (fold_left (fun u p => upd u (kf p) (Nat.min (getn u (kf p)) (gf p))) l u) i.
Proof.
  induction l as [|a l IH]; intros Hl u Hu i Hi; cbn [fold_left]; auto. apply IH; [intros; apply Hl; right; auto| |rewrite upd_length; auto].
  intros j Hj. rewrite upd_length in Hj. rewrite getn_upd_any. destruct (Nat.eqb_spec (kf a) j) as [E|E]; cbn [andb]; auto. destruct (j <? length u); auto. rewrite E. pose proof (Hl a (or_introl eq_refl)). pose proof (Hu j Hj). rewrite E in *. lia.
Qed.
Lemma nv_eq' {F : Fld} (c : Circuit (DestI F true)) : d_nv c = S (num_inputs c) + nouts (DestI F true) (instructions c).
Proof. apply nv_sum. Qed.
Lemma count_all (l r : list nat) : NoDup l -> NoDup r -> count (fun x => memb x r) l = length r -> forall x, In x r -> In x l.
Proof.
  intros Hl Hr Hc x Hx. unfold count in Hc. set (f := filter (fun x => memb x r) l) in *.
  assert (Hi : incl f r). { intros y Hy. apply filter_In in Hy. apply memb_spec. tauto. }
  assert (Hf : NoDup f) by (apply NoDup_filter; auto).
  assert (Hle : length r <= length f) by lia. pose proof (NoDup_length_incl Hf Hle Hi) as Hi1. apply Hi1 in Hx. apply filter_In in Hx. tauto.
Qed.
Lemma count_none (l r : list nat) : count (fun x => memb x r) l = 0 -> forall x, In x r -> ~ In x l.
Proof.
  intros Hc x Hx Hl. unfold count in Hc. apply length_zero_iff_nil in Hc. apply (in_nil (a := x)). rewrite <- Hc. apply filter_In. split; auto. apply memb_spec; auto.
Qed.
Lemma lookup_fold (np : nat) (ins : list nat) : forall (m : list (nat * nat)) x, lookup x (fold_left (fun m x => (x, np) :: m) ins m) = if memb x ins then Some np else lookup x m.
Proof.
  induction ins as [|y ins IH]; intros m x; cbn [fold_left]; auto. rewrite IH. cbn [memb existsb lookup]. change (existsb (Nat.eqb x) ins) with (memb x ins).
  rewrite (Nat.eqb_sym x y). destruct (memb x ins); [rewrite orb_true_r; auto|]. rewrite orb_false_r. auto.
Qed.

Section LayTotB.
  Context {F : Fld}.
  Notation DI := (DestI F true).
  Notation Ctx := (Ctx (F := F)).
  Variable cross : bool.

  (* ------------------------------------------------------------ placement groups *)
  Record pl_ok (calls : list (Call)) (vs prev : list nat) (m : list (nat * nat)) (par : list nat) : Prop := {
    po_some : forall x, In x vs -> exists g, lookup x m = Some g /\ g < length par;
    po_ne : par <> [];
    po_par : forall j p, nth_error par j = Some p -> j <> 0 -> p < j;
    po_same : forall k l x y, In k prev -> nth_error calls k = Some l -> In x (cl_outs l) -> In y (cl_outs l) -> lookup x m = lookup y m
  }.
  Lemma lc_at_total (X : Ctx) i : i < length (x_cc X) ->
    (forall k l x, nth_error (x_calls X) k = Some l -> start_of X k = i -> In x (cl_ins l) -> 1 <= x < x_nv X /\ in_layer cross X x i = true) ->
    (forall k l x, nth_error (x_calls X) k = Some l -> end_of X k = i -> In x (cl_outs l) -> 1 <= x < x_nv X /\ in_layer cross X x i = true) ->
    (forall l, In l (x_calls X) -> NoDup (cl_ins l) /\ NoDup (cl_outs l)) ->
    exists C, lc_at cross X i = Some C /\ pl_ok (x_calls X) (lc_vars C) (lc_prev C) (lc_placement C) (lc_parent C) /\
      lc_prev C = filter (fun k => end_of X k =? i) (seq 0 (length (x_calls X))).
  Proof.
    intros Hi Hin Hout Hnd. unfold lc_at. set (ks := seq 0 (length (x_calls X))). destruct (nth_error_Some_ex (x_cc X) i Hi) as [o Ho].
    destruct (vars_at cross X i) as [vs|] eqn:Ev; [|unfold vars_at in Ev; rewrite Ho in Ev; discriminate]. cbn [obind].
    assert (Hvs : forall x, 1 <= x < x_nv X -> in_layer cross X x i = true -> In x vs).
    { intros x H1 H2. unfold vars_at in Ev. rewrite Ho in Ev. cbn [obind] in Ev. apply Some_inj in Ev. rewrite <- Ev. apply undup_in. left. apply in_app_iff. right. apply in_app_iff. right. apply filter_In. split; auto. apply in_seq. lia. }
    set (prev := filter (fun k => end_of X k =? i) ks).
    assert (Hl0 : forall x, In x vs -> lookup x (map (fun x => (x, 0)) vs) = Some 0).
    { clear. induction vs as [|y vs IH]; intros x H; [destruct H|]. cbn [map lookup]. destruct (Nat.eqb_spec y x) as [|Hn]; auto. destruct H as [H|H]; [contradiction|auto]. }
    destruct (ofold_total (place_req X prev) (fun st => pl_ok (x_calls X) vs prev (fst st) (snd st)) (filter (fun k => start_of X k =? i) ks)) with (a := (map (fun x => (x, 0)) vs, [0])) as [r [Hr Hp]].
    - intros [m par] k Hk [P1 P2 P3 P4]. cbn [fst snd] in *. apply filter_In in Hk. destruct Hk as [Hk Hs]. apply in_seq in Hk. apply Nat.eqb_eq in Hs. destruct (nth_error_Some_ex (x_calls X) k ltac:(lia)) as [l Hl].
      assert (Hlv : forall x, In x (cl_ins l) -> In x vs) by (intros x Hx; destruct (Hin k l x Hl Hs Hx); auto).
      unfold place_req. rewrite Hl. cbn [obind fst snd]. destruct (omap_total (fun x => lookup x m) (cl_ins l)) as [gs Hgs]; [intros x Hx; destruct (P1 x (Hlv x Hx)) as [g [Hg _]]; eauto|]. rewrite Hgs. cbn [obind].
      destruct gs as [|g gs']; [eexists; split; [reflexivity|]; constructor; auto|].
      match goal with |- context [if ?b then _ else _] => destruct b eqn:Eb end; [|eexists; split; [reflexivity|]; constructor; auto].
      apply andb_true_iff in Eb. destruct Eb as [_ Eb]. rewrite forallb_forall in Eb. eexists. split; [reflexivity|]. cbn [fst snd].
      assert (Hg0 : g < length par). { destruct (cl_ins l) as [|x0 t] eqn:El; [discriminate|]. cbn [omap] in Hgs. destruct (lookup x0 m) as [g0|] eqn:E0; [|discriminate]. cbn [obind] in Hgs. destruct (omap _ t); [|discriminate]. cbn [obind] in Hgs. injection Hgs as -> _.
        destruct (P1 x0 (Hlv x0 (or_introl eq_refl))) as [g' [A B]]. rewrite E0 in A. apply Some_inj in A. lia. }
      constructor.
      + intros x Hx. rewrite lookup_fold, app_length. cbn [length]. destruct (memb x (cl_ins l)); [exists (length par); split; auto; lia|]. destruct (P1 x Hx) as [g' [A B]]. exists g'. split; auto. lia.
      + destruct par; discriminate.
      + intros j p Hj Hj0. destruct (Nat.lt_ge_cases j (length par)) as [Hlt|Hge]; [rewrite nth_error_app1 in Hj by auto; eauto|]. rewrite nth_error_app2 in Hj by auto. destruct (j - length par) as [|q] eqn:Eq; [|destruct q; discriminate]. cbn in Hj. apply Some_inj in Hj. lia.
      + intros k' l' x y Hk' Hl' Hx Hy. rewrite !lookup_fold. specialize (Eb k' Hk'). rewrite Hl' in Eb. cbv zeta in Eb. apply orb_true_iff in Eb. rewrite !Nat.eqb_eq in Eb.
        destruct (Hnd l (nth_error_In _ _ Hl)) as [N1 _]. destruct (Hnd l' (nth_error_In _ _ Hl')) as [_ N2]. destruct Eb as [Eb|Eb].
        * pose proof (count_none _ _ Eb x Hx) as A. pose proof (count_none _ _ Eb y Hy) as B. assert (memb x (cl_ins l) = false) by (apply not_true_iff_false; rewrite memb_spec; auto). assert (memb y (cl_ins l) = false) by (apply not_true_iff_false; rewrite memb_spec; auto).
          rewrite H, H0. eauto.
        * pose proof (count_all _ _ N1 N2 Eb x Hx) as A. pose proof (count_all _ _ N1 N2 Eb y Hy) as B. apply memb_spec in A, B. rewrite A, B. auto.
    - cbn [fst snd]. constructor.
      + intros x Hx. exists 0. rewrite (Hl0 x Hx). split; auto.
      + discriminate.
      + intros [|j] p Hj H0; [congruence|destruct j; discriminate].
      + intros k l x y Hk Hl Hx Hy. apply filter_In in Hk. destruct Hk as [Hk1 Hk2]. apply Nat.eqb_eq in Hk2. destruct (Hout k l x Hl Hk2 Hx) as [A1 A2]. destruct (Hout k l y Hl Hk2 Hy) as [B1 B2]. rewrite !Hl0 by auto. auto.
    - fold prev. rewrite Hr. cbn [obind]. eexists. split; [reflexivity|]. cbn [lc_vars lc_prev lc_placement lc_parent]. split; auto.
  Qed.

  Variable cs : list (nat * Circuit DI).
  Hypothesis Hwf : wf_circuits DI cs.
  Variable rank : nat -> nat.
  Hypothesis Hrank : ranked DI cs rank.
  Hypothesis Hrl : forall id, In id (keys cs) -> rank id < length cs.
  Hypothesis Hnd : forall id c, lookup id cs = Some c -> NoDup (outputs c) /\ forall l, In l (calls_of c) -> NoDup (cl_ins l).
  Hypothesis Hne : forall id c, lookup id cs = Some c -> num_inputs c <> 0.

  Lemma call_in (c : Circuit DI) id l : lookup id cs = Some c -> In l (calls_of c) -> exists c', lookup (cl_sub l) cs = Some c' /\ length (cl_ins l) = num_inputs c' /\ length (cl_outs l) = length (outputs c') /\ rank (cl_sub l) < rank id.
  Proof.
    intros Hc Hl. assert (Hg : forall is cur, Forall (call_wf DI cs) is -> In l (calls_from is cur) -> exists c', lookup (cl_sub l) cs = Some c' /\ length (cl_ins l) = num_inputs c' /\ length (cl_outs l) = length (outputs c')).
    { clear -l. induction is as [|[e|i l0 n|co] is IH]; intros cur Hw Hl; cbn [calls_from] in Hl; [destruct Hl| | |]; inversion Hw as [|? ? H1 H2]; subst; eauto. destruct Hl as [<-|Hl]; eauto. cbn [cl_sub cl_ins cl_outs]. rewrite seq_length.
      destruct (H1 i l0 n eq_refl) as [c' [A [B C]]]. eauto. }
    destruct (Hg _ _ (wf_calls _ _ Hwf _ _ Hc) Hl) as [c' [A [B C]]]. exists c'. split; auto. split; auto. split; auto. apply (Hrank id c); auto. apply calls_of_in; auto.
  Qed.
  Definition before (ord : list nat) : Prop := forall a x b, ord = a ++ x :: b -> exists c, lookup x cs = Some c /\ forall l, In l (calls_of c) -> In (cl_sub l) a.
  Lemma before_app ord x c : before ord -> lookup x cs = Some c -> (forall l, In l (calls_of c) -> In (cl_sub l) ord) -> before (ord ++ [x]).
  Proof.
    intros H Hc Hl a y b E. destruct (exists_last (l := y :: b) ltac:(discriminate)) as [b' [z Eb]]. rewrite Eb, app_assoc in E. apply app_inj_tail in E. destruct E as [E <-]. destruct b' as [|y' b'].
    - cbn in Eb. injection Eb as -> ->. rewrite app_nil_r in E. subst a. eauto.
    - cbn in Eb. injection Eb as <- Eb. apply (H a y b'). auto.
  Qed.
  Lemma topo_total : forall fuel id ord, rank id < fuel -> In id (keys cs) -> before ord -> exists ord', topo fuel cs id ord = Some ord' /\ before ord' /\ In id ord' /\ incl ord ord'.
  Proof.
    induction fuel as [|fuel IH]; intros id ord Hr Hk Hb; [lia|]. cbn [topo]. destruct (memb id ord) eqn:Em; [apply memb_spec in Em; exists ord; split; auto; split; auto; split; auto; apply incl_refl|].
    apply lookup_keys in Hk. destruct Hk as [c Hc]. rewrite Hc. cbn [obind].
    assert (Hg : forall ls, incl ls (calls_of c) -> forall ord, before ord -> exists o, ofold (fun o l => topo fuel cs (cl_sub l) o) ls ord = Some o /\ before o /\ (forall l, In l ls -> In (cl_sub l) o) /\ incl ord o).
    { induction ls as [|l ls IHl]; intros Hi o Ho; cbn [ofold]; [exists o; split; auto; split; auto; split; [intros ? []|apply incl_refl]|].
      destruct (call_in c id l Hc (Hi l (or_introl eq_refl))) as [c' [A [_ [_ B]]]]. destruct (IH (cl_sub l) o ltac:(lia) ltac:(apply lookup_keys; eauto) Ho) as [o' [E1 [E2 [E3 E4]]]]. rewrite E1. cbn [obind].
      destruct (IHl ltac:(intros z Hz; apply Hi; right; auto) o' E2) as [o2 [G1 [G2 [G3 G4]]]]. exists o2. split; auto. split; auto. split; [intros z [<-|Hz]; auto|]. eapply incl_tran; eauto. }
    destruct (Hg (calls_of c) (incl_refl _) ord Hb) as [o [E1 [E2 [E3 E4]]]]. rewrite E1. cbn [obind]. eexists. split; [reflexivity|]. split; [eapply before_app; eauto|]. split; [apply in_app_iff; right; left; auto|]. apply incl_appl; auto.
  Qed.

  (* how a context was made *)
  Record made (ctxs0 : list (nat * Ctx)) (id : nat) (X : Ctx) (c : Circuit DI) (subs : list Ctx) (starts : list nat) (occ : list (list nat)) (lcs : list LC) : Prop := {
    md_c : lookup id cs = Some c;
    md_len : length subs = d_ns c;
    md_dep : forall Y, In Y subs -> 1 <= x_out Y;
    md_cci : forall Y j, In Y subs -> cc_at (x_cc Y) j = true -> j < x_out Y;
    md_st : omap (start_f c subs) (seq 0 (d_ns c)) = Some starts;
    md_root : (id =? 0) = true -> d_out2 (id =? 0) c subs starts < length (d_cc1 (id =? 0) c subs starts);
    md_occ : (if cross then omap (fun x => if x =? 0 then Some [] else occured (d_edges2 (id =? 0) c subs starts) (d_adv2 (id =? 0) c subs starts) (d_ml3 (id =? 0) c subs starts) (d_mx2 (id =? 0) c subs starts) (outputs c) (d_out (id =? 0) c subs starts) x)
        (seq 0 (length (d_ml2 (id =? 0) c subs starts))) else Some []) = Some occ;
    md_cc : d_out (id =? 0) c subs starts < length (d_cc (id =? 0) c subs starts);
    md_X : X = d_X (id =? 0) c subs starts occ lcs;
    md_sub : forall k l, nth_error (calls_of c) k = Some l -> exists Y, nth_error subs k = Some Y /\ lookup (cl_sub l) ctxs0 = Some Y;
    md_used : cross = false -> forall i, i <= x_out X -> getn (x_used X) i = i - 1;
    md_ulen : length (x_used X) = S (x_out X)
  }.
  Definition pre (ctxs0 : list (nat * Ctx)) (id : nat) (X : Ctx) : Prop := exists c subs starts occ, made ctxs0 id X c subs starts occ [].
  Lemma pre_app l l' id X : pre l id X -> pre (l ++ l') id X.
  Proof.
    intros [c [subs [starts [occ [M1 M2 M3 M4 M5 M6 M7 M8 M9 M10 M11 M12]]]]]. exists c, subs, starts, occ. constructor; auto. intros k x Hk. destruct (M10 k x Hk) as [Y [A B]]. exists Y. split; auto. apply lookup_app_l. auto.
  Qed.
  Lemma pre_good l id X : pre l id X -> 1 <= x_out X /\ (id <> 0 -> forall j, cc_at (x_cc X) j = true -> j < x_out X) /\ (cross = false -> forall i, i <= x_out X -> getn (x_used X) i = i - 1).
  Proof.
    intros [c [subs [starts [occ [M1 M2 M3 M4 M5 M6 M7 M8 M9 M10 M11 M12]]]]]. split; [|split; auto].
    - rewrite M9. apply (out_ge (id =? 0) c subs starts M2 M6).
    - intros Hn j Hj. rewrite M9 in Hj. cbn [x_cc d_X] in Hj. rewrite cc_at_same in Hj. rewrite M9. cbn [x_out d_X]. apply (out_cc (id =? 0) c subs starts M2 M6) in Hj. apply Nat.eqb_neq in Hn. rewrite Hn in *. lia.
  Qed.
  Lemma used_len root (c : Circuit DI) subs starts occ : length (d_used root c subs starts occ) = S (d_out root c subs starts).
  Proof.
    destruct (min_fold2 (fun (p : nat * Ctx) j => j + fst p) (fun p j => getn (x_used (snd p)) j + fst p) (fun p => seq 0 (S (x_out (snd p)))) (combine starts subs) (0 :: seq 0 (d_out root c subs starts))) as [A1 _]. cbv zeta in *.
    assert (U0 : d_used0 root c subs starts = fold_left (fun u (p : nat * Ctx) => fold_left (fun u j => upd u (j + fst p) (Nat.min (getn u (j + fst p)) (getn (x_used (snd p)) j + fst p))) (seq 0 (S (x_out (snd p)))) u) (combine starts subs) (0 :: seq 0 (d_out root c subs starts))).
    { clear A1. unfold d_used0. generalize (0 :: seq 0 (d_out root c subs starts)). induction (combine starts subs) as [|[st X] l IH]; intros u; cbn [fold_left]; auto. }
    rewrite <- U0 in A1. destruct (min_fold (fun p : nat * nat => snd p) fst (flat_map pairs occ) (d_used0 root c subs starts)) as [B1 _]. cbv zeta in *. fold (d_used root c subs starts occ) in *. rewrite B1, A1. cbn. rewrite seq_length. auto.
  Qed.
  Lemma used_one root (c : Circuit DI) subs starts : (forall Y, In Y subs -> forall i, i <= x_out Y -> getn (x_used Y) i = i - 1) -> forall i, i <= d_out root c subs starts -> getn (d_used root c subs starts []) i = i - 1.
  Proof.
    intros HY i Hi. unfold d_used. cbn [flat_map fold_left]. set (h := fun i => i - 1). apply Nat.le_antisymm.
    - assert (Hg : forall l u, getn (fold_left (fun u (p : nat * Ctx) => let '(st, X) := p in fold_left (fun u j => upd u (j + st) (Nat.min (getn u (j + st)) (getn (x_used X) j + st))) (seq 0 (S (x_out X))) u) l u) i <= getn u i).
      { induction l as [|[st X] l IH]; intros u; cbn [fold_left]; auto. etransitivity; [apply IH|]. destruct (min_fold (fun j => j + st) (fun j => getn (x_used X) j + st) (seq 0 (S (x_out X))) u) as [_ [B _]]. apply B. }
      etransitivity; [apply Hg|]. destruct i as [|i]; auto. unfold getn. cbn [nth]. rewrite seq_nth; lia.
    - assert (Hg : forall l u, (forall p, In p l -> In (snd p) subs) -> (forall i, i < length u -> h i <= getn u i) -> i < length u -> h i <= getn (fold_left (fun u (p : nat * Ctx) => let '(st, X) := p in fold_left (fun u j => upd u (j + st) (Nat.min (getn u (j + st)) (getn (x_used X) j + st))) (seq 0 (S (x_out X))) u) l u) i).
      { induction l as [|[st X] l IH]; intros u Hl Hu Hiu; cbn [fold_left]; auto. apply IH; [intros; apply Hl; right; auto| |].
        - intros q Hq. destruct (min_fold (fun j => j + st) (fun j => getn (x_used X) j + st) (seq 0 (S (x_out X))) u) as [B1 _]. cbv zeta in B1. rewrite B1 in Hq.
          apply (min_fold_ge (fun j => j + st) (fun j => getn (x_used X) j + st) h); auto. intros j Hj. apply in_seq in Hj. rewrite (HY X (Hl (st, X) (or_introl eq_refl))) by lia. unfold h. lia.
        - destruct (min_fold (fun j => j + st) (fun j => getn (x_used X) j + st) (seq 0 (S (x_out X))) u) as [B1 _]. cbv zeta in B1. rewrite B1. auto. }
      apply Hg.
      + intros p Hp. destruct p. apply in_combine_r in Hp. auto.
      + intros q Hq. cbn [length] in Hq. rewrite seq_length in Hq. destruct q as [|q]; unfold getn, h; cbn [nth]; [lia|]. rewrite seq_nth; lia.
      + cbn [length]. rewrite seq_length. lia.
  Qed.
  Lemma layers_total : forall ord2 ord1 st, before (ord1 ++ ord2) -> map fst (fst st) = ord1 -> (forall x, In x (ord1 ++ ord2) -> rank x <= rank 0) -> (forall id X, In (id, X) (fst st) -> pre (fst st) id X) ->
    exists r, ofold (fun st id => let* c := lookup id cs in let* r := compute_layers cross (fst st) (id =? 0) c in Some (fst st ++ [(id, fst r)], snd st || snd r)) ord2 st = Some r /\
      (forall id X, In (id, X) (fst r) -> pre (fst r) id X) /\ map fst (fst r) = ord1 ++ ord2.
  Proof.
    induction ord2 as [|id ord2 IH]; intros ord1 st Hb Hm Hr Hp; cbn [ofold]; [rewrite app_nil_r in *; eauto|].
    destruct (Hb ord1 id ord2 eq_refl) as [c [Hc Hl]]. rewrite Hc. cbn [obind].
    assert (Hsub : forall l, In l (calls_of c) -> cl_sub l <> 0 /\ exists Y, lookup (cl_sub l) (fst st) = Some Y /\ pre (fst st) (cl_sub l) Y).
    { intros l Hin. destruct (call_in c id l Hc Hin) as [c' [_ [_ [_ A]]]]. assert (rank id <= rank 0) by (apply Hr, in_app_iff; right; left; auto). split; [intros E; rewrite E in A; lia|].
      specialize (Hl l Hin). rewrite <- Hm in Hl. apply lookup_keys in Hl. destruct Hl as [Y HY]. exists Y. split; auto. apply Hp. apply lookup_In. auto. }
    destruct (compute_total cross (fst st) (id =? 0) c (wf_each _ _ Hwf _ _ Hc)) as [subs [starts [occ [C1 [C2 [C3 [C4 [C5 [C6 [C7 [C8 C9]]]]]]]]]]].
    { intros l Hin. split.
      - destruct (call_in c id l Hc Hin) as [c' [A [B _]]]. pose proof (Hne _ _ A). destruct (cl_ins l); [cbn in B; congruence|discriminate].
      - destruct (Hsub l Hin) as [N [Y [HY HP]]]. exists Y. split; auto. destruct (pre_good _ _ _ HP) as [A [B _]]. split; auto. }
    rewrite C9. cbn [obind fst snd].
    assert (Hmk : forall k l, nth_error (calls_of c) k = Some l -> exists Y, nth_error subs k = Some Y /\ lookup (cl_sub l) (fst st) = Some Y).
    { intros k l Hk. destruct (omap_at _ _ _ _ _ C1 Hk) as [Y [A B]]. eauto. }
    destruct (IH (ord1 ++ [id]) (fst st ++ [(id, d_X (id =? 0) c subs starts occ [])], snd st || snd (d_rh (id =? 0) c subs starts))) as [r [R1 [R2 R3]]].
    - rewrite <- app_assoc. exact Hb.
    - cbn [fst]. rewrite map_app. cbn [map fst]. rewrite Hm. auto.
    - rewrite <- app_assoc. exact Hr.
    - cbn [fst]. intros i X Hin. apply in_app_iff in Hin. destruct Hin as [Hin|[Hin|[]]]; [apply pre_app; auto|]. injection Hin as <- <-. apply pre_app. exists c, subs, starts, occ. constructor; auto.
      + intros Ec i Hi. cbn [x_used x_out d_X] in *. assert (occ = []) by (rewrite Ec in C7; congruence). subst occ. apply used_one; auto.
        intros Y HY. apply In_nth_error in HY. destruct HY as [q HY]. destruct (nth_error_Some_ex (calls_of c) q) as [l Hq]; [apply nth_error_Some_lt in HY; rewrite C2 in HY; auto|]. destruct (Hmk q l Hq) as [Y' [A B]]. assert (Y' = Y) by congruence. subst Y'.
        apply (pre_good (fst st) (cl_sub l)); auto. apply Hp. apply lookup_In; auto.
      + apply used_len.
    - exists r. split; auto. split; auto. rewrite R3, <- app_assoc. auto.
  Qed.

  (* ------------------------------------------------------------ contexts of layers *)
  Lemma outs_nodup (c : Circuit DI) l : In l (calls_of c) -> NoDup (cl_outs l).
  Proof.
    unfold calls_of. generalize (S (num_inputs c)). induction (instructions c) as [|[e|i l0 n|co] is IH]; intros cur Hl; cbn [calls_from] in Hl; [destruct Hl| | |]; eauto. destruct Hl as [<-|Hl]; eauto. apply seq_NoDup.
  Qed.
  Lemma made_args ctxs0 id X c subs starts occ lcs : made ctxs0 id X c subs starts occ lcs -> forall k l x, nth_error (x_calls X) k = Some l -> In x (cl_ins l) -> 1 <= x < x_nv X /\ in_layer cross X x (start_of X k) = true.
  Proof.
    intros [M1 M2 M3 M4 M5 M6 M7 M8 M9 M10 M11 M12] k l x Hl Hx. pose proof (wf_each _ _ Hwf _ _ M1) as Hw. subst X. cbn [x_calls d_X] in Hl. destruct (M10 k l Hl) as [Y [HY _]].
    assert (He : In (x, d_nv c + k) (d_edges2 (id =? 0) c subs starts)) by (apply edges2_inv; left; eapply edge_arg; eauto). pose proof (arg_range (id =? 0) c subs starts Hw M2 M6 _ _ _ Hl Hx) as R. split; [exact R|].
    pose proof (in_use cross (id =? 0) c subs starts Hw M2 M3 M4 M5 M6 occ M7 lcs _ _ He ltac:(lia)) as Hi. assert (k < d_ns c) by (apply nth_error_Some_lt in HY; lia). rewrite ml2_at, adv2_at, (adv_call c subs _ _ HY) in Hi by lia.
    destruct (start_at (id =? 0) c subs starts M2 M5 M6 _ _ HY) as [_ Hs]. change (start_of (d_X (id =? 0) c subs starts occ lcs) k) with (getn starts k). replace (getn starts k) with (getn (d_ml c subs) (d_nv c + k) - (x_out Y - 1)) by lia. auto.
  Qed.
  Lemma made_outs ctxs0 id X c subs starts occ lcs : made ctxs0 id X c subs starts occ lcs -> forall k l x, nth_error (x_calls X) k = Some l -> In x (cl_outs l) -> 1 <= x < x_nv X /\ in_layer cross X x (end_of X k) = true.
  Proof.
    intros [M1 M2 M3 M4 M5 M6 M7 M8 M9 M10 M11 M12] k l x Hl Hx. pose proof (wf_each _ _ Hwf _ _ M1) as Hw. subst X. cbn [x_calls d_X] in Hl. destruct (M10 k l Hl) as [Y [HY _]].
    destruct (out_kind (id =? 0) c subs starts M2 M6 k l x Hl Hx) as [K1 K2]. assert (R : 1 <= x < d_nv c) by lia. split; [exact R|].
    assert (He : end_of (d_X (id =? 0) c subs starts occ lcs) k = getn (d_ml3 (id =? 0) c subs starts) x).
    { rewrite (end_X _ _ _ _ _ _ _ _ HY). rewrite ml3_nc; [|pose proof (len2 (id =? 0) c subs starts M2 M6); lia|congruence]. rewrite ml2_at by lia. symmetry. apply (m_out (id =? 0) c subs starts Hw M2 M3 M5 M6 _ _ _ _ Hl HY Hx). }
    rewrite He. unfold in_layer, d_X. cbn [x_occ x_min x_max]. destruct (Bool.bool_dec cross true) as [Ec|Ec]; [|apply not_true_is_false in Ec]; rewrite Ec.
    - destruct (occ_at cross (id =? 0) c subs starts M2 M6 occ M7 x Ec R) as [t [E1 _]]. rewrite E1. apply memb_spec. left; auto.
    - apply andb_true_iff. rewrite !Nat.leb_le. split; auto. apply (ml3_facts (id =? 0) c subs starts Hw M2 M3 M4 M5 M6); auto.
  Qed.
  Lemma made_lc ctxs0 id X c subs starts occ lcs : made ctxs0 id X c subs starts occ lcs -> forall i, i <= x_out X -> exists C, lc_at cross X i = Some C /\ pl_ok (x_calls X) (lc_vars C) (lc_prev C) (lc_placement C) (lc_parent C) /\
      lc_prev C = filter (fun k => end_of X k =? i) (seq 0 (length (x_calls X))).
  Proof.
    intros M i Hi. apply lc_at_total.
    - destruct M as [M1 M2 M3 M4 M5 M6 M7 M8 M9 M10 M11 M12]. subst X. cbn [x_out x_cc d_X] in *. lia.
    - intros k l x Hl <- Hx. eapply made_args; eauto.
    - intros k l x Hl <- Hx. eapply made_outs; eauto.
    - intros l Hl. destruct M as [M1 M2 M3 M4 M5 M6 M7 M8 M9 M10 M11 M12]. subst X. cbn [x_calls d_X] in Hl. split; [apply (proj2 (Hnd _ _ M1)); auto|apply (outs_nodup c); auto].
  Qed.
  Lemma prepare_total l id X : pre l id X -> exists lcs, prepare cross X = Some (with_lcs X lcs).
  Proof.
    intros [c [subs [starts [occ M]]]]. destruct (omap_total (lc_at cross X) (seq 0 (S (x_out X)))) as [lcs Hl]; [|exists lcs; unfold prepare; rewrite Hl; auto].
    intros i Hi. apply in_seq in Hi. destruct (made_lc _ _ _ _ _ _ _ _ M i ltac:(lia)) as [C [A _]]. eauto.
  Qed.

  Record ctx_tot (ctxs : list (nat * Ctx)) (id : nat) (X : Ctx) : Prop := {
    t_cc : x_out X < length (x_cc X);
    t_used : length (x_used X) = S (x_out X);
    t_used1 : cross = false -> forall i, i <= x_out X -> getn (x_used X) i = i - 1;
    t_sub : forall i c k l Y, nth_error (x_cc X) i = Some (Some c) -> In k (cc_subs c) -> nth_error (x_calls X) k = Some l -> lookup (cl_sub l) ctxs = Some Y -> cc_at (x_cc Y) (i - 1 - start_of X k) = true;
    t_min0 : getn (x_min X) 0 = 0;
    t_max0 : cross = false -> getn (x_max X) 0 = 0;
    t_occ0 : cross = true -> nth 0 (x_occ X) [] = [];
    t_lc : forall i C, nth_error (x_lcs X) i = Some C -> pl_ok (x_calls X) (lc_vars C) (lc_prev C) (lc_placement C) (lc_parent C) /\ lc_prev C = filter (fun k => end_of X k =? i) (seq 0 (length (x_calls X)));
    t_outs : forall k l x, nth_error (x_calls X) k = Some l -> In x (cl_outs l) -> 1 <= x < x_nv X /\ in_layer cross X x (end_of X k) = true;
    t_args : forall k l x, nth_error (x_calls X) k = Some l -> In x (cl_ins l) -> 1 <= x < x_nv X /\ in_layer cross X x (start_of X k) = true
  }.
  Lemma contexts_total : In 0 (keys cs) -> exists order ctxs0 has ctxs, topo (S (length cs)) cs 0 [] = Some order /\ all_layers cross cs order = Some (ctxs0, has) /\
    omap (fun p => let* X := prepare cross (snd p) in Some (fst p, X)) ctxs0 = Some ctxs /\ (exists X, lookup 0 ctxs = Some X) /\ forall id X, lookup id ctxs = Some X -> ctx_tot ctxs id X.
  Proof.
    intros H0. destruct (topo_total (S (length cs)) 0 [] ltac:(pose proof (Hrl _ H0); lia) H0) as [order [T1 [T2 [T3 _]]]]; [intros [|? ?] ? ? E; discriminate|].
    assert (Hr : forall x, In x order -> rank x <= rank 0). { intros x Hx. destruct (topo_rank_le cs rank Hrank _ _ _ _ T1 x Hx) as [[]|]; auto. }
    destruct (layers_total order [] ([], false) T2 eq_refl Hr) as [[ctxs0 has] [L1 [L2 L3]]]; [intros ? ? []|]. cbn [fst] in L2, L3.
    destruct (omap_total (fun p : nat * Ctx => let* X := prepare cross (snd p) in Some (fst p, X)) ctxs0) as [ctxs Hc].
    { intros [id X] Hin. cbn [fst snd]. destruct (prepare_total _ _ _ (L2 _ _ Hin)) as [lcs E]. rewrite E. cbn [obind]. eauto. }
    assert (Hkeys : keys ctxs = order).
    { cbn [app] in L3. rewrite <- L3. clear -Hc. revert ctxs Hc. induction ctxs0 as [|[i X] l IH]; intros r Hr; cbn [omap fst snd] in Hr; [injection Hr as <-; auto|]. destruct (prepare cross X); [|discriminate]. cbn [obind] in Hr. destruct (omap _ l) as [r'|]; [|discriminate]. cbn [obind] in Hr. injection Hr as <-. cbn [keys map fst]. f_equal. apply (IH r' eq_refl). }
    exists order, ctxs0, has, ctxs. split; auto. split; [exact L1|]. split; auto. split; [apply lookup_keys; rewrite Hkeys; auto|].
    assert (Hback : forall id X, lookup id ctxs = Some X -> exists X0, lookup id ctxs0 = Some X0 /\ prepare cross X0 = Some X).
    { clear -Hc. revert ctxs Hc. induction ctxs0 as [|[i X0] l IH]; intros r Hr id X HX; cbn [omap fst snd] in Hr; [injection Hr as <-; discriminate|]. destruct (prepare cross X0) as [X1|] eqn:Ep; [|discriminate]. cbn [obind] in Hr. destruct (omap _ l) as [r'|] eqn:Er; [|discriminate]. cbn [obind] in Hr. injection Hr as <-.
      cbn [lookup] in *. destruct (i =? id); [apply Some_inj in HX; subst; eauto|]. eauto. }
    intros id X HX. destruct (Hback _ _ HX) as [X0 [B1 B2]]. pose proof (L2 _ _ (lookup_In _ _ _ B1)) as [c [subs [starts [occ M]]]].
    unfold prepare in B2. destruct (omap (lc_at cross X0) (seq 0 (S (x_out X0)))) as [lcs|] eqn:El; [|discriminate]. cbn [obind] in B2. apply Some_inj in B2.
    assert (M' : made ctxs0 id X c subs starts occ lcs). { destruct M as [M1 M2 M3 M4 M5 M6 M7 M8 M9 M10 M11 M12]. subst X X0. constructor; auto. }
    pose proof (made_lc _ _ _ _ _ _ _ _ M') as Hlc. pose proof (made_args _ _ _ _ _ _ _ _ M') as Ha. pose proof (made_outs _ _ _ _ _ _ _ _ M') as Ho. destruct M' as [M1 M2 M3 M4 M5 M6 M7 M8 M9 M10 M11 M12]. pose proof (wf_each _ _ Hwf _ _ M1) as Hw.
    assert (Hnoe : forall y, ~ In (0, y) (d_edges2 (id =? 0) c subs starts)).
    { intros y Hy. pose proof (use_range (id =? 0) c subs starts Hw M2 M3 M4 M5 M6 _ _ Hy). pose proof (nv_eq' c). lia. }
    assert (Hlen : 0 < d_nv c /\ 0 < length (d_ml2 (id =? 0) c subs starts)) by (pose proof (nv_eq' c); pose proof (len2 (id =? 0) c subs starts M2 M6); lia).
    assert (Hml : getn (d_ml2 (id =? 0) c subs starts) 0 = 0).
    { rewrite ml2_at by lia. rewrite m_noin. - assert (E : nth_error (kinds c) 0 = Some OIn) by (unfold kinds; reflexivity). rewrite (init_at _ _ _ E). auto.
      - intros x Hx. pose proof (edge_range (id =? 0) c subs starts Hw M2 M6 _ _ Hx). lia. }
    constructor; auto.
    - rewrite M9. exact M8.
    - intros i a k l Y Ha' Hk Hl HY. rewrite M9 in Ha', Hl |- *. cbn [x_cc x_calls d_X] in *. apply cc_same in Ha'. destruct (cc0_inv (id =? 0) c subs starts Hw M2 M3 M4 M5 M6 _ _ Ha') as [_ [E _]]. rewrite E in Hk. apply (raw_snd (id =? 0) c subs starts M2 M3 M5 M6) in Hk. destruct Hk as [_ [Y0 [HY0 [_ Hat]]]].
      destruct (M10 k l Hl) as [Y1 [A B]]. assert (Y1 = Y0) by congruence. subst Y1. destruct (Hback _ _ HY) as [Y2 [D1 D2]]. assert (Y2 = Y0) by congruence. subst Y2. unfold prepare in D2. destruct (omap (lc_at cross Y0) (seq 0 (S (x_out Y0)))); [|discriminate]. apply Some_inj in D2. subst Y. exact Hat.
    - rewrite M9. cbn [x_min d_X]. rewrite ml3_nc; [auto|lia|]. intros co E. unfold kinds in E. cbn in E. discriminate.
    - intros _. rewrite M9. cbn [x_max d_X]. unfold d_mx2. rewrite getn_map_seq by lia. destruct (memb 0 (outputs c)) eqn:Em; [apply memb_spec, (out_range c subs Hw M2) in Em; lia|]. rewrite mx_at by lia.
      destruct (outs_of (d_edges2 (id =? 0) c subs starts) 0) as [|y ys] eqn:Ey; [cbn; auto|]. exfalso. apply (Hnoe y). apply outs_of_In. rewrite Ey. left; auto.
    - intros Ec. rewrite M9. cbn [x_occ d_X]. rewrite Ec in M7. destruct (omap_at _ _ _ 0 0 M7) as [t [E1 E2]]; [rewrite nth_error_seq by lia; auto|]. cbn in E2. injection E2 as <-. apply nth_error_nth; auto.
    - intros i C HC. assert (Hxl : x_lcs X = lcs) by (rewrite <- B2; auto). rewrite Hxl in HC. pose proof (omap_length _ _ _ El) as Hll. rewrite seq_length in Hll. assert (Hxo : x_out X0 = x_out X) by (rewrite <- B2; auto). assert (Hi : i <= x_out X) by (apply nth_error_Some_lt in HC; lia).
      destruct (omap_at _ _ _ i i El) as [C' [E1 E2]]; [rewrite nth_error_seq by lia; auto|]. rewrite HC in E1. apply Some_inj in E1. subst C'. destruct (Hlc i Hi) as [C' [E3 E4]]. assert (C' = C). { assert (E5 : lc_at cross X i = lc_at cross X0 i) by (rewrite <- B2; reflexivity). congruence. } subst C'. auto.
  Qed.
End LayTotB.
