(* expand_small_segments keeps what a layered circuit computes. *)
From Verif Require Import Prelude Field Zp Expr Topo Ir UnionFind Sorting Layered LayeredFacts LayeredOpt LayeredOptFacts LayeredOptSim.

Section LEx.
  Context {F : Fld} {MD : Mode}.
  Notation UG := (UG F). Notation Segment := (Segment F). Notation LCircuit := (LCircuit F). Notation Gate := (Gate F).

  (* ------------------------------------------------------------ validity of children, as propositions *)
  Definition agood (sub s : Segment) (a : Alloc) : Prop :=
    length (a_in a) = length (s_ins sub) /\ a_out a mod s_outs sub = 0 /\ a_out a + s_outs sub <= s_outs s /\
    forall l x y z, nth_error (a_in a) l = Some x -> nth_error (s_ins sub) l = Some y -> nth_error (s_ins s) l = Some z -> x mod y = 0 /\ x + y <= z.
  Definition cgood (segs : list Segment) (i : nat) (s : Segment) (ch : nat * list Alloc) : Prop :=
    fst ch < i /\ exists sub, nth_error segs (fst ch) = Some sub /\ length (s_ins sub) <= length (s_ins s) /\ Forall (agood sub s) (snd ch).
  Definition sgood (nl : nat) (segs : list Segment) (i : nat) (s : Segment) : Prop :=
    Forall (fun n => exists k, n = 2 ^ k) (s_ins s) /\ s_ins s <> [] /\ (exists k, s_outs s = 2 ^ k) /\
    forallb (gate_ok nl s) (seg_gates s) = true /\ Forall (cgood segs i s) (s_children s).
  Lemma pow2b_iff x : pow2b x = true <-> exists k, x = 2 ^ k.
  Proof.
    split; [apply pow2b_spec|]. intros [k ->]. unfold pow2b. apply andb_true_iff. split.
    - apply negb_true_iff. apply Nat.eqb_neq. apply Nat.pow_nonzero. lia.
    - apply Nat.eqb_eq. replace (2 ^ k - 1) with (Nat.ones k) by (rewrite Nat.ones_equiv; lia). rewrite Nat.land_ones. apply Nat.mod_same. apply Nat.pow_nonzero. lia.
  Qed.
  Lemma zip3_iff x y z : zip3_ok x y z = true <-> forall l a b c, nth_error x l = Some a -> nth_error y l = Some b -> nth_error z l = Some c -> a mod b = 0 /\ a + b <= c.
  Proof.
    unfold zip3_ok. rewrite forallb_forall. split.
    - intros H l a b c H1 H2 H3. specialize (H _ (combine3_nth _ _ _ _ _ _ _ H1 H2 H3)). cbn beta iota in H. apply andb_true_iff in H. rewrite Nat.eqb_eq, Nat.leb_le in H. auto.
    - intros H [[a b] c] Hin. apply andb_true_iff. rewrite Nat.eqb_eq, Nat.leb_le. revert x y z H Hin. induction x as [|x0 x IH]; intros [|y0 y] [|z0 z] H Hin; cbn in Hin; try contradiction.
      destruct Hin as [He|Hin]; [injection He as <- <- <-; apply (H 0); auto|]. apply (IH y z); auto. intros l. apply (H (S l)).
  Qed.
  Lemma child_ok_iff (segs : list Segment) i s ch : child_ok segs i s ch = true <-> cgood segs i s ch.
  Proof.
    unfold child_ok, cgood. rewrite andb_true_iff, Nat.ltb_lt. destruct (nth_error segs (fst ch)) as [sub|].
    - rewrite andb_true_iff, Nat.leb_le, forallb_forall. split.
      + intros [H1 [H2 H3]]. split; auto. exists sub. split; auto. split; auto. apply Forall_forall. intros a Ha. specialize (H3 a Ha). rewrite !andb_true_iff, !Nat.eqb_eq, Nat.leb_le, zip3_iff in H3. unfold agood. tauto.
      + intros [H1 [sub' [He [H2 H3]]]]. injection He as <-. split; auto. split; auto. intros a Ha. rewrite Forall_forall in H3. specialize (H3 a Ha). unfold agood in H3. rewrite !andb_true_iff, !Nat.eqb_eq, Nat.leb_le, zip3_iff. tauto.
    - split; [intros [_ H]; discriminate|]. intros [_ [sub [H _]]]. discriminate.
  Qed.
  Lemma seg_ok_iff nl (segs : list Segment) i s : seg_ok nl segs i s = true <-> sgood nl segs i s.
  Proof.
    unfold seg_ok, sgood. rewrite !andb_true_iff, pow2b_iff, negb_true_iff, Nat.eqb_neq. rewrite !forallb_forall, !Forall_forall. split.
    - intros [[[[H1 H2] H3] H4] H5]. split; [intros x Hx; apply pow2b_iff; auto|]. split; [intros E; rewrite E in H2; auto|]. split; auto. split; auto. intros ch Hch. apply child_ok_iff; auto.
    - intros [H1 [H2 [H3 [H4 H5]]]]. split; [split; [split; [split; [intros x Hx; apply pow2b_iff; auto|destruct (s_ins s); cbn; congruence]|auto]|auto]|]. intros ch Hch. apply child_ok_iff; auto.
  Qed.
  Lemma segs_ok_iff nl (segs : list Segment) : segs_ok nl segs 0 segs = true <-> forall i s, nth_error segs i = Some s -> sgood nl segs i s.
  Proof.
    split.
    - intros H i s Hi. apply seg_ok_iff. apply (segs_ok_nth _ _ _ 0 i s H Hi).
    - intros H. apply segs_ok_intro. intros j s Hj. apply seg_ok_iff. apply H; auto.
  Qed.
  Lemma sgood_wf nl (segs : list Segment) : (forall i s, nth_error segs i = Some s -> sgood nl segs i s) -> wf_segs segs.
  Proof. intros H i s Hi. eapply seg_ok_wf. apply seg_ok_iff. apply (H i s Hi). Qed.

  (* ------------------------------------------------------------ composing placements *)
  Lemma pow2_div a b : (exists k, a = 2 ^ k) -> (exists k, b = 2 ^ k) -> a <= b -> exists q, b = q * a.
  Proof.
    intros [k ->] [m ->] H. destruct (Nat.le_gt_cases k m) as [Hk|Hk].
    - exists (2 ^ (m - k)). rewrite <- Nat.pow_add_r. f_equal. lia.
    - exfalso. apply (Nat.pow_lt_mono_r 2) in Hk; lia.
  Qed.
  Lemma add_offs_nth a b l x : nth_error (add_offs a b) l = Some x -> exists u v, nth_error a l = Some u /\ nth_error b l = Some v /\ x = u + v.
  Proof.
    unfold add_offs. rewrite nth_error_map. intros H. destruct (nth_error (combine a b) l) as [[u v]|] eqn:E; [|discriminate]. injection H as <-.
    revert a b E. induction l as [|l IH]; intros [|a0 a] [|b0 b] E; cbn in *; try discriminate; [injection E as <- <-; eauto|]. apply IH; auto.
  Qed.
  Lemma agood_comp (ss sub s : Segment) sa a : Forall (fun n => exists k, n = 2 ^ k) (s_ins ss) -> (exists k, s_outs ss = 2 ^ k) -> Forall (fun n => exists k, n = 2 ^ k) (s_ins sub) -> (exists k, s_outs sub = 2 ^ k) ->
    length (s_ins ss) <= length (s_ins sub) -> length (s_ins sub) <= length (s_ins s) -> agood ss sub sa -> agood sub s a -> agood ss s (alloc_comp a sa).
  Proof.
    intros P1 P2 P3 P4 L1 L2 [A1 [A2 [A3 A4]]] [B1 [B2 [B3 B4]]]. unfold agood, alloc_comp. cbn [a_in a_out]. split; [unfold add_offs; rewrite map_length, combine_length; lia|].
    destruct (pow2_div _ _ P2 P4 ltac:(lia)) as [q Hq]. split.
    { assert (Hz : s_outs ss <> 0) by (destruct P2 as [k ->]; apply Nat.pow_nonzero; lia). assert (Hz2 : s_outs sub <> 0) by (destruct P4 as [k ->]; apply Nat.pow_nonzero; lia).
      apply Nat.mod_divides in A2; auto. apply Nat.mod_divides in B2; auto. destruct A2 as [u ->], B2 as [v ->]. rewrite Hq. replace (s_outs ss * u + q * s_outs ss * v) with ((u + q * v) * s_outs ss) by lia. apply Nat.mod_mul; auto. }
    split; [lia|]. intros l x y z Hx Hy Hz. apply add_offs_nth in Hx. destruct Hx as [u [v [U [V ->]]]].
    assert (Hl : l < length (s_ins sub)) by (apply nth_error_Some_lt in Hy; lia). destruct (nth_error_Some_ex _ _ Hl) as [m Hm]. destruct (A4 l u y m U Hy Hm) as [C1 C2]. destruct (B4 l v m z V Hm Hz) as [D1 D2].
    rewrite Forall_forall in P1, P3. assert (Py := P1 y (nth_error_In _ _ Hy)). assert (Pm := P3 m (nth_error_In _ _ Hm)). destruct (pow2_div _ _ Py Pm ltac:(lia)) as [q2 Hq2]. split; [|lia].
    assert (Zy : y <> 0) by (destruct Py as [k ->]; apply Nat.pow_nonzero; lia). assert (Zm : m <> 0) by (destruct Pm as [k ->]; apply Nat.pow_nonzero; lia).
    apply Nat.mod_divides in C1; auto. apply Nat.mod_divides in D1; auto. destruct C1 as [cu ->], D1 as [dv ->]. rewrite Hq2. replace (y * cu + q2 * y * dv) with ((cu + q2 * dv) * y) by lia. apply Nat.mod_mul; auto.
  Qed.
  Lemma k_map_map f g k : k_map f (k_map g k) = k_map (fun i => f (g i)) k.
  Proof. destruct k; cbn; auto. rewrite map_map. auto. Qed.
  Lemma k_map_ext f g k : (forall i, In i (k_ins k) -> f i = g i) -> k_map f k = k_map g k.
  Proof. destruct k as [x y|x| |t l]; cbn; intros H; auto; try (rewrite !H by auto; auto). f_equal. apply map_ext_in; auto. Qed.
  Lemma ushift_comp (ss sub : Segment) sa a g : length (a_in sa) = length (s_ins ss) -> length (a_in a) = length (s_ins sub) -> length (s_ins ss) <= length (s_ins sub) -> gate_inb ss g -> ushift (alloc_comp a sa) g = ushift a (ushift sa g).
  Proof.
    intros H1 H2 H3 [G1 _]. unfold ushift, alloc_comp. cbn [g_in g_out g_coef a_in a_out]. f_equal; [|lia]. rewrite k_map_map. apply k_map_ext. intros i Hi. rewrite Forall_forall in G1. destruct (G1 i Hi) as [n [Hn _]].
    unfold shift. cbn [il io]. f_equal. assert (Hl : il i < length (s_ins ss)) by (eapply nth_error_Some_lt; eauto).
    destruct (nth_error_Some_ex (a_in sa) (il i)) as [u Hu]; [lia|]. destruct (nth_error_Some_ex (a_in a) (il i)) as [v Hv]; [lia|].
    assert (Ha : nth_error (add_offs (a_in sa) (a_in a)) (il i) = Some (u + v)).
    { unfold add_offs. rewrite nth_error_map. clear -Hu Hv. revert Hu Hv. generalize (a_in sa) (a_in a) (il i). intros x y j. revert x y. induction j as [|j IH]; intros [|x0 x] [|y0 y] Hu Hv; cbn in *; try discriminate; [congruence|auto]. }
    rewrite (nth_error_nth _ _ 0 Ha), (nth_error_nth _ _ 0 Hu), (nth_error_nth _ _ 0 Hv). lia.
  Qed.

  (* ------------------------------------------------------------ the map of children *)
  Definition cflat {B} (g : nat -> Alloc -> list B) (m : list (nat * list Alloc)) : list B := flat_map (fun ch => flat_map (g (fst ch)) (snd ch)) m.
  Lemma child_add_flat {B} (g : nat -> Alloc -> list B) m id als : Permutation (cflat g (child_add m id als)) (cflat g m ++ flat_map (g id) als).
  Proof.
    induction m as [|[j l] m IH]; cbn [child_add]; [cbn; rewrite app_nil_r; auto|]. destruct (Nat.eqb_spec j id) as [->|Hn]; unfold cflat in *; cbn [flat_map fst snd].
    - rewrite flat_map_app. rewrite <- !app_assoc. apply Permutation_app_head. apply Permutation_app_comm.
    - rewrite <- app_assoc. apply Permutation_app_head. auto.
  Qed.
  Lemma child_add_in m id als ch : In ch (child_add m id als) -> In ch m \/ (fst ch = id /\ (snd ch = als \/ exists l, In (id, l) m /\ snd ch = l ++ als)).
  Proof.
    induction m as [|[j l] m IH]; cbn [child_add]; [intros [<-|[]]; right; auto|]. destruct (Nat.eqb_spec j id) as [->|Hn].
    - intros [<-|H]; [right; split; auto; right; exists l; split; [left; auto|auto]|left; right; auto].
    - intros [<-|H]; [left; left; auto|]. apply IH in H. destruct H as [H|[H1 [H2|[l0 [H2 H3]]]]]; [left; right; auto|right; auto|]. right. split; auto. right. exists l0. split; [right; auto|auto].
  Qed.
  Definition ech_src (exp : nat -> bool) (prev : list Segment) (ch : nat * list Alloc) : list (nat * list Alloc) :=
    if exp (fst ch) then map (fun sch => (fst sch, flat_map (fun sa => map (fun a => alloc_comp a sa) (snd ch)) (snd sch))) (s_children (nth_seg prev (fst ch))) else [ch].
  Definition adds (m l : list (nat * list Alloc)) : list (nat * list Alloc) := fold_left (fun m ch => child_add m (fst ch) (snd ch)) l m.
  Lemma adds_app m a b : adds m (a ++ b) = adds (adds m a) b.
  Proof. apply fold_left_app. Qed.
  Lemma expand_children_adds exp prev (s : Segment) : expand_children exp prev s = adds [] (flat_map (ech_src exp prev) (s_children s)).
  Proof.
    unfold expand_children. generalize (@nil (nat * list Alloc)). induction (s_children s) as [|ch chs IH]; intros m; cbn [fold_left flat_map]; auto. rewrite adds_app, IH. f_equal. unfold ech_src.
    destruct (exp (fst ch)); [|auto]. generalize (s_children (nth_seg prev (fst ch))) as l. clear. intros l. revert m. induction l as [|x l IH]; intros m; cbn [fold_left map adds fst snd]; auto. apply IH.
  Qed.
  Lemma adds_flat {B} (g : nat -> Alloc -> list B) l : forall m, Permutation (cflat g (adds m l)) (cflat g m ++ cflat g l).
  Proof.
    induction l as [|ch l IH]; intros m; cbn [adds fold_left]; [cbn; rewrite app_nil_r; auto|]. fold (adds (child_add m (fst ch) (snd ch)) l). rewrite IH, child_add_flat. unfold cflat. cbn [flat_map]. rewrite <- app_assoc. auto.
  Qed.
  (* every child of the result collects allocations of children with its id *)
  Lemma adds_in l : forall m ch a, In ch (adds m l) -> In a (snd ch) -> exists ch0, In ch0 (m ++ l) /\ fst ch0 = fst ch /\ In a (snd ch0).
  Proof.
    induction l as [|x l IH]; intros m ch a H Ha; cbn [adds fold_left] in H; [exists ch; rewrite app_nil_r; auto|]. destruct (IH _ _ _ H Ha) as [ch0 [H1 [H2 H3]]]. apply in_app_or in H1. destruct H1 as [H1|H1].
    - apply child_add_in in H1. destruct H1 as [H1|[H1 [H4|[l0 [H4 H5]]]]].
      + exists ch0. split; auto. apply in_or_app; auto.
      + exists x. split; [apply in_or_app; right; left; auto|]. split; [congruence|]. rewrite <- H4; auto.
      + rewrite H5 in H3. apply in_app_or in H3. destruct H3 as [H3|H3].
        * exists (fst x, l0). split; [apply in_or_app; auto|]. split; [cbn; congruence|auto].
        * exists x. split; [apply in_or_app; right; left; auto|]. split; [congruence|auto].
    - exists ch0. split; auto. apply in_or_app. right; right; auto.
  Qed.
  Lemma adds_nonempty l : forall m, Forall (fun ch => snd ch <> []) m -> Forall (fun ch => snd ch <> []) l -> Forall (fun ch => snd ch <> []) (adds m l).
  Proof.
    induction l as [|x l IH]; intros m Hm Hl; cbn [adds fold_left]; auto. inversion Hl; subst. apply IH; auto. apply Forall_forall. intros ch Hch. rewrite Forall_forall in Hm. apply child_add_in in Hch. destruct Hch as [H|[H3 [H4|[l0 [H4 H5]]]]]; auto.
    - rewrite H4. auto.
    - rewrite H5. intros E. apply app_eq_nil in E. destruct E as [_ E]. auto.
  Qed.
  Lemma adds_ids l : forall m ch, In ch (adds m l) -> exists ch0, In ch0 (m ++ l) /\ fst ch0 = fst ch.
  Proof.
    induction l as [|x l IH]; intros m ch H; cbn [adds fold_left] in H; [exists ch; rewrite app_nil_r; auto|]. destruct (IH _ _ H) as [ch0 [H1 H2]]. apply in_app_or in H1. destruct H1 as [H1|H1]; [|exists ch0; split; auto; apply in_or_app; right; right; auto].
    apply child_add_in in H1. destruct H1 as [H1|[H1 _]]; [exists ch0; split; auto; apply in_or_app; auto|]. exists x. split; [apply in_or_app; right; left; auto|congruence].
  Qed.

  (* ------------------------------------------------------------ expanding one segment *)
  Lemma off_gate_uni {A} (m : (Inp -> Inp) -> A -> A) (k : A -> Kind) (a : Alloc) (g : Gate A) : (forall f x, k (m f x) = k_map f (k x)) -> uni k (off_gate m a g) = ushift a (uni k g).
  Proof. intros H. unfold uni, off_gate, ushift. cbn [g_in g_out g_coef]. rewrite H. f_equal. lia. Qed.
  Lemma expand_gates_ul {A} (m : (Inp -> Inp) -> A -> A) (k : A -> Kind) get exp prev (s : Segment) : (forall f x, k (m f x) = k_map f (k x)) ->
    ul k (expand_gates m get exp prev s) = ul k (get s) ++ flat_map (fun ch => if exp (fst ch) then flat_map (fun a => map (ushift a) (ul k (get (nth_seg prev (fst ch))))) (snd ch) else []) (s_children s).
  Proof.
    intros H. unfold expand_gates, ul. rewrite map_app. f_equal. rewrite flat_map_concat_map, concat_map, map_map, <- flat_map_concat_map. apply flat_map_ext. intros ch. destruct (exp (fst ch)); auto.
    rewrite flat_map_concat_map, concat_map, map_map, <- flat_map_concat_map. apply flat_map_ext. intros a. rewrite !map_map. apply map_ext. intros g. apply off_gate_uni; auto.
  Qed.
  Lemma flat_map_app_fun {A B} (f g : A -> list B) l : Permutation (flat_map (fun x => f x ++ g x) l) (flat_map f l ++ flat_map g l).
  Proof.
    induction l as [|x l IH]; cbn [flat_map]; auto. rewrite IH. rewrite <- !app_assoc. apply Permutation_app_head. rewrite !app_assoc. apply Permutation_app_tail. apply Permutation_app_comm.
  Qed.
  Lemma flat_map_perm_ext {A B} (f g : A -> list B) l : (forall x, In x l -> Permutation (f x) (g x)) -> Permutation (flat_map f l) (flat_map g l).
  Proof. induction l as [|x l IH]; intros H; cbn [flat_map]; auto. apply Permutation_app; [apply H; left; auto|apply IH; intros; apply H; right; auto]. Qed.
  Lemma perm4 {B} (a1 a2 a3 a4 b1 b2 b3 b4 : list B) : Permutation ((a1 ++ b1) ++ (a2 ++ b2) ++ (a3 ++ b3) ++ (a4 ++ b4)) ((a1 ++ a2 ++ a3 ++ a4) ++ (b1 ++ b2 ++ b3 ++ b4)).
  Proof.
    rewrite <- !app_assoc. apply Permutation_app_head. rewrite (Permutation_app_swap_app b1 a2). apply Permutation_app_head.
    rewrite (Permutation_app_swap_app b2 a3), (Permutation_app_swap_app b1 a3). apply Permutation_app_head.
    rewrite (Permutation_app_swap_app b3 a4), (Permutation_app_swap_app b2 a4), (Permutation_app_swap_app b1 a4). auto.
  Qed.
  Lemma expand_gates_perm exp prev (s : Segment) : Permutation (seg_gates (expand_segment exp prev s))
    (seg_gates s ++ flat_map (fun ch => if exp (fst ch) then flat_map (fun a => map (ushift a) (seg_gates (nth_seg prev (fst ch)))) (snd ch) else []) (s_children s)).
  Proof.
    rewrite !seg_gates_ul. unfold expand_segment. cbn [seg_set s_muls s_adds s_consts s_customs]. rewrite !expand_gates_ul by (intros; reflexivity). rewrite perm4. apply Permutation_app_head.
    rewrite <- !flat_map_app_fun. apply flat_map_perm_ext. intros ch _. destruct (exp (fst ch)); [|auto]. rewrite <- !flat_map_app_fun. apply flat_map_perm_ext. intros a _. rewrite <- !map_app. rewrite seg_gates_ul. auto.
  Qed.
  Lemma cflat_isort {B} (g : nat -> Alloc -> list B) m : Permutation (cflat g (map (fun ch => (fst ch, isort alloc_leb (snd ch))) m)) (cflat g m).
  Proof. unfold cflat. induction m as [|ch m IH]; cbn [map flat_map fst snd]; auto. apply Permutation_app; auto. apply Permutation_flat_map. apply isort_perm. Qed.

  (* ------------------------------------------------------------ expanding all segments *)
  Section All.
    Variable nl : nat. Variables used exp : nat -> bool. Variable segs : list Segment.
    Hypothesis G : forall i s, nth_error segs i = Some s -> sgood nl segs i s.
    Definition ex := expand_all used exp segs.
    Lemma expand_all_gen (l : list Segment) : forall prev : list Segment, let r := fold_left (fun prev s => prev ++ [if used (length prev) then expand_segment exp prev s else s]) l prev in
      length r = length prev + length l /\ firstn (length prev) r = prev /\
      forall j s, nth_error l j = Some s -> nth_error r (length prev + j) = Some (if used (length prev + j) then expand_segment exp (firstn (length prev + j) r) s else s).
    Proof.
      induction l as [|x l IH]; intros prev; cbn [fold_left].
      - split; [cbn; lia|]. split; [apply firstn_all|]. intros [|j] s H; discriminate.
      - set (p := prev ++ [if used (length prev) then expand_segment exp prev x else x]). destruct (IH p) as [A [B C]]. cbn zeta in *. assert (Hp : length p = S (length prev)) by (unfold p; rewrite app_length; cbn; lia).
        split; [cbn [length]; lia|]. assert (Hf : firstn (length prev) (fold_left (fun prev s => prev ++ [if used (length prev) then expand_segment exp prev s else s]) l p) = prev).
        { rewrite Hp in B. transitivity (firstn (length prev) p); [|unfold p; rewrite firstn_app, firstn_all, Nat.sub_diag; cbn; apply app_nil_r]. rewrite <- B at 2. rewrite firstn_firstn. f_equal. lia. }
        split; auto. intros [|j] s Hj; cbn in Hj.
        + injection Hj as <-. rewrite Nat.add_0_r, Hf. rewrite <- (firstn_skipn (length p) (fold_left _ l p)), B. rewrite nth_error_app1 by lia. unfold p. rewrite nth_error_app2, Nat.sub_diag by lia. auto.
        + specialize (C j s Hj). rewrite Hp in C. replace (length prev + S j) with (S (length prev) + j) by lia. exact C.
    Qed.
    Lemma ex_len : length ex = length segs.
    Proof. destruct (expand_all_gen segs []) as [A _]. exact A. Qed.
    Lemma expand_segment_ext p1 p2 (s : Segment) : (forall ch, In ch (s_children s) -> nth_seg p1 (fst ch) = nth_seg p2 (fst ch)) -> expand_segment exp p1 s = expand_segment exp p2 s.
    Proof.
      intros H. unfold expand_segment. rewrite !expand_children_adds.
      assert (Hg : forall A (m : (Inp -> Inp) -> A -> A) get, expand_gates m get exp p1 s = expand_gates m get exp p2 s).
      { intros A m get. unfold expand_gates. f_equal. apply flat_map_ext_in. intros ch Hch. rewrite (H ch Hch). auto. }
      rewrite !Hg. assert (Hc : flat_map (ech_src exp p1) (s_children s) = flat_map (ech_src exp p2) (s_children s)); [|rewrite Hc; auto].
      apply flat_map_ext_in. intros ch Hch. unfold ech_src. rewrite (H ch Hch). auto.
    Qed.
    Lemma ex_nth i s : nth_error segs i = Some s -> nth_error ex i = Some (if used i then expand_segment exp ex s else s).
    Proof.
      intros Hi. destruct (expand_all_gen segs []) as [_ [_ C]]. specialize (C i s Hi). cbn [length Nat.add] in C. fold (expand_all used exp segs) in C. fold ex in C. rewrite C. f_equal. destruct (used i); auto. apply expand_segment_ext.
      intros ch Hch. destruct (G i s Hi) as [_ [_ [_ [_ Gc]]]]. rewrite Forall_forall in Gc. destruct (Gc ch Hch) as [Hlt _]. unfold nth_seg. assert (Hl := nth_error_Some_lt _ _ _ Hi).
      rewrite <- (firstn_skipn i ex) at 2. rewrite app_nth1; auto. rewrite firstn_length, ex_len. lia.
    Qed.
    Lemma ex_sizes i s : nth_error segs i = Some s -> exists s', nth_error ex i = Some s' /\ s_ins s' = s_ins s /\ s_outs s' = s_outs s.
    Proof. intros H. eexists. split; [apply ex_nth; eauto|]. destruct (used i); auto. Qed.
    Lemma nth_seg_error (l : list Segment) i s : nth_error l i = Some s -> nth_seg l i = s.
    Proof. intros H. apply nth_error_nth; auto. Qed.

    Lemma agood_sizes (s s1 t t1 : Segment) a : s_ins s1 = s_ins s -> s_outs s1 = s_outs s -> s_ins t1 = s_ins t -> s_outs t1 = s_outs t -> agood s t a -> agood s1 t1 a.
    Proof. intros H1 H2 H3 H4. unfold agood. rewrite H1, H2, H3, H4. auto. Qed.
    Lemma gate_ok_shift nl0 (sub s : Segment) a g : agood sub s a -> length (s_ins sub) <= length (s_ins s) -> gate_ok nl0 sub g = true -> gate_ok nl0 s (ushift a g) = true.
    Proof.
      intros [A1 [A2 [A3 A4]]] Hl. unfold gate_ok. rewrite !andb_true_iff. intros [H1 H2]. cbn [ushift g_in g_out]. rewrite k_ins_map. split.
      - rewrite forallb_forall in H1 |- *. intros i Hi. apply in_map_iff in Hi. destruct Hi as [j [<- Hj]]. specialize (H1 j Hj). cbn [shift il io]. apply andb_true_iff in H1. destruct H1 as [H1 H3]. rewrite H1.
        destruct (nth_error (s_ins sub) (il j)) as [y|] eqn:Ey; [|discriminate]. assert (Hlt := nth_error_Some_lt _ _ _ Ey). destruct (nth_error_Some_ex (s_ins s) (il j)) as [z Hz]; [lia|]. destruct (nth_error_Some_ex (a_in a) (il j)) as [x Hx]; [lia|].
        rewrite Hz, (nth_error_nth _ _ 0 Hx). cbn [andb]. apply Nat.ltb_lt in H3. apply Nat.ltb_lt. destruct (A4 _ _ _ _ Hx Ey Hz). lia.
      - apply Nat.ltb_lt in H2. apply Nat.ltb_lt. lia.
    Qed.
    Theorem ex_good : forall i s, nth_error ex i = Some s -> sgood nl ex i s.
    Proof.
      induction i as [i IH] using lt_wf_ind. intros s Hs. assert (Hlt := nth_error_Some_lt _ _ _ Hs). rewrite ex_len in Hlt. destruct (nth_error_Some_ex _ _ Hlt) as [s0 Hs0]. rewrite (ex_nth i s0 Hs0) in Hs. injection Hs as <-.
      destruct (G i s0 Hs0) as [G1 [G2 [G3 [G4 G5]]]].
      assert (Hbase : Forall (cgood ex i s0) (s_children s0)).
      { eapply Forall_impl; [|exact G5]. intros ch [C1 [sub [C2 [C3 C4]]]]. split; auto. destruct (ex_sizes _ _ C2) as [sub' [D1 [D2 D3]]]. exists sub'. split; auto. rewrite D2. split; auto. eapply Forall_impl; [|exact C4]. intros a. apply agood_sizes; auto. }
      destruct (used i); [|split; auto].
      split; [exact G1|]. split; [exact G2|]. split; [exact G3|]. split.
      - apply forallb_forall. intros g Hg. apply (Permutation_in _ (expand_gates_perm exp ex s0)) in Hg. change (gate_ok nl (expand_segment exp ex s0) g) with (gate_ok nl s0 g).
        apply in_app_or in Hg. destruct Hg as [Hg|Hg]; [rewrite forallb_forall in G4; auto|]. apply in_flat_map in Hg. destruct Hg as [ch [Hch Hg]]. destruct (exp (fst ch)); [|destruct Hg]. apply in_flat_map in Hg. destruct Hg as [a [Ha Hg]]. apply in_map_iff in Hg. destruct Hg as [g0 [<- Hg]].
        rewrite Forall_forall in Hbase. destruct (Hbase ch Hch) as [C1 [sub [C2 [C3 C4]]]]. rewrite (nth_seg_error _ _ _ C2) in Hg. rewrite Forall_forall in C4. destruct (IH _ C1 _ C2) as [_ [_ [_ [I4 _]]]]. rewrite forallb_forall in I4. eapply gate_ok_shift; eauto.
      - apply Forall_forall. intros ch Hch. cbn [expand_segment seg_set s_children] in Hch. apply in_map_iff in Hch. destruct Hch as [ch1 [<- Hch]]. rewrite expand_children_adds in Hch. cbn [fst snd].
        assert (Hsrc : forall ch0, In ch0 (flat_map (ech_src exp ex) (s_children s0)) -> cgood ex i s0 ch0).
        { intros ch0 H0. apply in_flat_map in H0. destruct H0 as [ch2 [H2 H0]]. rewrite Forall_forall in Hbase. assert (B := Hbase ch2 H2). unfold ech_src in H0. destruct (exp (fst ch2)); [|destruct H0 as [<-|[]]; auto].
          apply in_map_iff in H0. destruct H0 as [sch [<- Hsch]]. destruct B as [C1 [sub [C2 [C3 C4]]]]. rewrite (nth_seg_error _ _ _ C2) in Hsch. destruct (IH _ C1 _ C2) as [I1 [_ [I3 [_ I5]]]]. rewrite Forall_forall in I5.
          destruct (I5 sch Hsch) as [D1 [ss [D2 [D3 D4]]]]. destruct (IH (fst sch) ltac:(lia) _ D2) as [J1 [_ [J3 _]]]. split; [cbn; lia|]. exists ss. cbn [fst snd]. split; auto. split; [lia|]. apply Forall_forall. intros a Ha. apply in_flat_map in Ha. destruct Ha as [sa [Hsa Ha]]. apply in_map_iff in Ha. destruct Ha as [a0 [<- Ha]].
          assert (D4s := proj1 (Forall_forall _ _) D4 _ Hsa). assert (C4a := proj1 (Forall_forall _ _) C4 _ Ha). apply (agood_comp ss sub s0); auto. }
        destruct (adds_ids _ _ _ Hch) as [ch0 [H0 H1]]. cbn [app] in H0. destruct (Hsrc ch0 H0) as [C1 [sub [C2 [C3 C4]]]]. split; [cbn; lia|]. exists sub. cbn [fst snd]. split; [rewrite <- H1; auto|]. split; auto.
        apply Forall_forall. intros a Ha. apply (Permutation_in _ (isort_perm alloc_leb (snd ch1))) in Ha. destruct (adds_in _ _ _ _ Hch Ha) as [ch3 [X1 [X2 X3]]]. cbn [app] in X1. destruct (Hsrc ch3 X1) as [_ [sub3 [Y2 [_ Y4]]]].
        assert (sub3 = sub) by congruence. subst. rewrite Forall_forall in Y4. apply (agood_sizes sub sub s0); auto.
    Qed.
    Definition place (id : nat) (sg : list Segment) (a : Alloc) : list UG := map (ushift a) (fl sg id).
    Lemma fl_unfold (sg : list Segment) id s : wf_segs sg -> nth_error sg id = Some s -> fl sg id = seg_gates s ++ cflat (fun j a => place j sg a) (s_children s).
    Proof.
      intros W Hs. unfold fl at 1. assert (Hlt := nth_error_Some_lt _ _ _ Hs). destruct (length sg) as [|n] eqn:El; [lia|]. cbn [flat]. rewrite Hs. f_equal. unfold cflat. apply flat_map_ext_in. intros ch Hch. apply flat_map_ext_in. intros a _.
      unfold place, fl. f_equal. destruct (W id s Hs) as [_ [_ Wc]]. rewrite Forall_forall in Wc. destruct (Wc ch Hch) as [H1 _]. apply flat_fuel; auto; lia.
    Qed.
    Theorem ex_flat : forall i, i < length segs -> Permutation (fl segs i) (fl ex i).
    Proof.
      assert (W := sgood_wf nl segs G). assert (W' := sgood_wf nl ex ex_good).
      induction i as [i IH] using lt_wf_ind. intros Hi. destruct (nth_error_Some_ex _ _ Hi) as [s Hs]. destruct (G i s Hs) as [_ [_ [_ [_ G5]]]]. rewrite Forall_forall in G5.
      rewrite (fl_unfold segs i s W Hs), (fl_unfold ex i _ W' (ex_nth i s Hs)).
      assert (Hch : Permutation (cflat (fun j a => place j segs a) (s_children s)) (cflat (fun j a => place j ex a) (s_children s))).
      { unfold cflat. apply flat_map_perm_ext. intros ch Hch. apply flat_map_perm_ext. intros a _. apply Permutation_map. destruct (G5 ch Hch) as [H1 _]. apply IH; lia. }
      destruct (used i); [|apply Permutation_app_head; auto].
      rewrite expand_gates_perm. rewrite <- app_assoc. apply Permutation_app_head. rewrite Hch. cbn [expand_segment seg_set s_children]. rewrite cflat_isort, expand_children_adds, adds_flat. cbn [app]. unfold cflat at 2. cbn [flat_map app].
      unfold cflat. rewrite flat_map_concat_map. rewrite (flat_map_concat_map (ech_src exp ex)). rewrite <- (flat_map_concat_map _ (s_children s)).
      assert (He : flat_map (fun ch => flat_map (fun a => place (fst ch) ex a) (snd ch)) (concat (map (ech_src exp ex) (s_children s))) = flat_map (fun ch => flat_map (fun ch => flat_map (fun a => place (fst ch) ex a) (snd ch)) (ech_src exp ex ch)) (s_children s)).
      { generalize (s_children s). clear. induction l as [|x l IH]; cbn; auto. rewrite flat_map_app, IH. auto. }
      rewrite He. rewrite <- flat_map_app_fun. apply flat_map_perm_ext. intros ch Hin. unfold ech_src. destruct (exp (fst ch)) eqn:Ee; [|cbn; rewrite app_nil_r; auto].
      destruct (G5 ch Hin) as [C1 [sub [C2 [C3 C4]]]]. destruct (ex_sizes _ _ C2) as [sub' [D1 [D2 D3]]]. rewrite (nth_seg_error _ _ _ D1).
      (* the flattened child is its gates and its children *)
      assert (Hp : forall a, place (fst ch) ex a = map (ushift a) (seg_gates sub') ++ cflat (fun j sa => map (ushift a) (place j ex sa)) (s_children sub')).
      { intros a. unfold place at 1. rewrite (fl_unfold ex _ _ W' D1), map_app. f_equal. unfold cflat. rewrite flat_map_concat_map, concat_map, map_map, <- flat_map_concat_map. apply flat_map_ext. intros sch. rewrite flat_map_concat_map, concat_map, map_map, <- flat_map_concat_map. auto. }
      rewrite (flat_map_ext _ _ Hp). rewrite flat_map_app_fun. apply Permutation_app_head.
      (* swap the order of allocations and compose them *)
      assert (Hc : forall chs, (forall sch, In sch chs -> In sch (s_children sub')) ->
        Permutation (flat_map (fun a => cflat (fun j sa => map (ushift a) (place j ex sa)) chs) (snd ch))
          (flat_map (fun ch0 => flat_map (fun a => place (fst ch0) ex a) (snd ch0)) (map (fun sch => (fst sch, flat_map (fun sa => map (fun a => alloc_comp a sa) (snd ch)) (snd sch))) chs))).
      { induction chs as [|sch chs IHc]; intros Hsub; [cbn; rewrite flat_map_concat_map; clear; induction (snd ch); cbn; auto|]. cbn [map flat_map fst snd]. unfold cflat. cbn [flat_map]. rewrite flat_map_app_fun. apply Permutation_app; [|apply IHc; intros; apply Hsub; right; auto].
        destruct (ex_good _ _ D1) as [_ [_ [_ [_ E5]]]]. rewrite Forall_forall in E5. destruct (E5 sch (Hsub sch (or_introl eq_refl))) as [H1 [ss [H2 [H3 H4]]]]. revert H4. generalize (snd sch) as sas. induction sas as [|sa sas IHs]; intros H4; [cbn; clear; induction (snd ch); cbn; auto|].
        cbn [flat_map]. rewrite flat_map_app. rewrite flat_map_app_fun. inversion H4 as [|? ? A4 H5]; subst. apply Permutation_app; auto. rewrite (flat_map_concat_map _ (map _ _)), map_map, <- flat_map_concat_map. apply flat_map_perm_ext. intros a Ha. unfold place. rewrite map_map.
        assert (Hm : map (ushift (alloc_comp a sa)) (fl ex (fst sch)) = map (fun x => ushift a (ushift sa x)) (fl ex (fst sch))); [|rewrite Hm; auto].
        apply map_ext_in. intros g Hg. pose proof (flat_inb ex W' (length ex) _ _ H2) as Hf. rewrite Forall_forall in Hf, C4. destruct A4 as [L1 _]. destruct (C4 a Ha) as [L2 _]. apply (ushift_comp ss sub'); auto; congruence. }
      apply Hc; auto.
    Qed.
    (* used segments have used children: nothing that is dropped is referred to *)
    Hypothesis used_child : forall i s ch, nth_error segs i = Some s -> used i = true -> In ch (s_children s) -> used (fst ch) = true.
    Hypothesis exp_used : forall i, exp i = true -> used i = true.
    Lemma ex_child : forall i s ch, nth_error ex i = Some s -> used i = true -> In ch (s_children s) -> used (fst ch) = true /\ exp (fst ch) = false.
    Proof.
      induction i as [i IH] using lt_wf_ind. intros s ch Hs Hu Hch. assert (Hlt := nth_error_Some_lt _ _ _ Hs). rewrite ex_len in Hlt. destruct (nth_error_Some_ex _ _ Hlt) as [s0 Hs0]. rewrite (ex_nth i s0 Hs0), Hu in Hs. injection Hs as <-.
      cbn [expand_segment seg_set s_children] in Hch. apply in_map_iff in Hch. destruct Hch as [ch1 [<- Hch]]. rewrite expand_children_adds in Hch. destruct (adds_ids _ _ _ Hch) as [ch0 [H0 H1]]. cbn [app fst] in *. rewrite <- H1. apply in_flat_map in H0. destruct H0 as [ch2 [H2 H0]].
      assert (U2 := used_child _ _ _ Hs0 Hu H2). unfold ech_src in H0. destruct (exp (fst ch2)) eqn:Ee; [|destruct H0 as [<-|[]]; auto]. apply in_map_iff in H0. destruct H0 as [sch [<- Hsch]]. cbn [fst].
      destruct (G i s0 Hs0) as [_ [_ [_ [_ G5]]]]. rewrite Forall_forall in G5. destruct (G5 ch2 H2) as [C1 [sub [C2 _]]]. destruct (ex_sizes _ _ C2) as [sub' [D1 _]]. rewrite (nth_seg_error _ _ _ D1) in Hsch. apply (IH (fst ch2) C1 sub' sch D1 U2 Hsch).
    Qed.
    Lemma ex_nonempty : nonempty segs -> nonempty ex.
    Proof.
      intros Hn. assert (H : forall i s, nth_error ex i = Some s -> Forall (fun ch => snd ch <> []) (s_children s)).
      { induction i as [i IH] using lt_wf_ind. intros s Hs. assert (Hlt := nth_error_Some_lt _ _ _ Hs). rewrite ex_len in Hlt. destruct (nth_error_Some_ex _ _ Hlt) as [s0 Hs0]. rewrite (ex_nth i s0 Hs0) in Hs. injection Hs as <-.
        assert (Hb : Forall (fun ch => snd ch <> []) (s_children s0)) by (apply Forall_forall; intros ch Hch; apply (Hn s0); auto; eapply nth_error_In; eauto).
        destruct (used i); auto. cbn [expand_segment seg_set s_children]. rewrite expand_children_adds. apply Forall_forall. intros ch Hch. apply in_map_iff in Hch. destruct Hch as [ch1 [<- Hch]]. cbn [snd].
        assert (Ha : Forall (fun ch => snd ch <> []) (adds [] (flat_map (ech_src exp ex) (s_children s0)))).
        { apply adds_nonempty; auto. apply Forall_forall. intros ch0 H0. apply in_flat_map in H0. destruct H0 as [ch2 [H2 H0]]. rewrite Forall_forall in Hb. unfold ech_src in H0. destruct (exp (fst ch2)) eqn:Ee; [|destruct H0 as [<-|[]]; auto].
          apply in_map_iff in H0. destruct H0 as [sch [<- Hsch]]. cbn [snd]. destruct (G i s0 Hs0) as [_ [_ [_ [_ G5]]]]. rewrite Forall_forall in G5. destruct (G5 ch2 H2) as [C1 [sub [C2 _]]]. destruct (ex_sizes _ _ C2) as [sub' [D1 _]]. rewrite (nth_seg_error _ _ _ D1) in Hsch.
          specialize (IH _ C1 _ D1). rewrite Forall_forall in IH. specialize (IH sch Hsch). specialize (Hb ch2 H2). destruct (snd sch); [congruence|]. destruct (snd ch2); [congruence|]. cbn. discriminate. }
        rewrite Forall_forall in Ha. specialize (Ha _ Hch). intros E. apply Ha. apply Permutation_nil. rewrite <- E. apply isort_perm. }
      intros s ch Hs Hch. apply In_nth_error in Hs. destruct Hs as [i Hi]. specialize (H i s Hi). rewrite Forall_forall in H. auto.
    Qed.
  End All.
End LEx.
