(* find_common_parts keeps what a layered circuit computes. *)
From Verif Require Import Prelude Field Zp Expr Topo Ir UnionFind Sorting Layered LayeredFacts LayeredOpt LayeredOptFacts LayeredOptSim LayeredExpand LayeredExpandAll.

Definition rooted (par : list nat) (i r : nat) : Prop := exists k, steps par i k r.
Lemma rooted_det par i r r' : rooted par i r -> rooted par i r' -> r = r'.
Proof. intros [k H] [k' H']. destruct (steps_det _ _ _ _ H _ _ H'); auto. Qed.
Lemma rooted_self par i r : rooted par i r -> rooted par r r.
Proof. intros [k H]. exists 0. constructor. eapply steps_root; eauto. Qed.
Lemma rooted_lt n par i r : uf_inv n par -> rooted par i r -> r < n.
Proof. intros [Hl _] [k H]. apply steps_root in H. apply nth_error_Some_lt in H. lia. Qed.
Lemma uf_find_ok n par x : uf_inv n par -> x < n -> exists r par', uf_find par x = Some (r, par') /\ rooted par x r /\ uf_inv n par' /\ (forall i q, rooted par i q <-> rooted par' i q).
Proof. intros H Hx. destruct (find_spec n par x H Hx) as [r [k [par' [A [B [C [D1 D2]]]]]]]. exists r, par'. split; auto. split; [exists k; auto|]. split; auto. Qed.
Lemma uf_union_ok n par x y : uf_inv n par -> rooted par x x -> rooted par y y -> exists par', uf_union par x y = Some par' /\ uf_inv n par' /\ (forall i r, rooted par i r -> rooted par' i (if r =? x then y else r)).
Proof.
  intros H Hx Hy. assert (Lx := rooted_lt _ _ _ _ H Hx). assert (Ly := rooted_lt _ _ _ _ H Hy). unfold uf_union.
  destruct (uf_find_ok n par x H Lx) as [rx [p1 [A1 [A2 [A3 A4]]]]]. rewrite A1. cbn [obind]. assert (rx = x) by (eapply rooted_det; eauto). subst rx.
  destruct (uf_find_ok n p1 y A3 Ly) as [ry [p2 [B1 [B2 [B3 B4]]]]]. rewrite B1. cbn [obind]. assert (ry = y) by (eapply rooted_det; [exact B2|apply A4; auto]). subst ry.
  assert (Hl : length p2 = n) by (apply B3). unfold vset. destruct (Nat.ltb_spec x (length p2)); [|lia]. exists (upd p2 x y). split; auto.
  assert (Hx2 : nth_error p2 x = Some x). { destruct (proj1 (B4 _ _) (proj1 (A4 _ _) Hx)) as [k S]. apply steps_root in S. auto. }
  assert (Hy2 : nth_error p2 y = Some y). { destruct (proj1 (B4 _ _) (proj1 (A4 _ _) Hy)) as [k S]. apply steps_root in S. auto. }
  assert (Hst : forall i r, rooted par i r -> rooted (upd p2 x y) i (if r =? x then y else r)).
  { intros i r Hr. apply A4 in Hr. apply B4 in Hr. destruct Hr as [k S]. apply (link_steps p2 x y Hx2 Hy2 _ _ _ S). }
  split; auto. split; [rewrite upd_length; auto|]. intros z Hz. destruct (proj2 H z Hz) as [k [r S]]. destruct (Hst z r) as [k' S']; [exists k; auto|]. eauto.
Qed.

Section LCo.
  Context {F : Fld} {MD : Mode}.
  Add Field LCof : (fth F).
  Notation UG := (UG F). Notation Segment := (Segment F). Notation LCircuit := (LCircuit F). Notation Gate := (Gate F).

  Lemma ug_set_in (l : list UG) g : In g (ug_set l) <-> In g l.
  Proof.
    induction l as [|x l IH]; [reflexivity|]. change (ug_set (x :: l)) with (if ug_mem x (ug_set l) then ug_set l else x :: ug_set l). destruct (ug_mem x (ug_set l)) eqn:E.
    - apply ug_mem_spec in E. split; [intros H; right; apply IH; auto|]. intros [<-|H]; auto. apply IH; auto.
    - split; (intros [<-|H]; [left; auto|right; apply IH; auto]).
  Qed.
  Lemma ug_set_nodup (l : list UG) : NoDup (ug_set l).
  Proof.
    induction l as [|x l IH]; [constructor|]. change (ug_set (x :: l)) with (if ug_mem x (ug_set l) then ug_set l else x :: ug_set l). destruct (ug_mem x (ug_set l)) eqn:E; auto. constructor; auto. intros H. apply ug_mem_spec in H. congruence.
  Qed.

  (* ------------------------------------------------------------ the groups *)
  Section Groups.
    Variable segs : list Segment.
    Notation n := (length segs).
    Definition ginv (par : list nat) (groups : list (list UG)) : Prop :=
      uf_inv n par /\ length groups = n /\
      forall i s r, nth_error segs i = Some s -> rooted par i r -> exists g, nth_error groups r = Some g /\ NoDup g /\ incl g (seg_gates s).
    Lemma ginv_same par par' groups : ginv par groups -> uf_inv n par' -> (forall i q, rooted par i q <-> rooted par' i q) -> ginv par' groups.
    Proof. intros [_ [G2 G3]] H1 H2. split; auto. split; auto. intros i s r Hs Hr. apply (G3 i s r); auto. apply H2; auto. Qed.
    Lemma ginv_root par groups r : ginv par groups -> rooted par r r -> exists g, nth_error groups r = Some g /\ NoDup g.
    Proof.
      intros [G1 [G2 G3]] Hr. assert (L := rooted_lt _ _ _ _ G1 Hr). destruct (nth_error_Some_ex segs r L) as [s Hs]. destruct (G3 r s r Hs Hr) as [g [A [B _]]]. eauto.
    Qed.
    Lemma inter_in (a b : list UG) g : In g (inter a b) <-> In g a /\ In g b.
    Proof. unfold inter. rewrite filter_In, ug_mem_spec. reflexivity. Qed.
    Lemma ginv_merge par groups x y gx gy par' : ginv par groups -> rooted par x x -> rooted par y y -> x <> y -> nth_error groups x = Some gx -> nth_error groups y = Some gy ->
      uf_inv n par' -> (forall i r, rooted par i r -> rooted par' i (if r =? x then y else r)) -> ginv par' (upd groups y (inter gx gy)).
    Proof.
      intros G Hx Hy Hne Egx Egy Hi Hr'. assert (G0 := G). destruct G0 as [G1 [G2 G3]]. split; auto. split; [rewrite upd_length; auto|]. intros i s r Hs Hr.
      assert (Li : i < n) by (eapply nth_error_Some_lt; eauto). destruct (proj2 G1 i Li) as [k [r0 S]]. assert (R0 : rooted par i r0) by (exists k; auto).
      assert (E := rooted_det _ _ _ _ Hr (Hr' _ _ R0)). destruct (G3 i s r0 Hs R0) as [g [A [B C]]]. assert (Ly : y < length groups) by (eapply nth_error_Some_lt; eauto).
      assert (Nd : NoDup (inter gx gy)). { apply NoDup_filter. destruct (ginv_root _ _ _ G Hx) as [g' [X1 X2]]. congruence. }
      destruct (Nat.eqb_spec r0 x) as [->|H1].
      - subst r. rewrite nth_error_upd_eq by auto. eexists. split; [reflexivity|]. split; auto. assert (g = gx) by congruence. subst. intros z Hz. apply inter_in in Hz. apply C. tauto.
      - subst r. destruct (Nat.eq_dec r0 y) as [->|H2].
        + rewrite nth_error_upd_eq by auto. eexists. split; [reflexivity|]. split; auto. assert (g = gy) by congruence. subst. intros z Hz. apply inter_in in Hz. apply C. tauto.
        + rewrite nth_error_upd_ne by auto. eauto.
    Qed.
    Lemma merge_groups_ok edges : Forall (fun e => fst e < n /\ snd e < n) edges -> forall par groups, ginv par groups -> exists par' groups', merge_groups edges par groups = Some (par', groups') /\ ginv par' groups'.
    Proof.
      induction 1 as [|[i j] edges [Hi Hj] Hf IH]; intros par groups G; cbn [merge_groups]; [eauto|]. cbn [fst snd] in *. assert (G1 : uf_inv n par) by apply G.
      destruct (uf_find_ok n par i G1 Hi) as [x0 [p1 [A1 [A2 [A3 A4]]]]]. rewrite A1. cbn [obind]. assert (Ga := ginv_same _ _ _ G A3 A4).
      destruct (uf_find_ok n p1 j A3 Hj) as [y0 [p2 [B1 [B2 [B3 B4]]]]]. rewrite B1. cbn [obind]. assert (Gb := ginv_same _ _ _ Ga B3 B4).
      destruct (Nat.eqb_spec x0 y0) as [|Hne]; [apply IH; auto|].
      assert (Rx : rooted p2 x0 x0) by (apply B4, A4; eapply rooted_self; eauto). assert (Ry : rooted p2 y0 y0) by (apply B4; eapply rooted_self; eauto).
      destruct (ginv_root _ _ _ Gb Rx) as [gx0 [X1 X2]]. destruct (ginv_root _ _ _ Gb Ry) as [gy0 [Y1 Y2]]. rewrite X1, Y1. cbn [obind].
      assert (Hstep : forall x y gx gy, rooted p2 x x -> rooted p2 y y -> x <> y -> nth_error groups x = Some gx -> nth_error groups y = Some gy ->
        exists par' groups', (if length (filter (fun g => ug_mem g gx) gy) <? 10 then merge_groups edges p2 groups
          else let* par0 := uf_union p2 x y in let* (r, par1) := uf_find par0 x in merge_groups edges par1 (upd groups r (inter gx gy))) = Some (par', groups') /\ ginv par' groups').
      { intros x y gx gy Hx Hy Hn Egx Egy. destruct (_ <? 10); [apply IH; auto|]. destruct (uf_union_ok n p2 x y B3 Hx Hy) as [p3 [C1 [C2 C3]]]. rewrite C1. cbn [obind].
        assert (Lx := rooted_lt _ _ _ _ B3 Hx). destruct (uf_find_ok n p3 x C2 Lx) as [r [p4 [D1 [D2 [D3 D4]]]]]. rewrite D1. cbn [obind].
        assert (r = y). { eapply rooted_det; [exact D2|]. specialize (C3 x x Hx). rewrite Nat.eqb_refl in C3. auto. } subst r.
        apply IH. apply (ginv_same p3); auto. apply (ginv_merge p2 groups x y gx gy p3); auto. }
      destruct (length gx0 <? length gy0); apply Hstep; auto.
    Qed.
    Lemma uf_roots_ok l : forall par, uf_inv n par -> (forall i, In i l -> i < n) -> exists rs, uf_roots par l = Some rs /\ Forall2 (fun i r => rooted par i r) l rs.
    Proof.
      induction l as [|i l IH]; intros par Hi Hl; cbn [uf_roots]; [exists []; auto|]. destruct (uf_find_ok n par i Hi (Hl i (or_introl eq_refl))) as [r [p1 [A1 [A2 [A3 A4]]]]]. rewrite A1. cbn [obind].
      destruct (IH p1 A3) as [rs [B1 B2]]; [intros; apply Hl; right; auto|]. rewrite B1. cbn [obind]. exists (r :: rs). split; auto. constructor; auto. eapply F2_impl; [|exact B2]. intros a b. apply A4.
    Qed.
    Lemma ginv_init : ginv (uf_new n) (map (fun s => ug_set (seg_gates s)) segs).
    Proof.
      destruct (repr_new n) as [Hi _]. split; auto. split; [apply map_length|]. intros i s r Hs Hr. assert (Li : i < n) by (eapply nth_error_Some_lt; eauto).
      assert (r = i). { eapply rooted_det; [exact Hr|]. exists 0. constructor. unfold uf_new. rewrite nth_error_seq by auto. auto. } subst.
      exists (ug_set (seg_gates s)). split; [rewrite nth_error_map, Hs; auto|]. split; [apply ug_set_nodup|]. intros g. apply ug_set_in.
    Qed.
  End Groups.

  (* ------------------------------------------------------------ the common segment *)
  Lemma uni_perm (l : list UG) : Permutation (ul k_mul (flat_map get_mul l) ++ ul KAdd (flat_map get_add l) ++ ul k_const (flat_map get_const l) ++ ul k_custom (flat_map get_custom l)) l.
  Proof.
    induction l as [|[k o c] l IH]; [auto|]. cbn [flat_map]. unfold ul in *. rewrite !map_app. rewrite perm4. rewrite IH. destruct k as [a b|a| |t ls]; reflexivity.
  Qed.
  Lemma from_uni_perm (l : list UG) : Permutation (seg_gates (from_uni_gates l)) l.
  Proof.
    rewrite <- (uni_perm l) at 2. rewrite seg_gates_ul. cbn [from_uni_gates s_muls s_adds s_consts s_customs]. repeat apply Permutation_app; apply Permutation_map; apply gsort_perm.
  Qed.
  Lemma list_max_ge l x : In x l -> x <= list_max l.
  Proof. intros H. assert (X := proj1 (list_max_le l (list_max l)) (le_n _)). rewrite Forall_forall in X. auto. Qed.
  Lemma list_max_lt l b : 0 < b -> (forall x, In x l -> x < b) -> list_max l < b.
  Proof. intros Hb H. destruct b; [lia|]. apply Nat.lt_succ_r. apply list_max_le. apply Forall_forall. intros x Hx. specialize (H x Hx). lia. Qed.
  Section Common.
    Variable nl : nat. Variable segs : list Segment. Variable i : nat. Variable s : Segment.
    Hypothesis G : sgood nl segs i s. Variable g : list UG. Hypothesis Hg : incl g (seg_gates s).
    Lemma gate_in x : In x g -> gate_ok nl s x = true.
    Proof. intros Hx. destruct G as [_ [_ [_ [G4 _]]]]. rewrite forallb_forall in G4. apply G4. apply Hg; auto. Qed.
    Lemma wire_in w : In w (all_ins g) -> il w < nl /\ exists m, nth_error (s_ins s) (il w) = Some m /\ io w < m.
    Proof.
      intros Hw. apply in_flat_map in Hw. destruct Hw as [x [Hx Hw]]. apply gate_in in Hx. unfold gate_ok in Hx. apply andb_true_iff in Hx. destruct Hx as [Hx _]. rewrite forallb_forall in Hx. specialize (Hx w Hw).
      apply andb_true_iff in Hx. destruct Hx as [H1 H2]. apply Nat.ltb_lt in H1. split; auto. destruct (nth_error (s_ins s) (il w)) as [m|]; [|discriminate]. apply Nat.ltb_lt in H2. eauto.
    Qed.
    Lemma layers_le : max_layers g <= length (s_ins s).
    Proof.
      destruct G as [_ [G2 _]]. unfold max_layers. apply Nat.max_lub; [destruct (s_ins s); cbn; [congruence|lia]|]. apply list_max_le. apply Forall_forall. intros x Hx. apply in_map_iff in Hx. destruct Hx as [w [<- Hw]].
      destruct (wire_in w Hw) as [_ [m [H1 _]]]. apply nth_error_Some_lt in H1. lia.
    Qed.
    Lemma com_ins_nth l y : nth_error (s_ins (from_uni_gates g)) l = Some y -> y = next_power_of_two (max_offset g l + 1) /\ l < max_layers g.
    Proof.
      cbn [from_uni_gates s_ins]. rewrite nth_error_map. destruct (nth_error (seq 0 (max_layers g)) l) as [l'|] eqn:E; [|discriminate]. assert (Hl := nth_error_Some_lt _ _ _ E). rewrite seq_length in Hl.
      rewrite nth_error_seq in E by auto. injection E as <-. intros H. injection H as <-. auto.
    Qed.
    Lemma com_ins_le l y z : nth_error (s_ins (from_uni_gates g)) l = Some y -> nth_error (s_ins s) l = Some z -> y <= z.
    Proof.
      intros Hy Hz. apply com_ins_nth in Hy. destruct Hy as [-> _]. destruct G as [G1 _]. rewrite Forall_forall in G1. destruct (G1 z (nth_error_In _ _ Hz)) as [k Hk]. rewrite Hk. apply next_power_of_two_spec. rewrite <- Hk.
      assert (Hz0 : 0 < z). { rewrite Hk. assert (2 ^ k <> 0) by (apply Nat.pow_nonzero; lia). lia. }
      assert (max_offset g l < z); [|lia]. apply list_max_lt; auto. intros x Hx. apply in_map_iff in Hx. destruct Hx as [w [<- Hw]]. apply filter_In in Hw. destruct Hw as [Hw Hl]. apply Nat.eqb_eq in Hl.
      destruct (wire_in w Hw) as [_ [m [H1 H2]]]. rewrite Hl in H1. assert (m = z) by congruence. lia.
    Qed.
    Lemma com_out_le : s_outs (from_uni_gates g) <= s_outs s.
    Proof.
      cbn [from_uni_gates s_outs]. destruct G as [_ [_ [[k Hk] _]]]. rewrite Hk. apply next_power_of_two_spec. rewrite <- Hk.
      assert (Hz0 : 0 < s_outs s). { rewrite Hk. assert (2 ^ k <> 0) by (apply Nat.pow_nonzero; lia). lia. }
      assert (list_max (map (fun g => g_out g) g) < s_outs s); [|lia]. apply list_max_lt; auto. intros x Hx. apply in_map_iff in Hx. destruct Hx as [y [<- Hy]]. apply gate_in in Hy. unfold gate_ok in Hy. apply andb_true_iff in Hy. destruct Hy as [_ Hy]. apply Nat.ltb_lt in Hy. auto.
    Qed.
    Lemma com_good segs' j : sgood nl segs' j (from_uni_gates g).
    Proof.
      split; [|split; [|split; [|split]]].
      - apply Forall_forall. intros y Hy. apply In_nth_error in Hy. destruct Hy as [l Hl]. apply com_ins_nth in Hl. destruct Hl as [-> _]. apply next_power_of_two_spec.
      - cbn [from_uni_gates s_ins]. unfold max_layers. destruct (list_max (map (fun i => S (il i)) (all_ins g))); discriminate.
      - cbn. apply next_power_of_two_spec.
      - apply forallb_forall. intros x Hx. apply (Permutation_in _ (from_uni_perm g)) in Hx. unfold gate_ok. apply andb_true_iff. split.
        + apply forallb_forall. intros w Hw. assert (Hin : In w (all_ins g)) by (apply in_flat_map; eauto). destruct (wire_in w Hin) as [H1 [m [H2 H3]]]. apply andb_true_iff. split; [apply Nat.ltb_lt; auto|].
          assert (Hl : il w < max_layers g). { unfold max_layers. apply Nat.lt_le_trans with (S (il w)); [lia|]. etransitivity; [|apply Nat.le_max_r]. apply list_max_ge. apply in_map_iff. exists w. auto. }
          assert (Hn : nth_error (s_ins (from_uni_gates g)) (il w) = Some (next_power_of_two (max_offset g (il w) + 1))). { cbn. rewrite nth_error_map, nth_error_seq by auto. auto. }
          rewrite Hn. apply Nat.ltb_lt. assert (Hm : io w <= max_offset g (il w)). { apply list_max_ge. apply in_map_iff. exists w. split; auto. apply filter_In. split; auto. apply Nat.eqb_refl. }
          destruct (next_power_of_two_spec (max_offset g (il w) + 1)) as [_ [H4 _]]. lia.
        + apply Nat.ltb_lt. assert (Hm : g_out x <= list_max (map (fun g => g_out g) g)) by (apply list_max_ge; apply in_map_iff; eauto). destruct (next_power_of_two_spec (list_max (map (fun g => g_out g) g) + 1)) as [_ [H4 _]]. change (s_outs (from_uni_gates g)) with (next_power_of_two (list_max (map (fun g => g_out g) g) + 1)). lia.
      - constructor.
    Qed.
    Definition zal (k : nat) : Alloc := {| a_in := repeat 0 k; a_out := 0 |}.
    Lemma com_agood : agood (from_uni_gates g) s (zal (length (s_ins (from_uni_gates g)))).
    Proof.
      unfold agood, zal. cbn [a_in a_out]. split; [apply repeat_length|]. destruct (com_good [] 0) as [C1 [_ [[k Ck] _]]]. split; [apply Nat.mod_0_l; rewrite Ck; apply Nat.pow_nonzero; lia|]. split; [apply com_out_le|].
      intros l x y z Hx Hy Hz. assert (x = 0). { apply nth_error_In in Hx. apply repeat_spec in Hx. auto. } subst. split; [|apply com_ins_le with l; auto].
      rewrite Forall_forall in C1. destruct (C1 y (nth_error_In _ _ Hy)) as [k2 ->]. apply Nat.mod_0_l. apply Nat.pow_nonzero; lia.
    Qed.
  End Common.
  Lemma ushift_zero k (x : UG) : ushift (zal k) x = x.
  Proof.
    destruct x as [kd o c]. unfold ushift, zal. cbn [g_in g_out g_coef a_in a_out Nat.add]. f_equal.
    assert (H : forall i, shift (repeat 0 k) i = i). { intros [l o']. unfold shift. cbn [il io]. f_equal. rewrite nth_repeat. auto. }
    destruct kd; cbn; rewrite ?H; auto. f_equal. rewrite <- (map_id l) at 2. apply map_ext. auto.
  Qed.
  Lemma remove_gates_gates (s : Segment) l : seg_gates (remove_gates s l) = filter (fun g => negb (ug_mem g l)) (seg_gates s).
  Proof.
    rewrite !seg_gates_ul. unfold remove_gates. cbn [seg_set s_muls s_adds s_consts s_customs]. rewrite !filter_app.
    assert (H : forall A (k : A -> Kind) (x : list (Gate A)), ul k (filter (fun g => negb (ug_mem (uni k g) l)) x) = filter (fun g => negb (ug_mem g l)) (ul k x)).
    { intros A k x. induction x as [|y x IH]; cbn [filter ul map]; auto. destruct (negb (ug_mem (uni k y) l)); cbn [ul map]; unfold ul in *; rewrite IH; auto. }
    rewrite !H. auto.
  Qed.
  (* a gate with a random coefficient, twice or once: the same, when the coefficient may be any value *)
  Lemma rnd_twice (g : UG) : full = true -> g_coef g = CRandom -> fequiv [g; g] [g].
  Proof.
    intros Hf Hc. split; [split; [|split; [|split]]|].
    - intros E w cs D H. inversion H as [|? p ? l' P Hl]; subst. inversion Hl as [|? q ? l2 Q Hl2]; subst. inversion Hl2; subst. destruct P as [P1 [r [_ P2]]]. destruct Q as [Q1 [r' [_ Q2]]].
      exists [(g_out g, fmul (kindw E w (g_in g)) (fadd r r'))]. split; [constructor; [|constructor]; split; auto; exists (fadd r r'); split; auto; rewrite Hc; apply D; auto|].
      intros o. rewrite !at_out_cons. cbn [fst snd]. rewrite P1, Q1, P2, Q2. destruct (g_out g =? o); ring.
    - intros E w cs D H. inversion H as [|? p ? l' P Hl]; subst. inversion Hl; subst. destruct P as [P1 [r [P0 P2]]].
      exists [p; (g_out g, f0)]. split; [constructor; [split; [auto|exists r; auto]|constructor; [|constructor]]; split; auto; exists f0; split; [rewrite Hc; apply D; auto|cbn; ring]|].
      intros o. rewrite !at_out_cons. cbn [fst snd]. destruct (fst p =? o), (g_out g =? o); ring.
    - intros i Hi. cbn [all_ins flat_map] in *. apply in_or_app. auto.
    - unfold nconst. cbn [filter]. rewrite Hc, Hf. cbn. auto.
    - intros o. cbn. tauto.
  Qed.
  Lemma rnd_many (g : UG) n : full = true -> g_coef g = CRandom -> fequiv (repeat g (S n)) [g].
  Proof.
    intros Hf Hc. induction n as [|n IH]; [apply fe_refl|]. change (repeat g (S (S n))) with ([g] ++ repeat g (S n)). eapply fe_trans; [apply fe_app; [apply fe_refl|exact IH]|]. apply rnd_twice; auto.
  Qed.
  Lemma filter_same (g : UG) gs : filter (ug_eqb g) gs = repeat g (length (filter (ug_eqb g) gs)).
  Proof. induction gs as [|h gs IH]; auto. cbn [filter]. destruct (ug_eqb g h) eqn:E; auto. apply ug_eqb_spec in E. subst h. cbn [length repeat]. congruence. Qed.
  Lemma filter_negb_perm {A} (f : A -> bool) l : Permutation l (filter (fun x => negb (f x)) l ++ filter f l).
  Proof.
    induction l as [|x l IH]; auto. cbn [filter]. destruct (f x); cbn [negb]; [|cbn; constructor; auto]. apply Permutation_cons_app. auto.
  Qed.
  Definition single (gs : list UG) : Prop := forall g, In g gs -> length (filter (ug_eqb g) gs) = 1 \/ full = true /\ g_coef g = CRandom.
  Lemma pull_one (g : UG) gs : In g gs -> (length (filter (ug_eqb g) gs) = 1 \/ full = true /\ g_coef g = CRandom) -> fequiv gs (filter (fun x => negb (ug_eqb g x)) gs ++ [g]).
  Proof.
    intros Hg Hc. eapply fe_trans; [apply fe_perm; apply (filter_negb_perm (ug_eqb g))|]. apply fe_app; [apply fe_refl|]. rewrite filter_same. destruct Hc as [->|[Hf Hc]]; [apply fe_refl|].
    destruct (length (filter (ug_eqb g) gs)) as [|n] eqn:E; [|apply rnd_many; auto]. apply length_zero_iff_nil in E. assert (X : In g (filter (ug_eqb g) gs)) by (apply filter_In; split; auto; apply ug_eqb_spec; auto). rewrite E in X. destruct X.
  Qed.
  Lemma filter_comm {A} (f f' : A -> bool) l : filter f (filter f' l) = filter (fun x => f' x && f x) l.
  Proof. induction l as [|x l IH]; auto. cbn [filter]. destruct (f' x); cbn [filter andb]; [destruct (f x); congruence|auto]. Qed.
  Lemma split_fe (gs g : list UG) : single gs -> NoDup g -> incl g gs -> fequiv gs (filter (fun x => negb (ug_mem x g)) gs ++ g).
  Proof.
    intros Hs. induction g as [|x g IH]; intros Hn Hi.
    - rewrite app_nil_r. cbn [ug_mem existsb negb]. assert (E : forall l : list UG, filter (fun _ => true) l = l) by (induction l as [|y l IHl]; cbn; congruence). rewrite E. apply fe_refl.
    - inversion Hn as [|? ? N1 N2]; subst. assert (Hx : In x gs) by (apply Hi; left; auto). eapply fe_trans; [apply IH; auto; intros y Hy; apply Hi; right; auto|]. change (x :: g) with ([x] ++ g). rewrite app_assoc. apply fe_app; [|apply fe_refl].
      assert (E : filter (fun y => negb (ug_mem y (x :: g))) gs = filter (fun y => negb (ug_eqb x y)) (filter (fun y => negb (ug_mem y g)) gs)).
      { rewrite filter_comm. apply filter_ext. intros y. cbn [ug_mem existsb]. fold (ug_mem y g). assert (Es : ug_eqb y x = ug_eqb x y).
        { destruct (ug_eqb x y) eqn:A; [apply ug_eqb_spec in A; subst; apply ug_eqb_spec; auto|]. destruct (ug_eqb y x) eqn:B; auto. apply ug_eqb_spec in B. subst. rewrite <- A. symmetry. apply ug_eqb_spec; auto. }
        rewrite Es. destruct (ug_eqb x y), (ug_mem y g); auto. }
      cbn [app]. rewrite E. apply pull_one.
      + apply filter_In. split; auto. apply negb_true_iff. destruct (ug_mem x g) eqn:M; auto. apply ug_mem_spec in M. contradiction.
      + destruct (Hs x Hx) as [L|R]; auto. left. rewrite filter_comm. rewrite <- L. f_equal. apply filter_ext. intros y. destruct (ug_eqb x y) eqn:A; [|apply andb_false_r]. apply ug_eqb_spec in A. subst y.
        destruct (ug_mem x g) eqn:M; auto. apply ug_mem_spec in M. contradiction.
  Qed.
  Lemma nodup_single (gs : list UG) : NoDup (filter cst gs) -> NoDup (filter nconst gs) -> single gs.
  Proof.
    assert (H1 : forall l (g : UG), NoDup l -> In g l -> length (filter (ug_eqb g) l) = 1).
    { induction l as [|x l IH]; intros g Hn Hg; [destruct Hg|]. inversion Hn as [|? ? N1 N2]; subst. cbn [filter]. destruct (ug_eqb g x) eqn:E.
      - apply ug_eqb_spec in E. subst x. cbn [length]. f_equal. destruct (filter (ug_eqb g) l) as [|y r] eqn:Ef; auto. assert (X : In y (filter (ug_eqb g) l)) by (rewrite Ef; left; auto). apply filter_In in X. destruct X as [X1 X2]. apply ug_eqb_spec in X2. subst. contradiction.
      - destruct Hg as [->|Hg]; [|apply IH; auto]. rewrite (proj2 (ug_eqb_spec g g) eq_refl) in E. discriminate. }
    assert (H2 : forall (f : UG -> bool) l (g : UG), f g = true -> filter (ug_eqb g) (filter f l) = filter (ug_eqb g) l).
    { intros f l g Hf. rewrite filter_comm. apply filter_ext. intros y. destruct (ug_eqb g y) eqn:A; [|apply andb_false_r]. apply ug_eqb_spec in A. subst. rewrite Hf. auto. }
    intros Hc Hr g Hg. destruct (g_coef g) as [c| |p] eqn:Eg.
    - assert (Hf : cst g = true) by (unfold cst; rewrite Eg; auto). left. rewrite <- (H2 cst) by auto. apply H1; auto. apply filter_In. auto.
    - destruct full eqn:Ef; auto. assert (Hf : nconst g = true) by (unfold nconst; rewrite Eg, Ef; auto). left. rewrite <- (H2 nconst) by auto. apply H1; auto. apply filter_In. auto.
    - assert (Hf : nconst g = true) by (unfold nconst; rewrite Eg; auto). left. rewrite <- (H2 nconst) by auto. apply H1; auto. apply filter_In. auto.
  Qed.
  Lemma find_index_some r l ci : find_index r l = Some ci -> nth_error l ci = Some r.
  Proof.
    unfold find_index. assert (H : forall l i, (fix go (i : nat) (l : list nat) := match l with [] => None | x :: l => if x =? r then Some i else go (S i) l end) i l = Some ci -> i <= ci /\ nth_error l (ci - i) = Some r).
    { induction l0 as [|x l0 IH]; intros i H; [discriminate|]. destruct (Nat.eqb_spec x r) as [->|].
      - injection H as <-. rewrite Nat.sub_diag. auto.
      - apply IH in H. destruct H as [H1 H2]. split; [lia|]. replace (ci - i) with (S (ci - S i)) by lia. auto. }
    intros E. apply H in E. rewrite Nat.sub_0_r in E. tauto.
  Qed.

  (* ------------------------------------------------------------ the pass *)
  Theorem find_common_spec (c : LCircuit) edges : good c -> cdist c -> Forall (fun e => fst e < length (l_segs c) /\ snd e < length (l_segs c)) edges ->
    exists c', find_common_parts edges c = Some c' /\ good c' /\ lequiv c c' /\ cdist c'.
  Proof.
    intros [Hv [Hn Hd]] Hcd He. unfold find_common_parts. set (segs := l_segs c) in *. set (nl := length (l_layers c)).
    assert (G := valid_good c Hv). fold segs nl in G. assert (W := sgood_wf nl segs G).
    destruct (merge_groups_ok segs edges He _ _ (ginv_init segs)) as [par [groups [A1 A2]]]. rewrite A1. cbn [obind]. destruct A2 as [A2 [A3 A4]].
    destruct (uf_roots_ok segs (seq 0 (length segs)) par A2) as [roots [B1 B2]]; [intros i Hi; apply in_seq in Hi; lia|]. rewrite B1. cbn [obind].
    assert (Hroot : forall i, i < length segs -> rooted par i (nth i roots 0)).
    { intros i Hi. assert (Hl : length roots = length segs) by (rewrite <- (Forall2_len _ _ _ B2), seq_length; auto). destruct (nth_error_Some_ex roots i) as [r Hr]; [lia|]. rewrite (nth_error_nth _ _ 0 Hr).
      destruct (Forall2_nth_error _ _ _ B2 i i) as [r' [X1 X2]]; [apply nth_error_seq; auto|]. congruence. }
    set (commons := filter _ (seq 0 (length segs))). set (base := length commons). set (csegs := map (fun i => from_uni_gates (nth i groups [])) commons).
    set (mk := fun p : nat * Segment => _). set (c' := with_segs c _ _). exists c'. split; auto.
    (* the groups *)
    assert (Hgrp : forall id s, nth_error segs id = Some s -> NoDup (nth (nth id roots 0) groups []) /\ incl (nth (nth id roots 0) groups []) (seg_gates s)).
    { intros id s Hs. destruct (A4 id s (nth id roots 0) Hs) as [g [X1 [X2 X3]]]; [apply Hroot; eapply nth_error_Some_lt; eauto|]. rewrite (nth_error_nth _ _ [] X1). auto. }
    assert (Hcom : forall r, In r commons -> exists s, nth_error segs r = Some s /\ NoDup (nth r groups []) /\ incl (nth r groups []) (seg_gates s)).
    { intros r Hr. apply filter_In in Hr. destruct Hr as [Hr Hc]. apply in_seq in Hr. rewrite !andb_true_iff in Hc. destruct Hc as [[Hc _] _]. apply Nat.eqb_eq in Hc. destruct (nth_error_Some_ex segs r) as [s Hs]; [lia|]. exists s. split; auto. rewrite <- Hc at 1 2. apply Hgrp; auto. }
    set (s2 := fun id s => match find_index (nth id roots 0) commons with
        | None => seg_set s (map (fun ch => (base + fst ch, snd ch)) (s_children s)) (s_muls s) (s_adds s) (s_consts s) (s_customs s)
        | Some ci => let s2 := remove_gates (seg_set s (map (fun ch => (base + fst ch, snd ch)) (s_children s)) (s_muls s) (s_adds s) (s_consts s) (s_customs s)) (nth (nth id roots 0) groups []) in
            seg_set s2 (s_children s2 ++ [(ci, [ {| a_in := repeat 0 (length (s_ins (nth_seg csegs ci))); a_out := 0 |} ])]) (s_muls s2) (s_adds s2) (s_consts s2) (s_customs s2) end).
    set (sg := csegs ++ map mk (combine (seq 0 (length segs)) segs)) in *. assert (Hcl : length csegs = base) by (unfold csegs; rewrite map_length; auto).
    assert (Hsg1 : forall ci r, nth_error commons ci = Some r -> nth_error sg ci = Some (from_uni_gates (nth r groups []))).
    { intros ci r Hr. unfold sg. apply nth_error_app_l. unfold csegs. rewrite nth_error_map, Hr. auto. }
    assert (Hsg2 : forall id s, nth_error segs id = Some s -> nth_error sg (base + id) = Some (seg_dedup (s2 id s))).
    { intros id s Hs. unfold sg. rewrite nth_error_app2 by lia. replace (base + id - length csegs) with id by lia. rewrite nth_error_map.
      assert (Hc : nth_error (combine (seq 0 (length segs)) segs) id = Some (id, s)).
      { clear -Hs. assert (Hgen : forall (l : list Segment) k, nth_error l id = Some s -> nth_error (combine (seq k (length l)) l) id = Some (k + id, s)).
        { clear. revert id. induction id as [|id IH]; intros [|x l] k H; cbn in *; try discriminate; [injection H as ->; rewrite Nat.add_0_r; auto|]. rewrite IH by auto. f_equal. f_equal. lia. }
        apply (Hgen segs 0); auto. }
      rewrite Hc. cbn [option_map]. reflexivity. }
    assert (Hsg3 : forall j s', nth_error sg j = Some s' -> (exists r, nth_error commons j = Some r /\ s' = from_uni_gates (nth r groups [])) \/ exists id s, j = base + id /\ nth_error segs id = Some s /\ s' = seg_dedup (s2 id s)).
    { intros j s' Hj. destruct (Nat.lt_ge_cases j base) as [Hlt|Hge].
      - left. destruct (nth_error_Some_ex commons j Hlt) as [r Hr]. exists r. split; auto. rewrite (Hsg1 _ _ Hr) in Hj. congruence.
      - right. assert (Hl := nth_error_Some_lt _ _ _ Hj). unfold sg in Hl. rewrite app_length, map_length, combine_length, seq_length, Nat.min_id, Hcl in Hl. destruct (nth_error_Some_ex segs (j - base)) as [s Hs]; [lia|].
        exists (j - base), s. split; [lia|]. split; auto. pose proof (Hsg2 _ _ Hs) as X. replace (base + (j - base)) with j in X by lia. congruence. }
    (* gates of a rewritten segment *)
    assert (Hs2g : forall id s, nth_error segs id = Some s -> incl (seg_gates (s2 id s)) (seg_gates s)).
    { intros id s Hs x Hx. unfold s2 in Hx. destruct (find_index _ _); [|exact Hx]. cbn zeta in Hx. match type of Hx with In _ (seg_gates (seg_set ?t _ _ _ _ _)) => change (In x (seg_gates t)) in Hx end. rewrite remove_gates_gates in Hx. apply filter_In in Hx. exact (proj1 Hx). }
    assert (Hs2z : forall id s, s_ins (s2 id s) = s_ins s /\ s_outs (s2 id s) = s_outs s). { intros id s. unfold s2. destruct (find_index _ _); auto. }
    assert (Hs2fe : forall id s, nth_error segs id = Some s -> fequiv (seg_gates (s2 id s)) (seg_gates (seg_dedup (s2 id s)))).
    { intros id s Hs. apply seg_dedup_fe. destruct (Hs2z id s) as [_ Z]. rewrite Z. apply Forall_forall. intros x Hx. apply (Hs2g id s Hs) in Hx. pose proof (seg_gates_inb_out nl segs id s) as Y. rewrite Forall_forall in Y. apply Y; auto. apply seg_ok_iff. apply G; auto. }
    assert (Hs2c : forall id s, s_children (seg_dedup (s2 id s)) = map (fun ch => (base + fst ch, snd ch)) (s_children s) ++ match find_index (nth id roots 0) commons with None => [] | Some ci => [(ci, [zal (length (s_ins (nth_seg csegs ci)))])] end).
    { intros id s. unfold seg_dedup, s2. cbn [seg_set s_children]. destruct (find_index _ _); [|cbn [seg_set s_children]; rewrite app_nil_r; auto]. cbn zeta. cbn [seg_set s_children remove_gates]. auto. }
    assert (Hcs : forall ci r, nth_error commons ci = Some r -> nth_seg csegs ci = from_uni_gates (nth r groups [])).
    { intros ci r Hr. apply nth_error_nth. unfold csegs. rewrite nth_error_map, Hr. auto. }
    assert (Gsg : forall j s', nth_error sg j = Some s' -> sgood nl sg j s').
    { intros j s' Hj. destruct (Hsg3 j s' Hj) as [[r [Hr ->]]|[id [s [-> [Hs ->]]]]].
      - destruct (Hcom r (nth_error_In _ _ Hr)) as [s [X1 [X2 X3]]]. apply (com_good nl segs r s (G r s X1) _ X3).
      - destruct (G id s Hs) as [G1 [G2 [G3 [G4 G5]]]]. destruct (Hs2z id s) as [Z1 Z2].
        assert (Zi : s_ins (seg_dedup (s2 id s)) = s_ins s) by (exact Z1). assert (Zo : s_outs (seg_dedup (s2 id s)) = s_outs s) by (exact Z2).
        unfold sgood. rewrite Zi, Zo. split; [exact G1|]. split; [exact G2|]. split; [exact G3|]. split.
        + eapply (gates_ok_fe nl (s2 id s)); [exact eq_refl|exact eq_refl|apply Hs2fe; auto|]. apply forallb_forall. intros x Hx. apply (Hs2g id s Hs) in Hx. rewrite forallb_forall in G4. specialize (G4 x Hx). unfold gate_ok in *. rewrite Z1, Z2. auto.
        + rewrite Hs2c. apply Forall_forall. intros ch Hch. apply in_app_or in Hch. destruct Hch as [Hch|Hch].
          * apply in_map_iff in Hch. destruct Hch as [ch0 [<- Hch]]. rewrite Forall_forall in G5. destruct (G5 ch0 Hch) as [C1 [sub [C2 [C3 C4]]]]. split; [cbn; lia|]. exists (seg_dedup (s2 (fst ch0) sub)). cbn [fst snd]. split; [apply Hsg2; auto|].
            destruct (Hs2z (fst ch0) sub) as [Y1 Y2]. split; [rewrite Zi; change (s_ins (seg_dedup (s2 (fst ch0) sub))) with (s_ins (s2 (fst ch0) sub)); rewrite Y1; auto|]. eapply Forall_impl; [|exact C4]. intros a. apply agood_sizes; auto.
          * destruct (find_index (nth id roots 0) commons) as [ci|] eqn:Ef; [|destruct Hch]. destruct Hch as [<-|[]]. apply find_index_some in Ef. destruct (Hgrp id s Hs) as [X1 X2]. assert (Hci := nth_error_Some_lt _ _ _ Ef). fold base in Hci.
            split; [cbn; lia|]. exists (from_uni_gates (nth (nth id roots 0) groups [])). cbn [fst snd]. split; [apply Hsg1; auto|]. split; [rewrite Zi; cbn [from_uni_gates s_ins]; rewrite map_length, seq_length; eapply layers_le; [apply (G id s Hs)|exact X2]|].
            constructor; [|constructor]. rewrite (Hcs ci _ Ef). apply (agood_sizes (from_uni_gates (nth (nth id roots 0) groups [])) _ s); auto. eapply com_agood; [apply (G id s Hs)|exact X2]. }
    assert (Wsg := sgood_wf nl sg Gsg).
    assert (Hflc : forall ci r, nth_error commons ci = Some r -> Permutation (fl sg ci) (nth r groups [])).
    { intros ci r Hr. rewrite (fl_unfold sg ci _ Wsg (Hsg1 _ _ Hr)). cbn [from_uni_gates s_children cflat flat_map]. rewrite app_nil_r. apply from_uni_perm. }
    assert (Hnd : forall id s, nth_error segs id = Some s -> single (seg_gates s)).
    { intros id s Hs. apply nodup_single.
      - apply cdistinct_nodup. apply Hcd. eapply nth_error_In; eauto.
      - assert (X := Hd id (nth_error_Some_lt _ _ _ Hs)). rewrite (fl_unfold segs id s W Hs), filter_app in X. apply NoDup_app_iff in X. exact (proj1 X). }
    assert (Hfl : forall id, id < length segs -> fequiv (fl segs id) (fl sg (base + id))).
    { induction id as [id IH] using lt_wf_ind. intros Hi. destruct (nth_error_Some_ex segs id Hi) as [s Hs]. rewrite (fl_unfold segs id s W Hs), (fl_unfold sg _ _ Wsg (Hsg2 id s Hs)). rewrite Hs2c.
      assert (Hch : fequiv (cflat (fun j a => place j segs a) (s_children s)) (cflat (fun j a => place j sg a) (map (fun ch => (base + fst ch, snd ch)) (s_children s)))).
      { unfold cflat. rewrite (flat_map_concat_map _ (map _ _)), map_map, <- flat_map_concat_map. apply fe_flat_map. intros ch Hch. cbn [fst snd]. apply fe_flat_map. intros a _. apply fe_shift.
        destruct (G id s Hs) as [_ [_ [_ [_ G5]]]]. rewrite Forall_forall in G5. destruct (G5 ch Hch) as [C1 _]. apply IH; lia. }
      unfold cflat at 2. rewrite flat_map_app. fold (cflat (fun j a => place j sg a) (map (fun ch => (base + fst ch, snd ch)) (s_children s))).
      destruct (find_index (nth id roots 0) commons) as [ci|] eqn:Ef.
      - assert (Ef2 := Ef). apply find_index_some in Ef. destruct (Hgrp id s Hs) as [X1 X2]. cbn [flat_map fst snd]. rewrite !app_nil_r. unfold place at 3. rewrite (map_ext _ _ (ushift_zero _)), map_id.
        eapply fe_trans; [apply fe_app; [apply (split_fe _ _ (Hnd id s Hs) X1 X2)|apply fe_refl]|]. rewrite <- app_assoc.
        apply fe_app; [|eapply fe_trans; [apply fe_perm; apply Permutation_app_comm|]; apply fe_app; [exact Hch|apply fe_perm; symmetry; apply (Hflc ci); auto]].
        eapply fe_trans; [|apply (Hs2fe id s Hs)]. assert (Hgg : seg_gates (s2 id s) = filter (fun x => negb (ug_mem x (nth (nth id roots 0) groups []))) (seg_gates s)); [|rewrite Hgg; apply fe_refl].
        unfold s2. rewrite Ef2. cbn zeta. match goal with |- seg_gates (seg_set ?t _ _ _ _ _) = _ => change (seg_gates t = filter (fun x => negb (ug_mem x (nth (nth id roots 0) groups []))) (seg_gates s)) end. rewrite remove_gates_gates. auto.
      - cbn [flat_map]. rewrite app_nil_r. apply fe_app; [|exact Hch]. eapply fe_trans; [|apply (Hs2fe id s Hs)]. unfold s2. rewrite Ef. apply fe_refl. }
    assert (Hle : lequiv c c').
    { split; auto. split; auto. split; auto. exists (fun id => base + id). split; auto. intros id Hid. assert (Hlt := valid_layers c id Hv Hid). fold segs in Hlt. destruct (nth_error_Some_ex segs id Hlt) as [s Hs]. exists s, (seg_dedup (s2 id s)).
      destruct (Hs2z id s) as [Z1 Z2]. repeat split; auto. all: apply Hfl; auto. }
    split; [split; [|split]|split; [exact Hle|]].
    - apply (lequiv_valid c); auto. apply segs_ok_iff. exact Gsg.
    - intros s' ch Hs Hch. change (l_segs c') with sg in Hs. apply In_nth_error in Hs. destruct Hs as [j Hj]. destruct (Hsg3 j s' Hj) as [[r [Hr ->]]|[id [s [-> [Hs ->]]]]]; [destruct Hch|]. rewrite Hs2c in Hch. apply in_app_or in Hch. destruct Hch as [Hch|Hch].
      + apply in_map_iff in Hch. destruct Hch as [ch0 [<- Hch]]. cbn. apply (Hn s); auto. eapply nth_error_In; eauto.
      + destruct (find_index _ _); [destruct Hch as [<-|[]]; cbn; discriminate|destruct Hch].
    - intros j Hj. change (l_segs c') with sg in *. destruct (nth_error_Some_ex sg j Hj) as [s' Hs']. destruct (Hsg3 j s' Hs') as [[r [Hr ->]]|[id [s [-> [Hs ->]]]]].
      + destruct (Hcom r (nth_error_In _ _ Hr)) as [s [_ [X2 _]]]. apply NoDup_filter. eapply Permutation_NoDup; [symmetry; apply (Hflc j r Hr)|auto].
      + assert (Hlt := nth_error_Some_lt _ _ _ Hs). destruct (Hfl id Hlt) as [[_ [_ [_ Hp]]] _]. eapply Permutation_NoDup; [exact Hp|]. apply Hd; auto.
    - intros s' Hs. change (l_segs c') with sg in Hs. apply In_nth_error in Hs. destruct Hs as [j Hj]. destruct (Hsg3 j s' Hj) as [[r [Hr ->]]|[id [s [-> [Hs ->]]]]]; [|apply seg_dedup_distinct].
      destruct (Hcom r (nth_error_In _ _ Hr)) as [s [X1 [X2 X3]]]. eapply cdistinct_perm; [symmetry; apply from_uni_perm|]. assert (Hds : cdistinct (seg_gates s)) by (apply Hcd; eapply nth_error_In; eauto). unfold cdistinct in *.
      assert (Hinj : forall x y, In x (filter cst (nth r groups [])) -> In y (filter cst (nth r groups [])) -> ug_key x = ug_key y -> x = y).
      { intros x y Hx Hy E. apply filter_In in Hx, Hy. assert (Hx' : In x (filter cst (seg_gates s))) by (apply filter_In; split; [apply X3|]; tauto). assert (Hy' : In y (filter cst (seg_gates s))) by (apply filter_In; split; [apply X3|]; tauto).
        clear -Hds Hx' Hy' E. induction (filter cst (seg_gates s)) as [|z l IH]; [destruct Hx'|]. cbn [map] in Hds. inversion Hds as [|? ? N1 N2]; subst. destruct Hx' as [<-|Hx'], Hy' as [<-|Hy']; auto.
        - exfalso. apply N1. rewrite E. apply in_map; auto.
        - exfalso. apply N1. rewrite <- E. apply in_map; auto. }
      assert (Hnd2 : NoDup (filter cst (nth r groups []))) by (apply NoDup_filter; auto). clear -Hinj Hnd2. induction (filter cst (nth r groups [])) as [|z l IH]; [constructor|]. cbn [map]. inversion Hnd2; subst. constructor.
      + intros Hz. apply in_map_iff in Hz. destruct Hz as [y [Y1 Y2]]. assert (z = y) by (apply Hinj; cbn; auto). subst. auto.
      + apply IH; auto. intros x y Hx Hy. apply Hinj; right; auto.
  Qed.
End LCo.
