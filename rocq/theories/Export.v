(* Model of circuit/layered/export.rs and of the export functions in layered/mod.rs:113-128, 289-334, together with what the
   two prover formats mean.  The prover formats are types of the external crates expander_circuit and crosslayer_prototype:
   their meaning below (every wire of a layer is the sum of what the gates placed at it contribute, a segment has
   2^i_var_num inputs and 2^o_var_num outputs, a relay of layer l reads l layers back) is assumed, not read in /repo. *)
From Verif Require Import Prelude Field Zp Expr Topo Ir Layered LayeredFacts.

(* usize::trailing_zeros on a non-zero number *)
Fixpoint tz (fuel n : nat) : nat :=
  match fuel with 0 => 0 | S fuel => if (n =? 0) || Nat.odd n then 0 else S (tz fuel (n / 2)) end.
Definition trailing_zeros (n : nat) : nat := tz n n.

(* expander_circuit::CoefType *)
Inductive CT := TConst | TRand | TPub (i : nat).

Section Export.
  Context {F : Fld}.
  Open Scope nat_scope.
  Notation UG := (UG F). Notation Segment := (Segment F). Notation LCircuit := (LCircuit F).
  (* a gate of the prover format: input ids, output id, coefficient and coefficient type *)
  Record XG (A : Type) := { x_in : A; x_out : nat; x_c : F; x_t : CT }.
  Global Arguments x_in {A}. Global Arguments x_out {A}. Global Arguments x_c {A}. Global Arguments x_t {A}.
  (* expander_circuit::Segment, RecursiveCircuit *)
  Record XSeg := { xi_var : nat; xo_var : nat; x_muls : list (XG (nat * nat)); x_adds : list (XG nat); x_csts : list (XG unit);
    x_unis : list (XG (nat * nat)); x_kids : list (nat * list (nat * nat)) }.
  Record XCircuit := { xc_segs : list XSeg; xc_layers : list nat; xc_outs : nat; xc_pub : nat; xc_zeros : nat }.
  (* crosslayer_prototype::CrossLayerSegment, CrossLayerRecursiveCircuit; a relay is (layer, input, output, coefficient) *)
  Record CSeg := { c_in : list nat; c_out : nat; c_muls : list (XG (nat * nat)); c_adds : list (XG nat); c_csts : list (XG unit);
    c_relays : list (nat * nat * nat * F); c_kids : list (nat * list (list nat * nat)) }.
  Record CCircuit := { cc_segs : list CSeg; cc_layers : list nat; cc_outs : nat; cc_pub : nat; cc_zeros : nat }.

  (* ------------------------------------------------------------ the export *)
  (* layered/mod.rs:113-128 *)
  Definition ex_coef (c : Coef F) : F * CT :=
    match c with CConst c => (c, TConst) | CRandom => (f0, TRand) | CPub i => (f0, TPub i) end.
  Definition ex_gate {A B} (a : B) (g : Gate F A) : XG B :=
    {| x_in := a; x_out := g_out g; x_c := fst (ex_coef (g_coef g)); x_t := snd (ex_coef (g_coef g)) |}.
  (* layered/mod.rs:289-310 for two, one and no inputs *)
  Definition ex_mul (g : GMul (F := F)) : XG (nat * nat) := ex_gate (io (fst (g_in g)), io (snd (g_in g))) g.
  Definition ex_add (g : GAdd (F := F)) : XG nat := ex_gate (io (g_in g)) g.
  Definition ex_const (g : GConst (F := F)) : XG unit := ex_gate tt g.
  (* export.rs:37-47; inputs[0] panics on a gate without inputs *)
  Definition ex_uni (g : GCustom (F := F)) : option (XG (nat * nat)) :=
    let* i := hd_error (snd (g_in g)) in Some (ex_gate (fst (g_in g), io i) g).
  (* export.rs:48-64; get(0) *)
  Definition ex_alloc (a : Alloc) : option (nat * nat) := let* i := nth_error (a_in a) 0 in Some (i, a_out a).
  Definition ex_child (ch : nat * list Alloc) : option (nat * list (nat * nat)) := let* l := omap ex_alloc (snd ch) in Some (fst ch, l).
  (* export.rs:14-64 *)
  Definition ex_seg (s : Segment) : option XSeg :=
    let* n := nth_error (s_ins s) 0 in
    let* us := omap ex_uni (s_customs s) in
    let* ch := omap ex_child (s_children s) in
    Some {| xi_var := trailing_zeros n; xo_var := trailing_zeros (s_outs s); x_muls := map ex_mul (s_muls s); x_adds := map ex_add (s_adds s);
            x_csts := map ex_const (s_consts s); x_unis := us; x_kids := ch |}.
  (* export.rs:6-72 *)
  Definition export_normal (c : LCircuit) : option XCircuit :=
    let* segs := omap ex_seg (l_segs c) in
    Some {| xc_segs := segs; xc_layers := l_layers c; xc_outs := l_actual c; xc_pub := l_pub c; xc_zeros := l_zeroes c |}.

  (* layered/mod.rs:312-334: every input must be in layer 0 *)
  Definition simple_mul (g : GMul (F := F)) : option (XG (nat * nat)) :=
    if (il (fst (g_in g)) =? 0) && (il (snd (g_in g)) =? 0) then Some (ex_mul g) else None.
  (* export.rs:94-108 *)
  Fixpoint split_adds (gs : list (GAdd (F := F))) : option (list (XG nat) * list (nat * nat * nat * F)) :=
    match gs with
    | [] => Some ([], [])
    | g :: gs =>
        let* r := split_adds gs in
        if il (g_in g) =? 0 then Some (ex_add g :: fst r, snd r)
        else match ex_coef (g_coef g) with
             | (c, TConst) => Some (fst r, (il (g_in g), io (g_in g), g_out g, c) :: snd r)
             | _ => None
             end
    end.
  (* export.rs:91-141 *)
  Definition ex_cseg (s : Segment) : option CSeg :=
    let* ar := split_adds (s_adds s) in
    if length (s_customs s) =? 0 then
      let* ms := omap simple_mul (s_muls s) in
      Some {| c_in := s_ins s; c_out := s_outs s; c_muls := ms; c_adds := fst ar; c_csts := map ex_const (s_consts s); c_relays := snd ar;
              c_kids := map (fun ch => (fst ch, map (fun a => (a_in a, a_out a)) (snd ch))) (s_children s) |}
    else None.
  (* export.rs:82-152 *)
  Definition export_cross (c : LCircuit) : option CCircuit :=
    let* segs := omap ex_cseg (l_segs c) in
    Some {| cc_segs := segs; cc_layers := l_layers c; cc_outs := l_actual c; cc_pub := l_pub c; cc_zeros := l_zeroes c |}.

  (* ------------------------------------------------------------ meaning of the prover formats *)
  Inductive XKind := XMul (a b : nat) | XAdd (a : nat) | XCst | XUni (t a : nat) | XRelay (l a : nat).
  Definition xwire (cur : list (list F)) (l a : nat) : F := nth a (nth l cur []) f0.
  Definition xk_val (E : Env F) (cur : list (list F)) (k : XKind) : F :=
    match k with
    | XMul a b => fmul (xwire cur 0 a) (xwire cur 0 b) | XAdd a => xwire cur 0 a | XCst => f1
    | XUni t a => e_gate E t [xwire cur 0 a] | XRelay l a => xwire cur l a
    end.
  Definition ct_val (E : Env F) (c : F) (t : CT) (v : F) : Prop :=
    match t with TConst => v = c | TRand => e_rnd E v | TPub i => v = e_pub E i end.
  Definition x_contrib (E : Env F) (cur : list (list F)) (g : XG XKind) (ov : nat * F) : Prop :=
    fst ov = x_out g /\ exists c, ct_val E (x_c g) (x_t g) c /\ snd ov = fmul (xk_val E cur (x_in g)) c.
  (* the two kinds of segment seen as: input size, output size, gates, placed children *)
  Record VSeg := { v_in : nat; v_out : nat; v_gates : list (XG XKind); v_kids : list (nat * list (list nat * nat)) }.
  Definition xmap {A B} (f : A -> B) (g : XG A) : XG B := {| x_in := f (x_in g); x_out := x_out g; x_c := x_c g; x_t := x_t g |}.
  Definition view_x (s : XSeg) : VSeg :=
    {| v_in := 2 ^ xi_var s; v_out := 2 ^ xo_var s;
       v_gates := map (xmap (fun p => XMul (fst p) (snd p))) (x_muls s) ++ map (xmap XAdd) (x_adds s) ++ map (xmap (fun _ => XCst)) (x_csts s)
                  ++ map (xmap (fun p => XUni (fst p) (snd p))) (x_unis s);
       v_kids := map (fun ch => (fst ch, map (fun a => ([fst a], snd a)) (snd ch))) (x_kids s) |}.
  Definition relay (r : nat * nat * nat * F) : XG XKind := let '(l, i, o, c) := r in {| x_in := XRelay l i; x_out := o; x_c := c; x_t := TConst |}.
  Definition view_c (s : CSeg) : VSeg :=
    {| v_in := nth 0 (c_in s) 0; v_out := c_out s;
       v_gates := map (xmap (fun p => XMul (fst p) (snd p))) (c_muls s) ++ map (xmap XAdd) (c_adds s) ++ map (xmap (fun _ => XCst)) (c_csts s)
                  ++ map relay (c_relays s);
       v_kids := c_kids s |}.
  Definition xk_shift (offs : list nat) (k : XKind) : XKind :=
    match k with
    | XMul a b => XMul (nth 0 offs 0 + a) (nth 0 offs 0 + b) | XAdd a => XAdd (nth 0 offs 0 + a) | XCst => XCst
    | XUni t a => XUni t (nth 0 offs 0 + a) | XRelay l a => XRelay l (nth l offs 0 + a)
    end.
  Definition xplace (a : list nat * nat) (g : XG XKind) : XG XKind := {| x_in := xk_shift (fst a) (x_in g); x_out := snd a + x_out g; x_c := x_c g; x_t := x_t g |}.
  (* all gates of a segment, those of its children at their places *)
  Fixpoint vflat (fuel : nat) (segs : list VSeg) (id : nat) : list (XG XKind) :=
    match fuel with
    | 0 => []
    | S fuel => match nth_error segs id with
                | None => []
                | Some s => v_gates s ++ flat_map (fun ch => flat_map (fun a => map (xplace a) (vflat fuel segs (fst ch))) (snd ch)) (v_kids s)
                end
    end.
  Definition vlayer (E : Env F) (segs : list VSeg) (id : nat) (cur : list (list F)) (nxt : list F) : Prop :=
    exists s cs, nth_error segs id = Some s /\ Forall2 (x_contrib E cur) (vflat (length segs) segs id) cs /\
      nxt = map (fun o => fsum F (map snd (filter (fun p => fst p =? o) cs))) (seq 0 (v_out s)).
  Inductive vlayers (E : Env F) (segs : list VSeg) : list nat -> list (list F) -> list (list F) -> Prop :=
  | VNil cur : vlayers E segs [] cur cur
  | VCons id ids cur nxt cur' : vlayer E segs id cur nxt -> vlayers E segs ids (nxt :: cur) cur' -> vlayers E segs (id :: ids) cur cur'.
  (* running a circuit of the prover format: [all] are the values of all layers, latest first *)
  Definition vrun (E : Env F) (segs : list VSeg) (layers : list nat) (zeros outs : nat) (ins : list F) (all : list (list F)) (os : list F) (sat : bool) : Prop :=
    exists id rest s out, layers = id :: rest /\ nth_error segs id = Some s /\ length ins = v_in s /\ vlayers E segs layers [ins] all /\
      hd_error all = Some out /\ zeros <= outs <= length out /\ os = firstn (outs - zeros) (skipn zeros out) /\ sat = forallb (is0 F) (firstn zeros out).
  Definition xrun (E : Env F) (c : XCircuit) := vrun E (map view_x (xc_segs c)) (xc_layers c) (xc_zeros c) (xc_outs c).
  Definition crun (E : Env F) (c : CCircuit) := vrun E (map view_c (cc_segs c)) (cc_layers c) (cc_zeros c) (cc_outs c).
  (* the same for the compiler's own format, with the values of all layers *)
  Definition lrun_all (E : Env F) (c : LCircuit) (ins : list F) (cur : list (list F)) (outs : list F) (sat : bool) : Prop :=
    exists out, input_size c = Some (length ins) /\ layers_sem E (l_segs c) (l_layers c) [ins] cur /\ hd_error cur = Some out /\
      l_zeroes c <= l_actual c <= length out /\ outs = firstn (l_actual c - l_zeroes c) (skipn (l_zeroes c) out) /\
      sat = forallb (is0 F) (firstn (l_zeroes c) out).

  (* ------------------------------------------------------------ proofs *)
  Definition conv (g : UG) : XG XKind :=
    ex_gate (match g_in g with
             | KMul a b => XMul (io a) (io b)
             | KAdd a => if il a =? 0 then XAdd (io a) else XRelay (il a) (io a)
             | KConst => XCst
             | KCustom t l => XUni t (match l with i :: _ => io i | [] => 0 end)
             end) g.
  (* gates the target formats can express *)
  Definition plain (g : UG) : Prop :=
    match g_in g with
    | KMul a b => il a = 0 /\ il b = 0
    | KAdd a => True
    | KConst => True
    | KCustom t l => exists i, l = [i] /\ il i = 0
    end.
  Lemma plain_shift a g : plain g -> plain (ushift a g).
  Proof. unfold plain, ushift. destruct (g_in g) as [x y|x| |t l] eqn:E; cbn [g_in k_map]; rewrite ?E; cbn [k_map]; auto. intros [i [-> Hi]]. exists (shift (a_in a) i). auto. Qed.
  Lemma conv_shift a g : plain g -> conv (ushift a g) = xplace (a_in a, a_out a) (conv g).
  Proof.
    unfold plain, conv, ex_gate, xplace, ushift. cbn [g_in g_out g_coef x_in x_out x_c x_t fst snd]. intros H. f_equal.
    destruct (g_in g) as [x y|x| |t l] eqn:E; cbn [k_map].
    - destruct H as [H1 H2]. cbn [shift io il xk_shift]. unfold shift. cbn. rewrite H1, H2. auto.
    - unfold shift. cbn [il io]. destruct (Nat.eqb_spec (il x) 0) as [E0|E0]; cbn [xk_shift]; rewrite ?E0; auto.
    - auto.
    - destruct H as [i [-> Hi]]. cbn [map]. unfold shift. cbn. rewrite Hi. auto.
  Qed.
  Lemma conv_contrib E cur g p : plain g -> (x_contrib E cur (conv g) p <-> contrib E cur g p).
  Proof.
    unfold plain, x_contrib, contrib, conv, ex_gate. cbn [x_in x_out x_c x_t]. intros H.
    assert (Hc : forall v, ct_val E (fst (ex_coef (g_coef g))) (snd (ex_coef (g_coef g))) v <-> coef_sem E (g_coef g) v) by (intros v; destruct (g_coef g); cbn; tauto).
    assert (Hk : forall k, k = (match g_in g with
             | KMul a b => XMul (io a) (io b)
             | KAdd a => if il a =? 0 then XAdd (io a) else XRelay (il a) (io a)
             | KConst => XCst
             | KCustom t l => XUni t (match l with i :: _ => io i | [] => 0 end)
             end) -> xk_val E cur k = kindv E cur (g_in g)).
    { intros k ->. destruct (g_in g) as [x y|x| |t l]; cbn [xk_val kindv]; unfold xwire, wireF.
      - destruct H as [-> ->]. auto.
      - destruct (Nat.eqb_spec (il x) 0) as [E0|E0]; cbn [xk_val]; unfold xwire; rewrite ?E0; auto.
      - auto.
      - destruct H as [i [-> Hi]]. cbn [map]. rewrite Hi. auto. }
    rewrite (Hk _ eq_refl). split; intros [H1 [c [H2 H3]]]; (split; [auto|]; exists c; split; [apply Hc; auto|auto]).
  Qed.

  Section Sim.
    Variable segs : list Segment. Variable vs : list VSeg.
    Definition vrel (s : Segment) (v : VSeg) : Prop :=
      Permutation (v_gates v) (map conv (seg_gates s)) /\ Forall plain (seg_gates s) /\ v_out v = s_outs s /\ nth_error (s_ins s) 0 = Some (v_in v) /\
      v_kids v = map (fun ch => (fst ch, map (fun a => (a_in a, a_out a)) (snd ch))) (s_children s).
    Hypothesis Hrel : Forall2 vrel segs vs.
    Lemma flat_plain f : forall id, Forall plain (flat f segs id).
    Proof.
      induction f as [|f IH]; intros id; cbn [flat]; auto. destruct (nth_error segs id) as [s|] eqn:E; auto.
      destruct (Forall2_nth_error _ _ _ Hrel _ _ E) as [v [_ [_ [Hp _]]]]. apply Forall_app. split; auto. apply Forall_forall. intros g Hg.
      apply in_flat_map in Hg. destruct Hg as [ch [_ Hg]]. apply in_flat_map in Hg. destruct Hg as [a [_ Hg]]. apply in_map_iff in Hg. destruct Hg as [g' [<- Hg]].
      apply plain_shift. specialize (IH (fst ch)). rewrite Forall_forall in IH. auto.
    Qed.
    Lemma flat_map_perm {A B} (f g : A -> list B) l : (forall x, Permutation (f x) (g x)) -> Permutation (flat_map f l) (flat_map g l).
    Proof. intros H. induction l; cbn; auto. apply Permutation_app; auto. Qed.
    Lemma vflat_perm f : forall id, Permutation (vflat f vs id) (map conv (flat f segs id)).
    Proof.
      induction f as [|f IH]; intros id; cbn [flat vflat]; auto. destruct (nth_error segs id) as [s|] eqn:E.
      - destruct (Forall2_nth_error _ _ _ Hrel _ _ E) as [v [-> [Hg [_ [_ [_ Hk]]]]]]. rewrite map_app. apply Permutation_app; auto. rewrite Hk.
        rewrite flat_map_concat_map, map_map, <- flat_map_concat_map. cbn [fst snd].
        assert (Hm : forall l : list (nat * list Alloc), map conv (flat_map (fun ch => flat_map (fun a => map (ushift a) (flat f segs (fst ch))) (snd ch)) l) =
          flat_map (fun ch => flat_map (fun a => map conv (map (ushift a) (flat f segs (fst ch)))) (snd ch)) l).
        { clear. intros l. induction l as [|ch l IHl]; auto. cbn [flat_map]. rewrite map_app, IHl. f_equal. induction (snd ch) as [|a l2 IH2]; auto. cbn [flat_map]. rewrite map_app, IH2. auto. }
        rewrite Hm. apply flat_map_perm. intros ch. rewrite flat_map_concat_map, map_map, <- flat_map_concat_map. apply flat_map_perm. intros a. cbn [fst snd].
        rewrite map_map. rewrite (map_ext_in _ (fun g => xplace (a_in a, a_out a) (conv g))).
        2: { intros g Hgi. apply conv_shift. pose proof (flat_plain f (fst ch)) as Hp. rewrite Forall_forall in Hp. auto. }
        rewrite <- (map_map conv (xplace (a_in a, a_out a))). apply Permutation_map. apply IH.
      - apply nth_error_None in E. rewrite (Forall2_len _ _ _ Hrel) in E. apply nth_error_None in E. rewrite E. auto.
    Qed.
    Lemma F2_perm {A B} (R : A -> B -> Prop) l1 l2 : Permutation l1 l2 -> forall m1, Forall2 R l1 m1 -> exists m2, Forall2 R l2 m2 /\ Permutation m1 m2.
    Proof.
      induction 1 as [|x l l' H IH|x y l|l l' l'' H1 IH1 H2 IH2]; intros m1 Hm.
      - inversion Hm; subst. exists []. auto.
      - inversion Hm; subst. destruct (IH _ H4) as [m2 [A1 A2]]. eexists. split; constructor; eauto.
      - inversion Hm as [|? ? ? ? R1 Hm1]; subst. inversion Hm1; subst. eexists. split; [repeat constructor; eauto|]. apply perm_swap.
      - destruct (IH1 _ Hm) as [m2 [A1 A2]]. destruct (IH2 _ A1) as [m3 [B1 B2]]. exists m3. split; auto. eapply perm_trans; eauto.
    Qed.
    Lemma F2_map_l {A B C} (R : B -> C -> Prop) (f : A -> B) l m : Forall2 R (map f l) m <-> Forall2 (fun a c => R (f a) c) l m.
    Proof. revert m; induction l as [|a l IH]; intros m; cbn; split; intros H; inversion H; subst; constructor; auto; apply IH; auto. Qed.
    Lemma layer_iff E id cur nxt : vlayer E vs id cur nxt <-> layer_sem E segs id cur nxt.
    Proof.
      assert (Hl : length vs = length segs) by (symmetry; apply (Forall2_len _ _ _ Hrel)).
      assert (Hc : forall gs cs, Forall plain gs -> (Forall2 (x_contrib E cur) (map conv gs) cs <-> Forall2 (contrib E cur) gs cs)).
      { intros gs cs Hp. rewrite F2_map_l. revert cs; induction Hp as [|g gs Hg Hgs IH]; intros cs; split; intros H; inversion H; subst; constructor; try (apply IH; auto); apply conv_contrib; auto. }
      assert (Hat : forall cs cs', Permutation cs cs' -> forall o, fsum F (map snd (filter (fun p => fst p =? o) cs)) = at_out o cs') by (intros cs cs' Hp o; apply (at_out_perm o cs cs' Hp)).
      split; intros [s [cs [H1 [H2 H3]]]].
      - destruct (nth_error segs id) as [s0|] eqn:E0.
        2: { apply nth_error_None in E0. assert (nth_error vs id = None) by (apply nth_error_None; lia). congruence. }
        destruct (Forall2_nth_error _ _ _ Hrel _ _ E0) as [v [Ev [_ [_ [Ho _]]]]]. rewrite H1 in Ev. injection Ev as <-.
        destruct (F2_perm _ _ _ (vflat_perm (length vs) id) _ H2) as [cs' [A B]]. exists s0, cs'. split; auto. split.
        + apply Hc; [apply flat_plain|]. rewrite <- Hl. auto.
        + rewrite H3, Ho. apply map_ext. intros o. apply Hat; auto.
      - destruct (Forall2_nth_error _ _ _ Hrel _ _ H1) as [v [Ev [_ [_ [Ho _]]]]].
        apply Hc in H2; [|apply flat_plain]. destruct (F2_perm _ _ _ (Permutation_sym (vflat_perm (length segs) id)) _ H2) as [cs' [A B]].
        exists v, cs'. split; auto. rewrite Hl. split; auto. rewrite H3, Ho. apply map_ext. intros o. symmetry. apply Hat. symmetry; auto.
    Qed.
    Lemma layers_iff E ids : forall cur cur', vlayers E vs ids cur cur' <-> layers_sem E segs ids cur cur'.
    Proof.
      induction ids as [|id ids IH]; intros cur cur'; split; intros H; inversion H; subst; econstructor; try (apply layer_iff; eauto); apply IH; auto.
    Qed.
  End Sim.
  Lemma vrun_iff E (c : LCircuit) vs ins all outs sat : Forall2 vrel (l_segs c) vs ->
    (vrun E vs (l_layers c) (l_zeroes c) (l_actual c) ins all outs sat <-> lrun_all E c ins all outs sat).
  Proof.
    intros Hrel. unfold vrun, lrun_all, input_size. split.
    - intros [id [rest [s [out [H1 [H2 [H3 [H4 [H5 [H6 [H7 H8]]]]]]]]]]]. exists out. rewrite H1 at 1. unfold seg_of.
      destruct (nth_error (l_segs c) id) as [s0|] eqn:E0.
      2: { apply nth_error_None in E0. rewrite (Forall2_len _ _ _ Hrel) in E0. apply nth_error_None in E0. congruence. }
      destruct (Forall2_nth_error _ _ _ Hrel _ _ E0) as [v [Ev [_ [_ [_ [Hi _]]]]]]. cbn [obind]. split; [congruence|]. split; auto.
      apply (layers_iff (l_segs c) vs); auto.
    - intros [out [H1 [H2 [H3 [H4 [H5 H6]]]]]]. destruct (l_layers c) as [|id rest] eqn:El; [discriminate|]. unfold seg_of in H1.
      destruct (nth_error (l_segs c) id) as [s0|] eqn:E0; [|discriminate]. destruct (Forall2_nth_error _ _ _ Hrel _ _ E0) as [v [Ev [_ [_ [_ [Hi _]]]]]].
      exists id, rest, v, out. split; auto. split; auto. cbn [obind] in H1. split; [congruence|]. split; [|auto].
      apply (layers_iff (l_segs c) vs); auto.
  Qed.

  (* ---------- powers of two ---------- *)
  Lemma tz_pow2 k : forall fuel, k < fuel -> tz fuel (2 ^ k) = k.
  Proof.
    induction k as [|k IH]; intros [|fuel] H; try lia; cbn [tz].
    - reflexivity.
    - assert (2 ^ k <> 0) by (apply Nat.pow_nonzero; lia).
      replace (2 ^ S k) with (2 * 2 ^ k) by (cbn; lia). destruct (Nat.eqb_spec (2 * 2 ^ k) 0); [lia|].
      assert (Ho : Nat.odd (2 * 2 ^ k) = false) by (rewrite <- Nat.negb_even, Nat.even_mul; reflexivity). rewrite Ho. cbn [orb].
      replace (2 * 2 ^ k / 2) with (2 ^ k) by (rewrite Nat.mul_comm, Nat.div_mul; lia). f_equal. apply IH. lia.
  Qed.
  Lemma trailing_zeros_pow2 n : pow2b n = true -> 2 ^ trailing_zeros n = n.
  Proof. intros H. apply pow2b_spec in H. destruct H as [k ->]. unfold trailing_zeros. rewrite tz_pow2; auto. apply Nat.pow_gt_lin_r. lia. Qed.

  (* ---------- the normal format ---------- *)
  (* NormalInputType: one input layer everywhere *)
  Definition normal_seg (s : Segment) : Prop :=
    length (s_ins s) = 1 /\ Forall (fun ch => Forall (fun a => length (a_in a) = 1) (snd ch)) (s_children s) /\
    Forall (fun g => Forall (fun i => il i = 0) (k_ins (g_in g))) (seg_gates s).
  Definition single_custom (s : Segment) : Prop := Forall (fun g => length (snd (g_in g)) = 1) (s_customs s).
  Lemma ex_seg_rel s : normal_seg s -> single_custom s -> forallb pow2b (s_ins s) = true -> pow2b (s_outs s) = true ->
    exists x, ex_seg s = Some x /\ vrel s (view_x x).
  Proof.
    intros [N1 [N2 N3]] N4 Hpi Hpo. unfold ex_seg. destruct (s_ins s) as [|n [|? ?]] eqn:Ei; try discriminate. cbn [nth_error obind].
    assert (Hu : exists us, omap ex_uni (s_customs s) = Some us /\ map (xmap (fun p => XUni (fst p) (snd p))) us = map conv (map (uni k_custom) (s_customs s))).
    { revert N4. unfold single_custom. generalize (s_customs s). clear. induction l as [|g l IH]; intros H; [exists []; auto|]. inversion H as [|? ? Hg Hl]; subst. destruct (IH Hl) as [us [E1 E2]].
      destruct (g_in g) as [t ins] eqn:Eg. cbn [snd] in Hg. destruct ins as [|i [|? ?]]; try discriminate. cbn [omap]. unfold ex_uni at 1. rewrite Eg. cbn [snd hd_error obind fst]. rewrite E1. cbn [obind].
      eexists. split; [reflexivity|]. cbn [map]. rewrite E2. f_equal. unfold conv, xmap, ex_gate, uni, k_custom. cbn [g_in g_out g_coef x_in x_out x_c x_t fst snd]. rewrite Eg. reflexivity. }
    destruct Hu as [us [-> Hu]]. cbn [obind].
    assert (Hk : exists ks, omap ex_child (s_children s) = Some ks /\ map (fun ch => (fst ch, map (fun a => ([fst a], snd a)) (snd ch))) ks = map (fun ch => (fst ch, map (fun a => (a_in a, a_out a)) (snd ch))) (s_children s)).
    { revert N2. generalize (s_children s). clear. induction l as [|ch l IH]; intros H; [exists []; auto|]. inversion H as [|? ? Hc Hl]; subst. destruct (IH Hl) as [ks [E1 E2]]. cbn [omap].
      assert (Ha : exists al, omap ex_alloc (snd ch) = Some al /\ map (fun a => ([fst a], snd a)) al = map (fun a => (a_in a, a_out a)) (snd ch)).
      { revert Hc. generalize (snd ch). clear. induction l as [|a l IH]; intros H; [exists []; auto|]. inversion H as [|? ? Ha Hl]; subst. destruct (IH Hl) as [al [E1 E2]]. destruct a as [ain ao]. cbn [a_in] in Ha.
        destruct ain as [|i [|? ?]]; try discriminate. cbn [omap]. change (ex_alloc {| a_in := [i]; a_out := ao |}) with (Some (i, ao)). cbn [obind]. rewrite E1. cbn [obind]. eexists. split; [reflexivity|]. cbn [map a_in a_out fst snd]. rewrite E2. auto. }
      destruct Ha as [al [A1 A2]]. unfold ex_child at 1. rewrite A1. cbn [obind]. rewrite E1. cbn [obind]. eexists. split; [reflexivity|]. cbn [map fst snd]. rewrite A2, E2. auto. }
    destruct Hk as [ks [-> Hk]]. cbn [obind]. eexists. split; [reflexivity|]. unfold vrel, view_x. cbn [v_gates v_out v_in v_kids xi_var xo_var x_muls x_adds x_csts x_unis x_kids].
    rewrite forallb_forall in Hpi.
    split; [|split; [|split; [|split]]].
    - unfold seg_gates. rewrite !map_app, Hu, !map_map.
      assert (N3' : forall g, In g (s_adds s) -> il (g_in g) = 0).
      { intros g Hg. rewrite Forall_forall in N3. specialize (N3 (uni KAdd g)). assert (Hin : In (uni KAdd g) (seg_gates s)) by (unfold seg_gates; rewrite !in_app_iff; right; left; apply in_map; auto).
        specialize (N3 Hin). cbn in N3. inversion N3; auto. }
      rewrite (map_ext_in (fun x => conv (uni KAdd x)) (fun x => xmap XAdd (ex_add x))).
      2: { intros g Hg. unfold conv, xmap, ex_add, ex_gate, uni. cbn [g_in g_out g_coef x_in x_out x_c x_t]. rewrite (N3' g Hg). reflexivity. }
      apply Permutation_refl.
    - apply Forall_forall. intros g Hg. rewrite Forall_forall in N3. pose proof (N3 g Hg) as Hl. unfold plain. destruct (g_in g) as [a b|a| |t l] eqn:Eg; auto.
      + cbn in Hl. inversion Hl as [|? ? L1 L2]; subst. inversion L2; subst. auto.
      + assert (Hlen : length l = 1).
        { unfold seg_gates in Hg. rewrite !in_app_iff in Hg. destruct Hg as [Hg|[Hg|[Hg|Hg]]]; apply in_map_iff in Hg; destruct Hg as [g0 [<- Hg]]; cbn in Eg; try discriminate.
          unfold k_custom in Eg. injection Eg as _ <-. unfold single_custom in N4. rewrite Forall_forall in N4. apply N4; auto. }
        destruct l as [|i [|? ?]]; try discriminate. cbn in Hl. inversion Hl; subst. eauto.
    - apply trailing_zeros_pow2; auto.
    - rewrite Ei. cbn [nth_error]. f_equal. symmetry. apply trailing_zeros_pow2. apply Hpi. left; auto.
    - exact Hk.
  Qed.
  Lemma omap_F2 {A B} (f : A -> option B) (R : A -> B -> Prop) l : (forall a, In a l -> exists b, f a = Some b /\ R a b) -> exists m, omap f l = Some m /\ Forall2 R l m.
  Proof.
    induction l as [|a l IH]; intros H; [exists []; auto|]. destruct (H a (or_introl eq_refl)) as [b [E1 E2]]. destruct IH as [m [E3 E4]]; [intros; apply H; right; auto|].
    exists (b :: m). cbn [omap]. rewrite E1. cbn [obind]. rewrite E3. cbn [obind]. auto.
  Qed.
  Lemma omap_F2_inv {A B} (f : A -> option B) (R : A -> B -> Prop) l m : (forall a b, In a l -> f a = Some b -> R a b) -> omap f l = Some m -> Forall2 R l m.
  Proof.
    revert m; induction l as [|a l IH]; intros m H E; cbn [omap] in E; [injection E as <-; auto|]. destruct (f a) as [b|] eqn:E1; [|discriminate]. cbn [obind] in E.
    destruct (omap f l) as [t|]; [|discriminate]. cbn [obind] in E. injection E as <-. constructor; [apply H; auto; left; auto|]. apply IH; auto. intros; apply H; auto. right; auto.
  Qed.
  Lemma F2_vmap {A} (f : A -> VSeg) (R : Segment -> VSeg -> Prop) l m : Forall2 (fun s x => R s (f x)) l m -> Forall2 R l (map f m).
  Proof. induction 1; cbn; constructor; auto. Qed.

  (* ---------- the cross-layer format ---------- *)
  Lemma split_adds_perm gs : forall r, split_adds gs = Some r -> Permutation (map (xmap XAdd) (fst r) ++ map relay (snd r)) (map conv (map (uni KAdd) gs)).
  Proof.
    induction gs as [|g gs IH]; intros r H; cbn [split_adds] in H; [injection H as <-; auto|]. destruct (split_adds gs) as [r0|]; [|discriminate]. cbn [obind] in H. specialize (IH _ eq_refl). cbn [map].
    destruct (Nat.eqb_spec (il (g_in g)) 0) as [E0|E0].
    - injection H as <-. cbn [fst snd map app].
      assert (Hh : conv (uni KAdd g) = xmap XAdd (ex_add g)) by (unfold conv, xmap, ex_add, ex_gate, uni; cbn [g_in g_out g_coef x_in x_out x_c x_t]; rewrite E0; reflexivity).
      rewrite Hh. constructor. auto.
    - destruct (ex_coef (g_coef g)) as [c t] eqn:Ec. destruct t; try discriminate. injection H as <-. cbn [fst snd map app].
      assert (Hh : conv (uni KAdd g) = relay (il (g_in g), io (g_in g), g_out g, c)).
      { unfold conv, relay, ex_gate, uni; cbn [g_in g_out g_coef]. rewrite Ec. apply Nat.eqb_neq in E0. rewrite E0. reflexivity. }
      rewrite Hh. rewrite <- Permutation_middle. constructor. auto.
  Qed.
  Lemma ex_cseg_rel s x : s_ins s <> [] -> ex_cseg s = Some x -> vrel s (view_c x).
  Proof.
    intros Hin H. unfold ex_cseg in H. destruct (split_adds (s_adds s)) as [ar|] eqn:Ea; [|discriminate]. cbn [obind] in H. destruct (Nat.eqb_spec (length (s_customs s)) 0) as [E0|]; [|discriminate].
    destruct (omap simple_mul (s_muls s)) as [ms|] eqn:Em; [|discriminate]. cbn [obind] in H. injection H as <-.
    assert (Hcus : s_customs s = []) by (destruct (s_customs s); [auto|discriminate]).
    assert (Hm : Forall2 (fun (g : GMul) x => x = ex_mul g /\ il (fst (g_in g)) = 0 /\ il (snd (g_in g)) = 0) (s_muls s) ms).
    { apply (omap_F2_inv simple_mul); auto. intros g x _ Hx. unfold simple_mul in Hx. destruct (Nat.eqb_spec (il (fst (g_in g))) 0); [|discriminate]. destruct (Nat.eqb_spec (il (snd (g_in g))) 0); [|discriminate]. injection Hx as <-. auto. }
    unfold vrel, view_c. cbn [v_gates v_out v_in v_kids c_in c_out c_muls c_adds c_csts c_relays c_kids].
    assert (Hms : map (xmap (fun p => XMul (fst p) (snd p))) ms = map conv (map (uni k_mul) (s_muls s))).
    { clear -Hm. induction Hm as [|g x l m [-> _] _ IH]; cbn [map]; auto. rewrite IH. reflexivity. }
    split; [|split; [|split; [auto|split; [|auto]]]].
    - unfold seg_gates. rewrite Hcus. cbn [map]. rewrite app_nil_r, !map_app, <- Hms. apply Permutation_app_head. rewrite <- (split_adds_perm _ _ Ea), !map_map.
      rewrite <- app_assoc. apply Permutation_app_head. apply Permutation_app_comm.
    - unfold seg_gates. rewrite Hcus. cbn [map]. rewrite app_nil_r. apply Forall_app. split.
      + apply Forall_map. clear -Hm. induction Hm as [|g x l m [_ [H1 H2]] _ IH]; constructor; auto. unfold plain, uni, k_mul. cbn. auto.
      + apply Forall_app. split; apply Forall_map, Forall_forall; intros; exact Logic.I.
    - destruct (s_ins s) as [|n ns]; [contradiction|]. auto.
  Qed.
End Export.
