(* The debug evaluator (Frontend.v, section Debug) computes what ApiSpec.v promises. *)
From Verif Require Import Prelude Field Expr Hints Ir IrInst IrFacts Sim ApiSpec Frontend ApiFacts FrontFacts FrontSim.
From Coq Require Import Lia.
Open Scope nat_scope.

Section DebugFacts.
  Context {F : Fld}.
  Add Field Fdf : (fth F).
  Variable fsize : nat.
  Variable fns : nat -> nat -> nat -> Prog F.
  Variable O : Oracle F.
  Hypothesis Hsize : size_ok (F := F) fsize.
  Local Notation Db := (@Db F).

  Definition dext (d d' : Db) : Prop := exists new, db_vals d' = db_vals d ++ new.
  Definition dok (d : Db) (hs : list nat) : Prop := Forall (fun x => x < length (db_vals d)) hs.
  Definition dargs (d : Db) (l : list (Arg F)) : Prop := Forall (fun a => match a with AV x => x < length (db_vals d) | AK _ => True end) l.
  Definition hvals (d : Db) (hs : list nat) : list F := map (getv (db_vals d)) hs.
  Definition ResD (d : Db) (r : option (Db * list nat)) (l : option (list F)) : Prop :=
    match l with
    | Some l => exists d' rs, r = Some (d', rs) /\ dext d d' /\ dok d' rs /\ hvals d' rs = l
    | None => r = None
    end.
  Lemma dext_refl d : dext d d. Proof. exists []. rewrite app_nil_r; auto. Qed.
  Lemma dext_trans a b c : dext a b -> dext b c -> dext a c.
  Proof. intros [n1 H1] [n2 H2]. exists (n1 ++ n2). rewrite H2, H1, app_assoc; auto. Qed.
  Lemma dok_ext d d' hs : dext d d' -> dok d hs -> dok d' hs.
  Proof. intros [n H] Hd. eapply Forall_impl; [|exact Hd]. cbn. intros x Hx. rewrite H, app_length. lia. Qed.
  Lemma hvals_ext d d' hs : dext d d' -> dok d hs -> hvals d' hs = hvals d hs.
  Proof. intros [n H] Hd. unfold hvals. rewrite H. apply map_getv_app. exact Hd. Qed.
  Lemma ret_ok d l : ResD d (Some (db_ret d l)) (Some l).
  Proof.
    eexists _, _. split; [reflexivity|]. split; [eexists; reflexivity|]. split.
    - apply Forall_forall. intros x Hx. apply in_seq in Hx. cbn [db_vals]. rewrite app_length. lia.
    - unfold hvals. cbn [db_vals]. apply map_getv_seq.
  Qed.
  Lemma nth_getv (vals : list F) x : x < length vals -> nth_error vals x = Some (getv vals x).
  Proof. intros H. destruct (nth_error_Some_ex _ _ H) as [y Hy]. rewrite Hy. unfold getv. erewrite nth_error_nth; eauto. Qed.
  Lemma val_ok d a : dargs d [a] -> db_val d a = Some (ival (db_vals d) a).
  Proof. intros H. inversion H; subst. destruct a; cbn; auto. apply nth_getv; auto. Qed.
  Lemma id_ok d a d1 x : dargs d [a] -> db_id d a = (d1, x) -> dext d d1 /\ x < length (db_vals d1) /\ getv (db_vals d1) x = ival (db_vals d) a.
  Proof.
    intros H E. inversion H; subst. destruct a as [y|c]; cbn in E; injection E as <- <-.
    - split; [apply dext_refl|]. auto.
    - split; [exists [c]; auto|]. cbn [db_vals]. split; [rewrite app_length; cbn; lia|]. cbn [ival]. rewrite getv_app_r by lia. rewrite Nat.sub_diag. reflexivity.
  Qed.
  Lemma dargs_ext d d' l : dext d d' -> dargs d l -> dargs d' l.
  Proof. intros [n H] Hd. eapply Forall_impl; [|exact Hd]. intros [x|c]; auto. rewrite H, app_length. lia. Qed.
  Lemma ival_dext d d' a : dext d d' -> dargs d [a] -> ival (db_vals d') a = ival (db_vals d) a.
  Proof. intros [n H] Hd. inversion Hd; subst. destruct a as [x|c]; auto. cbn. rewrite H. apply getv_app_l; auto. Qed.
  Lemma insn_ok d d1 i : dext d d1 -> Forall (fun x => x < length (db_vals d1)) (s_inputs F i) -> ResD d (db_insn O d1 i) (s_det F i (o_gate O) (getv (db_vals d1))).
  Proof.
    intros He Hi. unfold db_insn. replace (forallb (inbb (db_vals d1)) (s_inputs F i)) with true.
    2:{ symmetry. apply forallb_forall. intros x Hx. apply Nat.ltb_lt. rewrite Forall_forall in Hi. auto. }
    destruct (s_det F i (o_gate O) (getv (db_vals d1))) as [l|]; cbn [obind]; [|reflexivity].
    destruct (ret_ok d1 l) as (d' & rs & H1 & H2 & H3 & H4). exists d', rs. split; auto. split; auto. eapply dext_trans; eauto.
  Qed.
  Lemma bin_ok d o x y : dargs d [x] -> dargs d [y] -> ResD d (let (d, x) := db_id d x in let (d, y) := db_id d y in db_insn O d (bin_insn o x y)) (let* v := bin_fun o (ival (db_vals d) x) (ival (db_vals d) y) in Some [v]).
  Proof.
    intros Hx Hy. destruct (db_id d x) as [d1 xi] eqn:E1. destruct (db_id d1 y) as [d2 yi] eqn:E2. destruct (id_ok _ _ _ _ Hx E1) as (A1 & A2 & A3). destruct (id_ok _ _ _ _ (dargs_ext _ _ _ A1 Hy) E2) as (B1 & B2 & B3).
    assert (Hxi : xi < length (db_vals d2)) by (destruct B1 as [n ->]; rewrite app_length; lia).
    assert (Hxv : getv (db_vals d2) xi = ival (db_vals d) x) by (destruct B1 as [n ->]; rewrite getv_app_l; auto).
    rewrite (ival_dext _ _ _ A1 Hy) in B3.
    pose proof (insn_ok d d2 (bin_insn o xi yi) (dext_trans _ _ _ A1 B1)) as HH.
    assert (Hs : s_det F (bin_insn o xi yi) (o_gate O) (getv (db_vals d2)) = let* v := bin_fun o (ival (db_vals d) x) (ival (db_vals d) y) in Some [v]).
    { pose proof (bin_insn_sem (env_of O) o xi yi (getv (db_vals d2))) as Hb. rewrite Hxv, B3 in Hb. unfold binR in Hb.
      assert (Hsem : forall outs, s_sem F (env_of O) (bin_insn o xi yi) (getv (db_vals d2)) outs <-> s_det F (bin_insn o xi yi) (o_gate O) (getv (db_vals d2)) = Some outs) by (intros outs; destruct o; reflexivity).
      destruct (bin_fun o (ival (db_vals d) x) (ival (db_vals d) y)) as [v0|]; cbn [obind].
      - apply Hsem, Hb. eauto.
      - destruct (s_det F (bin_insn o xi yi) (o_gate O) (getv (db_vals d2))) as [l|] eqn:El; auto. exfalso. destruct (proj1 (Hb l) (proj2 (Hsem l) eq_refl)) as (v0 & H & _). discriminate. }
    rewrite Hs in HH. apply HH. destruct o; cbn; auto.
  Qed.
  Definition okres (r : option (list F * bool)) : option (list F) := match r with Some (l, true) => Some l | _ => None end.
  Definition prim_res (d : Db) (o : Op F) : option (list F) :=
    match o with ORandom => Some [o_rnd O (db_k d)] | OHint h l n => hint_eval F O h n l | _ => okres (api_fun o) end.
  Lemma omap_val d l : dargs d l -> omap (db_val d) l = Some (map (ival (db_vals d)) l).
  Proof. intros H. induction H as [|a l Ha H IH]; cbn [omap map]; auto. rewrite (val_ok d a) by (constructor; auto). rewrite IH. reflexivity. Qed.
  Lemma dargs2 d x y : dargs d [x; y] -> dargs d [x] /\ dargs d [y].
  Proof. intros H. inversion H as [|? ? H1 H2]; subst. split; auto. constructor; auto. Qed.
  Lemma db_prim_ok d o o' : derived fsize true 0 o = None -> dargs d (op_args o) -> op_map (idv (db_vals d)) o = Some o' -> ResD d (db_prim O d o) (prim_res d o').
  Proof.
    intros Hd Ha Ho. destruct o as [o x y|x|x|x n|t x| |h l n|x|x|x y|x y|x|x y|x y|l|x y|x y]; cbn [op_args] in Ha; cbn [derived] in Hd; try discriminate;
      try (destruct (dargs2 _ _ _ Ha) as [Hx Hy]); cbn [op_map idv obind] in Ho; try (injection Ho as <-); cbn [prim_res api_fun okres].
    - pose proof (bin_ok d o x y Hx Hy) as HB.
      assert (Hr : okres (let* v0 := bin_fun o (ival (db_vals d) x) (ival (db_vals d) y) in Some ([v0], true)) = let* v0 := bin_fun o (ival (db_vals d) x) (ival (db_vals d) y) in Some [v0]).
      { destruct (bin_fun o (ival (db_vals d) x) (ival (db_vals d) y)); reflexivity. }
      rewrite Hr. destruct o; cbn [db_prim]; try exact HB; rewrite !val_ok by auto; cbn [obind bin_fun]; apply ret_ok.
    - cbn [db_prim]. rewrite val_ok by auto. cbn [obind]. apply ret_ok.
    - cbn [db_prim]. destruct (db_id d x) as [d1 xi] eqn:E1. destruct (id_ok _ _ _ _ Ha E1) as (A1 & A2 & A3). pose proof (insn_ok d d1 (SIsZero xi) A1) as HH. cbn [s_det s_inputs] in HH. rewrite A3 in HH. apply HH. auto.
    - cbn [db_prim]. destruct (db_id d x) as [d1 xi] eqn:E1. destruct (id_ok _ _ _ _ Ha E1) as (A1 & A2 & A3). rewrite nth_getv by auto. cbn [obind]. rewrite A3, to_binary_fun.
      destruct (toZ (ival (db_vals d) x) <? 2 ^ Z.of_nat n)%Z; cbn [obind]; [|reflexivity].
      destruct (ret_ok d1 (map (fun i => bf (Z.testbit (toZ (ival (db_vals d) x)) (Z.of_nat i))) (seq 0 n))) as (d' & rs & H1 & H2 & H3 & H4). exists d', rs. split; auto. split; auto. eapply dext_trans; eauto.
    - cbn [db_prim]. rewrite val_ok by auto. cbn [obind].
      assert (Hc : (match t with TZero => is0 F (ival (db_vals d) x) | TNonZero => negb (is0 F (ival (db_vals d) x)) | TBool => is0 F (ival (db_vals d) x) || feqb (ival (db_vals d) x) f1 end) = con_fun t (ival (db_vals d) x)) by (destruct t; reflexivity).
      rewrite Hc. destruct (con_fun t (ival (db_vals d) x)); cbn [guard obind]; [|reflexivity]. exists d, []. split; auto. split; [apply dext_refl|]. split; [constructor|reflexivity].
    - cbn [db_prim]. destruct (ret_ok {| db_vals := db_vals d; db_k := S (db_k d) |} [o_rnd O (db_k d)]) as (d' & rs & H1 & H2 & H3 & H4). exists d', rs. auto.
    - cbn [db_prim]. rewrite (omap_val d l) by auto. rewrite omap_idv in Ho. cbn [obind] in Ho. injection Ho as <-. cbn [obind prim_res]. destruct (hint_eval F O h n (map (ival (db_vals d)) l)); cbn [obind]; [apply ret_ok|reflexivity].
    - cbn [db_prim]. rewrite val_ok by auto. cbn [obind]. apply ret_ok.
    - cbn [db_prim]. rewrite val_ok by auto. cbn [obind]. apply ret_ok.
    - cbn [db_prim]. rewrite !val_ok by auto. cbn [obind]. apply ret_ok.
    - cbn [db_prim]. rewrite !val_ok by auto. cbn [obind]. apply ret_ok.
    - destruct (from_bin_ops 0 l). discriminate.
    - cbn [db_prim]. rewrite !val_ok by auto. cbn [obind]. apply ret_ok.
    - cbn [db_prim]. rewrite !val_ok by auto. cbn [obind]. apply ret_ok.
  Qed.

  (* ------------------------------------------------------------ handles *)
  Lemma dids d hs o o1 : dok d hs -> op_map (arg_id hs) o = Some o1 -> dargs d (op_args o1).
  Proof.
    intros Hh Ho. apply op_map_args in Ho. induction Ho as [|a a1 l l1 Ha _ IH]; constructor; auto. destruct a as [h|c]; cbn in Ha.
    - destruct (nth_error hs h) as [x|] eqn:Hx; [|discriminate]. injection Ha as <-. unfold dok in Hh. rewrite Forall_forall in Hh. apply Hh. eapply nth_error_In; eauto.
    - injection Ha as <-. exact I.
  Qed.
  Lemma op_map_hvals d hs o o1 : op_map (arg_id hs) o = Some o1 -> op_map (idv (db_vals d)) o1 = op_map (arg_val (hvals d hs)) o.
  Proof. intros Ho. rewrite (op_map_comp _ _ _ _ Ho). apply op_map_ext. intros a _. symmetry. apply arg_id_val. Qed.
  Lemma op_map_none d hs o : op_map (arg_id hs) o = None -> op_map (arg_val (hvals d hs)) o = None.
  Proof.
    intros H. destruct (op_map (arg_val (hvals d hs)) o) as [o'|] eqn:E; auto. exfalso.
    pose proof (op_map_args _ _ _ E) as Ha. assert (HA : forall a, In a (op_args o) -> exists x, arg_id hs a = Some x).
    { clear -Ha. intros a Hin. induction Ha as [|a0 b l l' H0 _ IH]; [destruct Hin|]. destruct Hin as [<-|Hin]; [|auto]. destruct a0 as [h|c]; cbn in *; eauto. unfold hvals in H0. rewrite nth_error_map in H0. destruct (nth_error hs h); [cbn [obind]; eauto|discriminate]. }
    clear E Ha. destruct o; cbn [op_map op_args] in *;
    repeat match type of H with context [arg_id hs ?x] => let z := fresh in let Hz := fresh in destruct (HA x ltac:(cbn; tauto)) as [z Hz]; rewrite Hz in H; cbn [obind] in H end; try discriminate.
    - assert (exists r, omap (arg_id hs) l = Some r) as [r Hr]; [|rewrite Hr in H; discriminate]. clear -HA. induction l as [|a l IH]; cbn [omap]; eauto. destruct (HA a (or_introl eq_refl)) as [z ->]. cbn [obind]. destruct IH as [r ->]. intros; apply HA; right; auto. cbn [obind]; eauto.
    - assert (exists r, omap (arg_id hs) l = Some r) as [r Hr]; [|rewrite Hr in H; discriminate]. clear -HA. induction l as [|a l IH]; cbn [omap]; eauto. destruct (HA a (or_introl eq_refl)) as [z ->]. cbn [obind]. destruct IH as [r ->]. intros; apply HA; right; auto. cbn [obind]; eauto.
  Qed.
  Definition prim_op (o : Op (Arg F)) : bool := match o with OInverse _ | OAssertEq _ _ | OAssertDiff _ _ | OFromBin _ => false | _ => true end.
  Lemma prim_derived H o : prim_op o = true <-> derived fsize true H o = None.
  Proof. destruct o; cbn; split; intros; auto; try discriminate. destruct (from_bin_ops H l). discriminate. Qed.
  Lemma prim_map (f : Arg F -> option (Arg F)) o (o1 : Op (Arg F)) : op_map f o = Some o1 -> prim_op o1 = prim_op o.
  Proof. intros H. destruct o; cbn [op_map] in H; repeat match type of H with context [obind ?e _] => destruct e; cbn [obind] in H; try discriminate end; injection H as <-; reflexivity. Qed.
  Lemma from_bin_loop_prim xs : forall H r (m : F), forallb prim_op (fst (from_bin_loop xs H r m)) = true.
  Proof. induction xs as [|x xs IH]; intros H r m; cbn [from_bin_loop]; auto. specialize (IH (H + 2) (H + 1) (fadd m m)). destruct (from_bin_loop _ _ _ _). cbn in *. auto. Qed.
  Lemma derived_prims H o os js : derived fsize true H o = Some (Some (os, js)) -> forallb prim_op os = true.
  Proof.
    destruct o; cbn [derived]; try discriminate; intros Hd; try (injection Hd as <- <-; reflexivity).
    unfold from_bin_ops in Hd. destruct l as [|x xs]; [injection Hd as <- <-; reflexivity|]. pose proof (from_bin_loop_prim xs (H + 1) H f1) as Hp. destruct (from_bin_loop _ _ _ _). injection Hd as <- <-. cbn in *. auto.
  Qed.
  Lemma step_res d hs o : prim_op o = true -> dok d hs ->
    ResD d (let* o1 := op_map (arg_id hs) o in db_prim O d o1) (let* o' := op_map (arg_val (hvals d hs)) o in prim_res d o').
  Proof.
    intros Hp Hh. destruct (op_map (arg_id hs) o) as [o1|] eqn:Ho; cbn [obind].
    - rewrite <- (op_map_hvals d _ _ _ Ho). destruct (op_map (idv (db_vals d)) o1) as [o'|] eqn:Eo.
      + cbn [obind]. apply db_prim_ok; auto. apply (proj1 (prim_derived 0 o1)). rewrite (prim_map _ _ _ Ho). auto. eapply dids; eauto.
      + exfalso. destruct o1; cbn [op_map idv obind] in Eo; try discriminate; rewrite omap_idv in Eo; discriminate.
    - rewrite (op_map_none d hs o Ho). reflexivity.
  Qed.
  Lemma det_res d o o' hv : det o = true -> op_map (arg_val hv) o = Some o' -> prim_res d o' = okres (api_fun o').
  Proof. intros Hd Ho. pose proof (det_map _ _ _ Hd Ho). destruct o'; try contradiction; reflexivity. Qed.
  Lemma db_prims_ok os : forall d hs, forallb det os = true -> forallb prim_op os = true -> dok d hs ->
    match pf os (hvals d hs) with
    | Some (hv', true) => exists d' hs', db_prims O d hs os = Some (d', hs') /\ dext d d' /\ dok d' hs' /\ hvals d' hs' = hv'
    | _ => db_prims O d hs os = None
    end.
  Proof.
    induction os as [|o os IH]; intros d hs Hd Hp Hh; cbn [pf db_prims forallb] in *.
    - exists d, hs. split; auto. split; [apply dext_refl|]. auto.
    - apply andb_true_iff in Hd, Hp. destruct Hd as [Hd1 Hd2], Hp as [Hp1 Hp2]. pose proof (step_res d hs o Hp1 Hh) as SR. unfold step1.
      destruct (op_map (arg_val (hvals d hs)) o) as [o'|] eqn:Eo; cbn [obind] in *.
      + rewrite (det_res d o o' (hvals d hs)) in SR by auto. destruct (api_fun o') as [[l [|]]|]; cbn [okres ResD obind fst snd] in *.
        * destruct SR as (d1 & rs & R1 & R2 & R3 & R4). destruct (op_map (arg_id hs) o) as [o1|]; cbn [obind] in *; [|discriminate]. rewrite R1. cbn [obind fst snd].
          assert (Hh1 : dok d1 (hs ++ rs)) by (apply Forall_app; split; auto; eapply dok_ext; eauto).
          assert (Hv : hvals d1 (hs ++ rs) = hvals d hs ++ l). { unfold hvals at 1. rewrite map_app. fold (hvals d1 hs) (hvals d1 rs). rewrite (hvals_ext d d1), R4; auto. }
          specialize (IH d1 (hs ++ rs) Hd2 Hp2 Hh1). rewrite Hv in IH. destruct (pf os (hvals d hs ++ l)) as [[h2 [|]]|]; cbn [obind fst snd andb] in *; auto.
          destruct IH as (d' & hs' & I1 & I2 & I3 & I4). exists d', hs'. split; auto. split; auto. eapply dext_trans; eauto.
        * assert (G : (let* o1 := op_map (arg_id hs) o in let* r := db_prim O d o1 in db_prims O (fst r) (hs ++ snd r) os) = None). { destruct (op_map (arg_id hs) o) as [o1|]; cbn [obind] in *; auto. rewrite SR. reflexivity. }
          destruct (pf os (hvals d hs ++ l)) as [[h2 b2]|]; cbn [obind fst snd andb]; auto.
        * destruct (op_map (arg_id hs) o) as [o1|]; cbn [obind] in *; auto. rewrite SR. reflexivity.
      + cbn [ResD] in SR. destruct (op_map (arg_id hs) o) as [o1|]; cbn [obind] in *; auto. rewrite SR. reflexivity.
  Qed.
  Definition op_res (d : Db) (hs : list nat) (o : Op (Arg F)) : option (list F) := let* o' := op_map (arg_val (hvals d hs)) o in prim_res d o'.
  Lemma hvals_pick d' hs' js outs : dok d' hs' -> omap (nth_error (hvals d' hs')) js = Some outs -> exists rs, omap (nth_error hs') js = Some rs /\ dok d' rs /\ hvals d' rs = outs.
  Proof.
    intros Hh H. apply omap_some in H. induction H as [|j x js outs Hj _ IH].
    - exists []. split; auto. split; [constructor|reflexivity].
    - destruct IH as (rs & I1 & I2 & I3). unfold hvals in Hj. rewrite nth_error_map in Hj. destruct (nth_error hs' j) as [y|] eqn:Ey; [|discriminate]. injection Hj as <-.
      exists (y :: rs). cbn [omap]. rewrite Ey. cbn [obind]. rewrite I1. split; [reflexivity|]. split; [constructor; auto; unfold dok in Hh; rewrite Forall_forall in Hh; apply Hh; eapply nth_error_In; eauto|]. cbn. f_equal. auto.
  Qed.
  Lemma db_op_ok d hs o : dok d hs -> ResD d (db_op fsize O d hs o) (op_res d hs o).
  Proof.
    intros Hh. unfold db_op, op_res. destruct (derived fsize true (length hs) o) as [e|] eqn:Hd.
    - destruct (op_map (arg_id hs) o) as [o1|] eqn:Ho; cbn [obind]; [|rewrite (op_map_none d hs o Ho); reflexivity].
      assert (Hl : length (hvals d hs) = length hs) by (unfold hvals; apply map_length).
      destruct (op_total hs (hvals d hs) (arg_id hs) o o1) as [o' Ho']; auto. { intros h Hn. cbn [arg_id] in Hn. apply nth_error_Some. destruct (nth_error hs h); [discriminate|auto]. }
      rewrite Ho'. cbn [obind].
      assert (He : exists os js, e = Some (os, js)). { destruct o; cbn [derived] in Hd; try discriminate; try (injection Hd as <-; eauto; fail). destruct (from_bin_ops (length hs) l). injection Hd as <-; eauto. }
      destruct He as (os & js & ->). cbn [obind fst snd]. destruct (derived_det _ _ _ _ _ _ Hd) as [D1 D2]. pose proof (derived_prims _ _ _ _ Hd) as D3.
      rewrite (det_res d o o' (hvals d hs)) by auto.
      pose proof (derived_pf fsize true (hvals d hs) o os js o' Hsize ltac:(rewrite Hl; exact Hd) Ho') as P. pose proof (db_prims_ok os d hs D1 D3 Hh) as Q. unfold pf_is in P.
      destruct (api_fun o') as [[outs b]|].
      + destruct P as (hv' & P1 & P2). rewrite P1 in Q. destruct b; cbn [okres ResD].
        * destruct Q as (d' & hs' & Q1 & Q2 & Q3 & <-). destruct (hvals_pick d' hs' js outs Q3 P2) as (rs & R1 & R2 & R3). rewrite Q1. cbn [obind fst snd]. rewrite R1. cbn [obind]. exists d', rs. auto.
        * rewrite Q. reflexivity.
      + rewrite P in Q. cbn [okres ResD]. rewrite Q. reflexivity.
    - apply step_res; auto. apply (prim_derived (length hs)); auto.
  Qed.
  Notation E := (env_of O).
  Lemma res_sem d o' outs : prim_res d o' = Some outs -> api_sem E o' outs true.
  Proof.
    assert (HO : forall r, okres r = Some outs -> r = Some (outs, true)) by (intros [[l [|]]|] H; cbn in H; try discriminate; injection H as <-; auto).
    destruct o'; cbn [prim_res api_sem]; try (apply HO).
    - intros H. injection H as <-. exists (o_rnd O (db_k d)). split; auto. cbn. eauto.
    - intros H. split; auto. apply hint_eval_sem; auto.
  Qed.
  Lemma sem_res r d o' outs : (forall j, o_rnd O j = r) -> api_sem E o' outs true -> prim_res d o' = Some outs.
  Proof.
    intros Hr. destruct o'; cbn [prim_res api_sem]; try (intros H; rewrite H; reflexivity).
    - intros (z & (j & ->) & -> & _). rewrite !Hr. auto.
    - intros [H _]. apply hint_eval_sem; auto.
  Qed.

  (* ------------------------------------------------------------ statements *)
  Definition run_ok (f : Db -> Prog F -> list nat -> option (Db * list nat)) : Prop := forall d p ids d' rs, dok d ids -> f d p ids = Some (d', rs) ->
    dext d d' /\ dok d' rs /\ prog fns E p (hvals d ids) (hvals d' rs) true.
  Lemma omap_hvals d hs l ids : omap (nth_error hs) l = Some ids -> omap (nth_error (hvals d hs)) l = Some (hvals d ids).
  Proof. intros H. apply (pick (db_vals d) hs l ids); auto. Qed.
  Lemma dok_pick d hs l ids : dok d hs -> omap (nth_error hs) l = Some ids -> dok d ids.
  Proof. intros Hh H. apply omap_some in H. induction H as [|j x js xs Hj _ IH]; constructor; auto. unfold dok in Hh. rewrite Forall_forall in Hh. apply Hh. eapply nth_error_In; eauto. Qed.
  Lemma db_stmts_fwd f ss : run_ok f -> forall d hs d' hs', dok d hs -> db_stmts fsize fns O f d hs ss = Some (d', hs') ->
    dext d d' /\ dok d' hs' /\ stmts fns E ss (hvals d hs) (hvals d' hs') true.
  Proof.
    intros Hf. induction ss as [|[o|ty cap l] ss IH]; intros d hs d' hs' Hh H; cbn [db_stmts] in H.
    - injection H as <- <-. split; [apply dext_refl|]. split; auto. constructor.
    - pose proof (db_op_ok d hs o Hh) as P. unfold op_res in P. destruct (op_map (arg_val (hvals d hs)) o) as [o'|] eqn:Eo; cbn [obind] in P; [|cbn in P; rewrite P in H; discriminate].
      destruct (prim_res d o') as [outs|] eqn:Er; cbn [ResD] in P; [|rewrite P in H; discriminate]. destruct P as (d1 & rs & P1 & P2 & P3 & P4). rewrite P1 in H. cbn [obind fst snd] in H.
      assert (Hh1 : dok d1 (hs ++ rs)) by (apply Forall_app; split; auto; eapply dok_ext; eauto).
      destruct (IH d1 (hs ++ rs) d' hs' Hh1 H) as (I1 & I2 & I3). split; [eapply dext_trans; eauto|]. split; auto.
      change true with (true && true). eapply StOp; [exact Eo|apply (res_sem d); exact Er|]. unfold hvals in I3 at 1. rewrite map_app in I3. fold (hvals d1 hs) (hvals d1 rs) in I3. rewrite (hvals_ext d d1), P4 in I3 by auto. exact I3.
    - destruct (omap (nth_error hs) l) as [ids|] eqn:El; cbn [obind] in H; [|discriminate]. destruct (f d (fns ty cap (length ids)) ids) as [[d1 rs]|] eqn:Ef; cbn [obind fst snd] in H; [|discriminate].
      destruct (Hf _ _ _ _ _ (dok_pick _ _ _ _ Hh El) Ef) as (P2 & P3 & P4).
      assert (Hh1 : dok d1 (hs ++ rs)) by (apply Forall_app; split; auto; eapply dok_ext; eauto).
      destruct (IH d1 (hs ++ rs) d' hs' Hh1 H) as (I1 & I2 & I3). split; [eapply dext_trans; eauto|]. split; auto.
      change true with (true && true). eapply StFn; [apply omap_hvals; exact El| |].
      + rewrite <- (omap_length _ _ _ El). exact P4.
      + unfold hvals in I3 at 1. rewrite map_app in I3. fold (hvals d1 hs) (hvals d1 rs) in I3. rewrite (hvals_ext d d1) in I3 by auto. exact I3.
  Qed.
  Lemma db_fn_fwd fuel : run_ok (db_fn fsize fns O fuel).
  Proof.
    induction fuel as [|fuel IH]; intros d p ids d' rs Hh H; cbn [db_fn] in H; [discriminate|].
    destruct (db_stmts fsize fns O (db_fn fsize fns O fuel) d ids (p_body p)) as [[d1 hs]|] eqn:Es; cbn [obind fst snd] in H; [|discriminate].
    destruct (omap (nth_error hs) (p_outs p)) as [outs|] eqn:Eo; cbn [obind] in H; [|discriminate]. injection H as <- <-.
    destruct (db_stmts_fwd _ _ IH _ _ _ _ Hh Es) as (P1 & P2 & P3). split; auto. split; [eapply dok_pick; eauto|]. econstructor; [exact P3|]. apply omap_hvals; auto.
  Qed.
  Lemma andb_t a b : a && b = true -> a = true /\ b = true. Proof. apply andb_true_iff. Qed.
  Lemma db_bwd r : (forall j, o_rnd O j = r) -> forall p ins outs b, prog fns E p ins outs b -> b = true ->
    exists fuel0, forall fuel, fuel0 <= fuel -> forall d ids, dok d ids -> hvals d ids = ins ->
      exists d' rs, db_fn fsize fns O fuel d p ids = Some (d', rs) /\ dext d d' /\ dok d' rs /\ hvals d' rs = outs.
  Proof.
    intros Hr. apply (prog_mut fns E
      (fun ss hv hv' b _ => b = true -> exists fuel0, forall fuel, fuel0 <= fuel -> forall d hs, dok d hs -> hvals d hs = hv ->
         exists d' hs', db_stmts fsize fns O (db_fn fsize fns O fuel) d hs ss = Some (d', hs') /\ dext d d' /\ dok d' hs' /\ hvals d' hs' = hv')
      (fun p ins outs b _ => b = true -> exists fuel0, forall fuel, fuel0 <= fuel -> forall d ids, dok d ids -> hvals d ids = ins ->
         exists d' rs, db_fn fsize fns O fuel d p ids = Some (d', rs) /\ dext d d' /\ dok d' rs /\ hvals d' rs = outs)).
    - intros hv _. exists 0. intros fuel _ d hs Hh Hv. exists d, hs. cbn. split; auto. split; [apply dext_refl|]. auto.
    - intros o o' ss hv outs b hv' b' Ho Ha Hs IH Hb. apply andb_t in Hb. destruct Hb as [-> ->]. destruct (IH eq_refl) as [fuel0 I0]. exists fuel0. intros fuel Hf d hs Hh Hv. cbn [db_stmts].
      pose proof (db_op_ok d hs o Hh) as P. unfold op_res in P. rewrite Hv, Ho in P. cbn [obind] in P. rewrite (sem_res r d o' outs Hr Ha) in P. cbn [ResD] in P.
      destruct P as (d1 & rs & P1 & P2 & P3 & P4). rewrite P1. cbn [obind fst snd].
      assert (Hh1 : dok d1 (hs ++ rs)) by (apply Forall_app; split; auto; eapply dok_ext; eauto).
      destruct (I0 fuel Hf d1 (hs ++ rs) Hh1) as (d' & hs' & Q1 & Q2 & Q3 & Q4). { unfold hvals. rewrite map_app. fold (hvals d1 hs) (hvals d1 rs). rewrite (hvals_ext d d1), P4, Hv; auto. }
      exists d', hs'. split; auto. split; auto. eapply dext_trans; eauto.
    - intros ty cap l ins ss hv outs b hv' b' Hl Hp IHp Hs IH Hb. apply andb_t in Hb. destruct Hb as [-> ->]. destruct (IHp eq_refl) as [f1 I1]. destruct (IH eq_refl) as [f2 I2]. exists (max f1 f2). intros fuel Hf d hs Hh Hv. cbn [db_stmts].
      subst hv. destruct (hvals_pick d hs l ins Hh Hl) as (ids & J1 & J2 & J3). rewrite J1. cbn [obind]. rewrite (omap_length _ _ _ J1).
      destruct (I1 fuel ltac:(lia) d ids J2 J3) as (d1 & rs & P1 & P2 & P3 & P4). rewrite P1. cbn [obind fst snd].
      assert (Hh1 : dok d1 (hs ++ rs)) by (apply Forall_app; split; auto; eapply dok_ext; eauto).
      destruct (I2 fuel ltac:(lia) d1 (hs ++ rs) Hh1) as (d' & hs' & Q1 & Q2 & Q3 & Q4). { unfold hvals. rewrite map_app. fold (hvals d1 hs) (hvals d1 rs). rewrite (hvals_ext d d1), P4; auto. }
      exists d', hs'. split; auto. split; auto. eapply dext_trans; eauto.
    - intros p ins hv b outs Hs IH Ho Hb. destruct (IH Hb) as [f0' I0]. exists (S f0'). intros fuel Hf d ids Hh Hv. destruct fuel as [|fuel]; [lia|]. cbn [db_fn].
      destruct (I0 fuel ltac:(lia) d ids Hh Hv) as (d' & hs' & Q1 & Q2 & Q3 & <-). rewrite Q1. cbn [obind fst snd]. destruct (hvals_pick d' hs' (p_outs p) outs Q3 Ho) as (rs & R1 & R2 & R3). rewrite R1. cbn [obind]. exists d', rs. auto.
  Qed.
  Lemma init_ok npub (ins : list F) : let d := {| db_vals := f0 :: ins ++ map (o_pub O) (seq 0 npub); db_k := 0 |} in
    dok d (seq 1 (length ins + npub)) /\ hvals d (seq 1 (length ins + npub)) = ins ++ map (o_pub O) (seq 0 npub).
  Proof.
    intros d. split.
    - apply Forall_forall. intros x Hx. apply in_seq in Hx. cbn [d db_vals length]. rewrite app_length, map_length, seq_length. lia.
    - unfold hvals. cbn [d db_vals]. apply map_getv_ins. rewrite app_length, map_length, seq_length. auto.
  Qed.
  Lemma omap_getv (vals : list F) rs : Forall (fun x => x < length vals) rs -> omap (nth_error vals) rs = Some (map (getv vals) rs).
  Proof. induction 1 as [|x rs Hx H IH]; cbn [omap map]; auto. rewrite nth_getv by auto. cbn [obind]. rewrite IH. auto. Qed.
  (* a run that does not panic returns what the API promises, all assertions holding *)
  Theorem debug_sound fuel npub p ins outs : debug_run fsize fns O fuel npub p ins = Some outs -> main fns E npub p ins outs true.
  Proof.
    unfold debug_run. destruct (init_ok npub ins) as [I1 I2]. cbn zeta in *. set (d := {| db_vals := _ |}) in *.
    destruct (db_fn fsize fns O fuel d p (seq 1 (length ins + npub))) as [[d' rs]|] eqn:Ef; cbn [obind fst snd]; [|discriminate]. intros H.
    destruct (db_fn_fwd fuel _ _ _ _ _ I1 Ef) as (P1 & P2 & P3). rewrite omap_getv in H by exact P2. injection H as <-. rewrite I2 in P3. exact P3.
  Qed.
  (* and it does not panic when they hold *)
  Theorem debug_complete r npub p ins outs : (forall j, o_rnd O j = r) -> main fns E npub p ins outs true ->
    exists fuel0, forall fuel, fuel0 <= fuel -> debug_run fsize fns O fuel npub p ins = Some outs.
  Proof.
    intros Hr H. destruct (db_bwd r Hr _ _ _ _ H eq_refl) as [fuel0 G]. exists fuel0. intros fuel Hf. destruct (init_ok npub ins) as [I1 I2]. unfold debug_run. cbn zeta in *. set (d := {| db_vals := _ |}) in *.
    destruct (G fuel Hf d _ I1) as (d' & rs & P1 & P2 & P3 & P4). { rewrite I2. reflexivity. } rewrite P1. cbn [obind fst snd]. rewrite omap_getv by exact P3. f_equal. exact P4.
  Qed.
End DebugFacts.
