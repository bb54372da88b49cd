(* Facts about ir_split.rs: splitting all circuits keeps what the root circuit computes. *)
From Verif Require Import Prelude Field Sorting Expr Topo Ir IrFacts IrInst Sim Builder BuilderFacts LaySched Layering IrSplit SplitComb SplitCut SplitSegs SplitSem SplitExp.
Open Scope nat_scope.

Section Root.
  Context {F : Fld}.
  Notation DI := (DestI F false).
  Add Field Fsr : (fth F).
  Let L : IRC_laws DI := DestL F false.
  Notation Pool := (CPool (F := F)).
  Variable random : bool.
  Variable cs0 : list (nat * Circuit DI).
  Hypothesis W0 : wf_circuits DI cs0.
  Hypothesis Hsmall : forall id c, lookup id cs0 = Some c -> (Z.of_nat (length (constraints c)) < fmod F)%Z.
  Hypothesis Hnr : random = false -> forall id c, lookup id cs0 = Some c -> constraints c = [].

  (* a constraint is somewhere below the circuit *)
  Inductive reach_con : nat -> Prop :=
  | RC_own id c : lookup id cs0 = Some c -> constraints c <> [] -> reach_con id
  | RC_call id c o : lookup id cs0 = Some c -> In o (calls c) -> reach_con o -> reach_con id.
  Definition need (id : nat) : Prop := random = true /\ reach_con id.
  Notation sub_ok := (sub_ok cs0 need).

  Lemma sort_layers_sorted l : Sorted lt (sort_layers l).
  Proof.
    apply StronglySorted_Sorted. unfold sort_layers. set (m := nodup Nat.eq_dec l). assert (Hnd : NoDup (isort Nat.leb m)) by (eapply Permutation_NoDup; [symmetry; apply isort_perm|apply NoDup_nodup]).
    pose proof (isort_le m) as Hs. induction Hs as [|x r Hs IH Hf]; [constructor|]. inversion Hnd; subst. constructor; auto. apply Forall_forall. intros y Hy. rewrite Forall_forall in Hf. specialize (Hf y Hy). assert (x <> y) by (intros ->; contradiction). lia.
  Qed.
  Lemma one_total_all (E : Env F) cs Pf is : ctx E cs Pf -> Forall (pcall Pf) is -> Forall (one_total E cs) is.
  Proof.
    intros HX. apply Forall_impl. intros i Hi g. destruct i as [e|id l n|k].
    - destruct (es_total E g e (x_r _ _ _ HX)) as [u Hu]. exists u. exists u. auto.
    - destruct (Hi id l n eq_refl) as [c [H1 [H2 H3]]]. destruct (x_tot _ _ _ HX id c (map g l) H1) as [outs Ho]; [rewrite map_length; auto|]. exists outs. split; auto. rewrite H3. eapply run_len; [exact Ho|]. eapply x_cs; eauto.
    - destruct k as [a| |j]; cbn; unfold const_sem; cbn; [eexists; eexists; eauto| |eexists; eexists; eauto]. destruct (x_r _ _ _ HX) as [r Hr]. exists r, r. auto.
  Qed.
  Lemma maxl_from (ml : list nat) n x : x < length ml -> from_layer ml 0 (maxl ml + S n) x = true.
  Proof. intros H. unfold from_layer. rewrite andb_true_iff, Nat.leb_le, Nat.ltb_lt. pose proof (maxl_in ml _ (getn_In ml x H)). lia. Qed.

  (* what expanded does *)
  Record exp_ok (id : nat) (c : Circuit DI) (pool : Pool) (c' : Circuit DI) (add : list nat) (pool' : Pool) : Prop := {
    e_nin : num_inputs c' = num_inputs c;
    e_wf : wf_insns DI (instructions c') (num_inputs c);
    e_pc : Forall (pcall pool') (instructions c');
    e_ok : pool_ok pool';
    e_le : pool_le pool pool';
    e_outs : Forall (fun x => 0 < x <= num_inputs c + nouts DI (instructions c')) (outputs c');
    e_add : Forall (fun x => 0 < x <= num_inputs c + nouts DI (instructions c')) add;
    e_lo : length (outputs c') = length (outputs c);
    e_need : need id -> add <> [];
    e_cons : random = false -> length (constraints c') = length (constraints c) /\ add = [];
    e_cons1 : random = true -> constraints c' = [];
    e_sem : forall (E : Env F) cs Pf, ctx E cs Pf -> pool_le pool' Pf -> forall ins, length ins = num_inputs c ->
      (forall nv, exec DI E cs (instructions c') (f0 :: ins) nv true -> exists b, run DI E cs0 id ins (map (getv nv) (outputs c')) b /\ (b = true -> vsum (getv nv) add = f0)) /\
      (forall outs b a, run DI E cs0 id ins outs b -> T E b a -> exists nv, exec DI E cs (instructions c') (f0 :: ins) nv true /\ outs = map (getv nv) (outputs c') /\ vsum (getv nv) add = a) }.
  Lemma run_true0 (E : Env F) id ins outs b : random = false -> run DI E cs0 id ins outs b -> b = true.
  Proof. intros Hr. apply run_true. apply Hnr. auto. Qed.
  Lemma expanded_ok layers rec id c il at0 pool c' add ml sc at_ pool' : expanded random layers rec cs0 id il at0 pool = Some (c', add, ml, sc, at_, pool') ->
    (forall at_ id il pool sp pool', rec at_ id il pool = Some (sp, pool') -> (forall c, lookup id cs0 = Some c -> length il = num_inputs c) -> sub_ok id pool sp pool') ->
    lookup id cs0 = Some c -> length il = num_inputs c -> pool_ok pool -> Sorted lt at_ /\ exp_ok id c pool c' add pool'.
  Proof.
    intros H Hrec Hc Hil Hpok. unfold expanded in H. apply obind_some in H. destruct H as [ol [_ H]]. cbv zeta in H. rewrite Hc in H. cbn [obind] in H.
    apply obind_some in H. destruct H as [P [HP H]]. apply obind_some in H. destruct H as [cns [Hcns H]]. apply obind_some in H. destruct H as [outs [Houts H]].
    pose proof (wf_each _ _ W0 _ _ Hc) as Wc. pose proof (wf_calls _ _ W0 _ _ Hc) as Wl.
    unfold expand in HP. set (P0 := {| p_vnew := _ |}) in HP. set (nin := num_inputs c) in *.
    assert (HP0 : Pst nin P0).
    { constructor; cbn [P0 p_ml p_insns p_vnew p_sub p_pool]; auto; try constructor.
      - cbn [length nouts]. lia.
      - change (0 :: seq 1 nin) with (seq 0 (S nin)) in *. assert (Hj : j < S nin) by (apply nth_error_Some_lt in H0; rewrite seq_length in H0; auto). rewrite nth_error_seq in H0 by auto. inversion H0. cbn [length]. lia.
      - change (0 :: seq 1 nin) with (seq 0 (S nin)) in *. assert (Hj : j < S nin) by (apply nth_error_Some_lt in H0; rewrite seq_length in H0; auto). rewrite nth_error_seq in H0 by auto. inversion H0. lia. }
    assert (Hv0 : length (p_vnew P0) = S nin) by (cbn [P0 p_vnew]; apply seq_length).
    destruct (expand_sim cs0 need nin layers (rec (sort_layers (at0 ++ il ++ fst ol ++ snd ol))) (Hrec _) (instructions c) P0 P HP HP0) as [HPf [Hlv [Hle [more [msub [Ei [Es [Nd Sem]]]]]]]]; auto; [lia|rewrite Hv0; cbn [Nat.sub]; rewrite Nat.sub_0_r; apply Wc|].
    cbn [P0 p_insns p_sub app p_pool] in Ei, Es, Hle. rewrite Hv0 in Hlv. pose proof HPf as [Q1 Q2 Q3 Q4 Q5 Q6].
    assert (Hrng : forall (xs ys : list nat), omap (nth_error (p_vnew P)) xs = Some ys -> Forall (fun x => 0 < x <= nin + nouts DI (instructions c)) xs -> Forall (fun x => 0 < x < length (p_ml P)) ys).
    { intros xs ys Hm Hx. apply omap_some in Hm. induction Hm as [|x y xs ys Hxy Hm IH]; constructor; inversion Hx; subst; auto. destruct (Q2 x y Hxy) as [Gq1 Gq2]. split; [apply Gq2; lia|auto]. }
    pose proof (Hrng _ _ Houts (wf_out _ _ Wc)) as Ro. pose proof (Hrng _ _ Hcns (wf_con _ _ Wc)) as Rc.
    assert (Hmap : forall ov nv xs ys, rel P ov nv -> omap (nth_error (p_vnew P)) xs = Some ys -> map (getv ov) xs = map (getv nv) ys).
    { intros ov nv xs ys [_ [_ R3]] Hm. apply omap_some in Hm. induction Hm as [|x y xs ys Hxy Hm IH]; cbn [map]; auto. f_equal; auto. }
    assert (Hrel0 : forall ins : list F, length ins = nin -> rel P0 (f0 :: ins) (f0 :: ins)).
    { intros ins Hi. split; [rewrite Hv0; cbn; lia|]. split; [cbn [P0 p_ml length]; lia|]. intros j x Hj. cbn [P0 p_vnew] in Hj. change (0 :: seq 1 nin) with (seq 0 (S nin)) in Hj. assert (Hj2 : j < S nin) by (apply nth_error_Some_lt in Hj; rewrite seq_length in Hj; auto). rewrite nth_error_seq in Hj by auto. inversion Hj. auto. }
    assert (Hinb : forall ov nv, rel P ov nv -> Forall (inb ov) (outputs c) /\ Forall (fun k => inb ov (@c_var F DI k)) (constraints c)).
    { intros ov nv [R1 _]. split; (eapply Forall_impl; [|first [exact (wf_out _ _ Wc)|exact (wf_con _ _ Wc)]]); unfold inb; cbn; fold nin; intros; lia. }
    assert (Hver : forall ov nv, rel P ov nv -> forallb (fun k : Con DI => @c_verify F DI k (getv ov (@c_var F DI k))) (constraints c) = true <-> forall y, In y cns -> getv nv y = f0).
    { intros ov nv Hr. pose proof (Hmap ov nv _ _ Hr Hcns) as Hm. rewrite forallb_forall. split.
      - intros H1 y Hy. assert (Hin : In (getv nv y) (map (getv ov) (constraints c))) by (rewrite Hm; apply in_map; auto). apply in_map_iff in Hin. destruct Hin as [k [Hk1 Hk2]]. specialize (H1 k Hk2). cbn in H1. rewrite <- Hk1. apply feqb_spec. exact H1.
      - intros H1 k Hk. cbn. apply feqb_spec. assert (Hin : In (getv ov k) (map (getv nv) cns)) by (rewrite <- Hm; apply in_map; auto). apply in_map_iff in Hin. destruct Hin as [y [Hy1 Hy2]]. rewrite <- Hy1. auto. }
    assert (Hlc : length cns = length (constraints c)) by (apply omap_length in Hcns; auto). assert (Hlo : length outs = length (outputs c)) by (apply omap_length in Houts; auto).
    assert (Hlen : forall E cs Pf ins nv b, ctx E cs Pf -> pool_le (p_pool P) Pf -> length ins = nin -> exec DI E cs (p_insns P) (f0 :: ins) nv b -> length nv = length (p_ml P)).
    { intros E cs Pf ins nv b HX Hl Hi Hx. apply (exec_len DI L) in Hx; [cbn [length] in Hx; lia|]. eapply (pcall_wf_all cs Pf (x_cs _ _ _ HX)). eapply Forall_impl; [|exact Q5]. intros i. apply pcall_le. auto. }
    pose proof run_true0 as Hrt0. destruct random eqn:Hrand.
    - destruct (comb (id =? 0) (p_ml P) (p_sub P) cns (maxl (p_ml P) + 10) 0 (p_insns P) (p_ml P) [] None) as [[insns2 ml2] add2] eqn:Ec. inversion H; subst c' add ml sc at_ pool'. split; [apply sort_layers_sorted|].
      destruct (comb_wf (p_ml P) (p_sub P) cns (id =? 0) _ _ _ _ _ _ _ _ _ nin Ec Q3 Q1 Q4 Rc ltac:(constructor) ltac:(discriminate)) as [C1 C2].
      pose proof (comb_add_range (p_ml P) (p_sub P) cns (id =? 0) _ _ _ _ _ _ _ _ _ Ec ltac:(constructor) ltac:(lia)) as C3.
      destruct (comb_more (p_ml P) (p_sub P) cns (id =? 0) _ _ _ _ _ _ _ _ _ Ec) as [more2 [Em [Hlm [Hdv _]]]].
      assert (Hall : filter (from_layer (p_ml P) 0 (maxl (p_ml P) + 10)) (p_sub P) = p_sub P).
      { clear - Q4. induction (p_sub P) as [|x r IH]; auto. inversion Q4; subst. cbn [filter]. rewrite maxl_from by lia. f_equal. auto. }
      assert (Hsub : inr (length (p_ml P)) (p_sub P)) by (eapply Forall_impl; [|exact Q4]; cbn; intros; lia). assert (Hcn : inr (length (p_ml P)) cns) by (eapply Forall_impl; [|exact Rc]; cbn; intros; lia).
      constructor; cbn [num_inputs instructions outputs constraints]; auto; try (intros; congruence).
      + rewrite Em. apply Forall_app. split; auto. apply Forall_forall. intros i Hi. rewrite Forall_forall in Hdv. destruct (Hdv i Hi) as [ts ->]. intros ? ? ? ?; discriminate.
      + eapply Forall_impl; [|exact Ro]. cbn. intros x Hx. rewrite Em, nouts_app. lia.
      + eapply Forall_impl; [|exact C3]. cbn. intros x Hx. lia.
      + intros [_ Hreach]. eapply (comb_len (p_ml P) (p_sub P) cns (id =? 0)); [exact Ec|]. right. inversion Hreach as [id1 c1 Hc1 Hne Hid|id1 c1 o Hc1 Ho Hro Hid]; subst id1; rewrite Hc in Hc1; inversion Hc1; subst c1.
        * destruct cns as [|y cns']; [destruct (constraints c); [contradiction|discriminate]|]. exists y. split; [right; left; auto|]. apply maxl_from. inversion Hcn; auto.
        * apply calls_in in Ho. destruct Ho as [i [l [n [Hi Hci]]]]. destruct i as [e|id0 l0 n0|k0]; cbn in Hci; try discriminate. inversion Hci; subst id0 l0 n0. assert (Hm : msub <> []) by (apply (Nd o l n Hi); split; auto). rewrite Es in *. destruct msub as [|y msub']; [contradiction|]. exists y. split; [left; left; auto|]. apply maxl_from. inversion Hsub; auto.
      + intros E cs Pf HX HlePf ins Hins. destruct (Sem E cs Pf HX HlePf _ _ (Hrel0 ins Hins)) as [SA SB]. split.
        * intros nv Hx. rewrite Em in Hx. apply exec_app in Hx. destruct Hx as [mid [c1 [c2 [X1 [X2 Eb]]]]]. symmetry in Eb. apply andb_true_iff in Eb. destruct Eb as [-> ->]. pose proof (Hlen E cs Pf ins mid true HX HlePf Hins X1) as Hlmid. rewrite Ei in X1. destruct (SA mid X1) as [ov [b0 [Y1 [Y2 Y3]]]].
          exists (b0 && forallb (fun k : Con DI => @c_verify F DI k (getv ov (@c_var F DI k))) (constraints c)). split.
          -- apply run_iff. exists c, ov, b0. split; auto. split; auto. destruct (Hinb ov mid Y2). split; auto. split; auto. split; [|reflexivity]. rewrite (Hmap ov mid _ _ Y2 Houts). destruct (exec_prefix DI _ _ _ _ _ _ X2) as [ext ->]. apply map_ext_in. intros x Hx. apply getv_app_l. rewrite Forall_forall in Ro. specialize (Ro x Hx). lia.
          -- intros Hb. apply andb_true_iff in Hb. destruct Hb as [-> Hb]. pose proof (proj1 (Hver ov mid Y2) Hb) as Hbz.
             destruct (comb_A E cs (p_ml P) (p_sub P) cns (id =? 0) _ _ _ _ _ _ _ _ _ mid Ec Hlmid) as [more3 [Em3 CA]]; auto; try (rewrite Hlmid; auto); [constructor|intros ? ? Hd; discriminate|].
             rewrite Em in Em3. apply app_inv_head in Em3. subst more3. rewrite (CA nv true X2), Hall, Es, (Y3 eq_refl). cbn. ring.
        * intros os b a Hr HT. apply run_iff in Hr. destruct Hr as [c1 [ov [b0 [Hc1 [X1 [_ [_ [-> ->]]]]]]]]. rewrite Hc in Hc1. inversion Hc1; subst c1.
          destruct (forallb (fun k : Con DI => @c_verify F DI k (getv ov (@c_var F DI k))) (constraints c)) eqn:Ebc.
          -- rewrite andb_true_r in HT. destruct (SB ov b0 a X1 HT) as [mid [Y1 [Y2 Y3]]]. rewrite <- Ei in Y1. pose proof (Hlen E cs Pf ins mid true HX HlePf Hins Y1) as Hlmid. pose proof (proj1 (Hver ov mid Y2) Ebc) as Hbz.
             destruct (comb_B E cs (p_ml P) (p_sub P) cns (id =? 0) _ (x_r _ _ _ HX) _ _ _ _ _ _ _ _ mid Ec Hlmid) as [more3 [nv [Em3 [Z1 [Z2 Z3]]]]]; auto; try (rewrite Hlmid; auto); [constructor|intros ? ? Hd; discriminate|].
             rewrite Em in Em3. apply app_inv_head in Em3. subst more3. exists nv. split; [rewrite Em; apply exec_app; exists mid, true, true; auto|]. split.
             ++ rewrite (Hmap ov mid _ _ Y2 Houts). destruct (exec_prefix DI _ _ _ _ _ _ Z1) as [ext ->]. apply map_ext_in. intros x Hx. symmetry. apply getv_app_l. rewrite Forall_forall in Ro. specialize (Ro x Hx). lia.
             ++ rewrite Z2, Hall, Es, Y3. cbn. ring.
          -- rewrite andb_false_r in HT. destruct HT as [[HT _]|[_ HR]]; [discriminate|]. destruct (SB ov b0 f0 X1) as [mid [Y1 [Y2 Y3]]]; [destruct b0; [left; auto|right; auto]|]. rewrite <- Ei in Y1. pose proof (Hlen E cs Pf ins mid true HX HlePf Hins Y1) as Hlmid.
             assert (Hbad : exists y, In y cns /\ from_layer (p_ml P) 0 (maxl (p_ml P) + 10) y = true /\ getv mid y <> f0).
             { destruct (existsb (fun y => negb (feqb (getv mid y) f0)) cns) eqn:Ex.
               - apply existsb_exists in Ex. destruct Ex as [y [Hy1 Hy2]]. exists y. split; auto. split; [apply maxl_from; unfold inr in Hcn; rewrite Forall_forall in Hcn; apply Hcn; auto|]. intros Hz. apply negb_true_iff in Hy2. rewrite Hz in Hy2. rewrite (proj2 (feqb_spec F f0 f0) eq_refl) in Hy2. discriminate.
               - exfalso. enough (forallb (fun k : Con DI => @c_verify F DI k (getv ov (@c_var F DI k))) (constraints c) = true) by congruence. apply (proj2 (Hver ov mid Y2)). intros y Hy. destruct (feqb (getv mid y) f0) eqn:Ez; [apply feqb_spec; auto|]. exfalso. assert (existsb (fun y => negb (feqb (getv mid y) f0)) cns = true) by (apply existsb_exists; exists y; rewrite Ez; auto). congruence. }
             destruct (comb_C E cs (p_ml P) (p_sub P) cns (id =? 0) _ HR ltac:(rewrite Hlc; eapply Hsmall; eauto) _ _ _ _ _ _ _ _ mid Ec Hlmid) with (a := a) as [more3 [nv [Em3 [Z1 [Z2 Z3]]]]]; auto; try (rewrite Hlmid; auto); [constructor|intros ? ? Hd; discriminate|].
             rewrite Em in Em3. apply app_inv_head in Em3. subst more3. exists nv. split; [rewrite Em; apply exec_app; exists mid, true, true; auto|]. split; auto.
             rewrite (Hmap ov mid _ _ Y2 Houts). destruct (exec_prefix DI _ _ _ _ _ _ Z1) as [ext ->]. apply map_ext_in. intros x Hx. symmetry. apply getv_app_l. rewrite Forall_forall in Ro. specialize (Ro x Hx). lia.
    - inversion H; subst c' add ml sc at_ pool'. split; [apply sort_layers_sorted|]. constructor; cbn [num_inputs instructions outputs constraints]; auto; try (intros; congruence).
      + eapply Forall_impl; [|exact Ro]. cbn. intros x Hx. lia.
      + intros [Hr _]. congruence.
      + intros E cs Pf HX HlePf ins Hins. destruct (Sem E cs Pf HX HlePf _ _ (Hrel0 ins Hins)) as [SA SB]. rewrite Ei. split.
        * intros nv Hx. destruct (SA nv Hx) as [ov [b0 [Y1 [Y2 Y3]]]]. exists (b0 && forallb (fun k : Con DI => @c_verify F DI k (getv ov (@c_var F DI k))) (constraints c)). split; [|intros _; reflexivity].
          apply run_iff. exists c, ov, b0. split; auto. split; auto. destruct (Hinb ov nv Y2). split; auto. split; auto. split; [|reflexivity]. symmetry. apply (Hmap ov nv _ _ Y2 Houts).
        * intros os b a Hr HT. pose proof (Hrt0 E id ins os b ltac:(auto) Hr) as ->. destruct HT as [[_ ->]|[HT _]]; [|discriminate]. apply run_iff in Hr. destruct Hr as [c1 [ov [b0 [Hc1 [X1 [_ [_ [-> Eb]]]]]]]]. rewrite Hc in Hc1. inversion Hc1; subst c1. symmetry in Eb. apply andb_true_iff in Eb. destruct Eb as [-> _].
          destruct (SB ov true f0 X1 ltac:(left; auto)) as [nv [Y1 [Y2 Y3]]]. exists nv. repeat split; auto.
  Qed.
  Lemma split_circuit_ok fuel : forall at0 id il pool sp pool', split_circuit random fuel cs0 at0 id il pool = Some (sp, pool') -> (forall c, lookup id cs0 = Some c -> length il = num_inputs c) -> sub_ok id pool sp pool'.
  Proof.
    induction fuel as [|fuel IH]; intros at0 id il pool sp pool' H Hil c Hc Hpok; [discriminate|]. cbn [split_circuit] in H. apply obind_some in H. destruct H as [[] [_ H]]. apply obind_some in H. destruct H as [[[[[[c' add] ml] sc] at_] pool1] [He H]].
    destruct (expanded_ok _ _ _ _ _ _ _ _ _ _ _ _ _ He IH Hc (Hil c Hc) Hpok) as [Hsort X]. rewrite (e_nin _ _ _ _ _ _ X) in H. set (n := length (outputs c)) in *.
    destruct (cut_wf _ _ _ _ _ _ _ _ _ H (e_pc _ _ _ _ _ _ X) (e_ok _ _ _ _ _ _ X)) as [K1 [K2 K3]]. rewrite app_length, (e_lo _ _ _ _ _ _ X) in K3. fold n in K3.
    split; auto. split; [eapply pool_le_trans; [apply (e_le _ _ _ _ _ _ X)|auto]|]. split; [exists (length add); split; auto; intros Hn; pose proof (e_need _ _ _ _ _ _ X Hn); destruct add; [contradiction|cbn; lia]|].
    assert (Hrng : Forall (fun x => 0 < x <= num_inputs c + nouts DI (instructions c')) (outputs c' ++ add)) by (apply Forall_app; split; [apply (e_outs _ _ _ _ _ _ X)|apply (e_add _ _ _ _ _ _ X)]).
    intros E cs Pf HX HlePf. assert (Hpf : Forall (pcall Pf) (instructions c')) by (eapply Forall_impl; [|exact (e_pc _ _ _ _ _ _ X)]; intros i; apply pcall_le; eapply pool_le_trans; eauto). split.
    - intros ins all Hins Hr. destruct (cut_A E cs Pf (x_cs _ _ _ HX) (x_ok _ _ _ HX) (x_ncon _ _ _ HX) _ _ _ _ _ _ _ _ _ ins all H HlePf (e_ok _ _ _ _ _ _ X) (e_pc _ _ _ _ _ _ X) Hsort (e_wf _ _ _ _ _ _ X) Hrng (one_total_all E cs Pf _ HX Hpf) Hins Hr) as [nv [X1 ->]].
      destruct (e_sem _ _ _ _ _ _ X E cs Pf HX (pool_le_trans _ _ _ K2 HlePf) ins Hins) as [SA _]. destruct (SA nv X1) as [b [B1 B2]]. exists b. rewrite map_app. assert (Hm : length (map (getv nv) (outputs c')) = n) by (rewrite map_length; apply (e_lo _ _ _ _ _ _ X)).
      rewrite <- Hm. rewrite firstn_app, Nat.sub_diag, firstn_all, firstn_O, app_nil_r, skipn_app, Nat.sub_diag, skipn_all, skipn_O. auto.
    - intros Hkn ins outs b a Hins Hr HT. destruct (e_sem _ _ _ _ _ _ X E cs Pf HX (pool_le_trans _ _ _ K2 HlePf) ins Hins) as [_ SB]. destruct (SB outs b a Hr HT) as [nv [X1 [-> X3]]]. exists (map (getv nv) add). split; auto. rewrite <- map_app.
      eapply (cut_B E cs Pf (x_cs _ _ _ HX)); eauto; [apply (x_ncon _ _ _ HX)|apply (e_ok _ _ _ _ _ _ X)|apply (e_pc _ _ _ _ _ _ X)].
  Qed.
End Root.

Section Top.
  Context {F : Fld}.
  Notation DI := (DestI F false).
  Let L : IRC_laws DI := DestL F false.
  Notation Pool := (CPool (F := F)).
  Lemma lookup_pool (pool : Pool) id : forall k, lookup id (combine (seq k (length pool)) pool) = if id <? k then None else nth_error pool (id - k).
  Proof.
    induction pool as [|c pool IH]; intros k; cbn [length seq combine lookup].
    - destruct (id <? k); auto. destruct (id - k); auto.
    - destruct (Nat.eqb_spec k id) as [->|Hne]; [rewrite Nat.ltb_irrefl, Nat.sub_diag; auto|]. rewrite IH. destruct (Nat.ltb_spec id (S k)), (Nat.ltb_spec id k); auto; try lia. replace (id - k) with (S (id - S k)) by lia. auto.
  Qed.
  Lemma keys_pool (pool : Pool) k : keys (combine (seq k (length pool)) pool) = seq k (length pool).
  Proof. revert k. induction pool as [|c pool IH]; intros k; auto. unfold keys in *. cbn [length seq combine map fst]. f_equal. apply IH. Qed.
  Lemma total_dest (E : Env F) (cs : list (nat * Circuit DI)) : (exists r, e_rnd E r) -> total DI E cs.
  Proof.
    intros [r Hr] id c i g _ _ Hi. destruct i as [e|id0 l n|k]; cbn in Hi; try discriminate.
    - destruct (es_total E g e (ex_intro _ r Hr)) as [u Hu]. exists [u]. exists u. auto.
    - destruct k as [a| |j]; cbn; unfold const_sem; cbn; eexists; eexists; eauto.
  Qed.
  Record split_ok (random : bool) (rc rc' : RootCircuit DI) : Prop := {
    so_wf : wf_root DI rc';
    so_pub : num_public_inputs rc' = num_public_inputs rc;
    so_zero : expected_num_output_zeroes rc' = expected_num_output_zeroes rc + (if random then 1 else 0);
    so_ncon : forall id c, lookup id (circuits rc') = Some c -> constraints c = [];
    so_sem : exists c0 c0' k, lookup 0 (circuits rc) = Some c0 /\ lookup 0 (circuits rc') = Some c0' /\ num_inputs c0' = num_inputs c0 /\ length (outputs c0') = k + length (outputs c0) /\ k = (if random then 1 else 0) /\
      forall (E : Env F) ins, (exists r, e_rnd E r) -> length ins = num_inputs c0 ->
        (forall all b', run DI E (circuits rc') 0 ins all b' -> b' = true /\ exists b, run DI E (circuits rc) 0 ins (skipn k all) b /\ (b = true -> fsum F (firstn k all) = f0)) /\
        (forall outs b a, run DI E (circuits rc) 0 ins outs b -> T E b a -> exists ss, length ss = k /\ fsum F ss = a /\ run DI E (circuits rc') 0 ins (ss ++ outs) true) }.
  Lemma split_spec random (rc rc' : RootCircuit DI) : wf_root DI rc -> split_to_single_layer random rc = Some rc' ->
    (forall id c, lookup id (circuits rc) = Some c -> (Z.of_nat (length (constraints c)) < fmod F)%Z) ->
    (random = false -> forall id c, lookup id (circuits rc) = Some c -> constraints c = []) ->
    (random = true -> reach_con (circuits rc) 0) -> split_ok random rc rc'.
  Proof.
    intros W H Hsmall Hnr Hneed. unfold split_to_single_layer in H. apply obind_some in H. destruct H as [c0 [Hc0 H]]. apply obind_some in H. destruct H as [[[[[[c' add] ml] sc] at_] pool] [He H]]. apply obind_some in H. destruct H as [[] [_ H]]. apply Some_inj in H. set (root := {| num_inputs := _ |}) in H.
    pose proof (wr_cs _ _ W) as W0. assert (Hpok0 : pool_ok ([] : Pool)) by (intros [|[|id]] c Hc; discriminate).
    destruct (expanded_ok random (circuits rc) W0 Hsmall Hnr _ _ 0 c0 _ _ _ _ _ _ _ _ _ He (split_circuit_ok random (circuits rc) W0 Hsmall Hnr _) Hc0 (repeat_length _ _) Hpok0) as [_ X].
    set (cs := (0, root) :: combine (seq 1 (length pool)) pool) in H. assert (Ecs : circuits rc' = cs) by (subst rc'; reflexivity).
    assert (Hl0 : lookup 0 cs = Some root) by reflexivity. assert (HlS : forall k, lookup (S k) cs = nth_error pool k). { intros k. unfold cs. change (lookup (S k) (combine (seq 1 (length pool)) pool) = nth_error pool k). rewrite lookup_pool. rewrite (proj2 (Nat.ltb_ge _ _)) by lia. replace (S k - 1) with k by lia. auto. }
    assert (Hget : forall id c, cpool_get pool id = Some c -> lookup id cs = Some c) by (intros [|k] c Hk; [discriminate|rewrite HlS; auto]).
    pose proof (e_ok _ _ _ _ _ _ _ _ X) as Hok. pose proof (e_pc _ _ _ _ _ _ _ _ X) as Hpc.
    assert (Hncon : forall id c, lookup id cs = Some c -> constraints c = []). { intros [|k] c Hk; [rewrite Hl0 in Hk; inversion Hk; reflexivity|rewrite HlS in Hk; apply (Hok (S k) c); auto]. }
    assert (Hnin : num_inputs root = num_inputs c0) by apply (e_nin _ _ _ _ _ _ _ _ X).
    assert (Wroot : wf_circuit DI root).
    { split; cbn [root num_inputs instructions constraints outputs]; rewrite ?(e_nin _ _ _ _ _ _ _ _ X); [apply (e_wf _ _ _ _ _ _ _ _ X)|constructor|]. apply Forall_app. split; [apply (e_add _ _ _ _ _ _ _ _ X)|apply (e_outs _ _ _ _ _ _ _ _ X)]. }
    assert (Wcs : wf_circuits DI cs).
    { split.
      - unfold cs. unfold keys. cbn [map fst]. fold (keys (combine (seq 1 (length pool)) pool)). rewrite keys_pool. constructor; [rewrite in_seq; lia|apply seq_NoDup].
      - intros [|k] c Hk; [rewrite Hl0 in Hk; apply Some_inj in Hk; subst c; auto|rewrite HlS in Hk; apply (Hok (S k) c); auto].
      - intros [|k] c Hk; [rewrite Hl0 in Hk; apply Some_inj in Hk; subst c; apply (pcall_wf_all cs pool Hget); auto|rewrite HlS in Hk; apply (pcall_wf_all cs pool Hget); apply (Hok (S k) c); auto]. }
    assert (Hrank : ranked DI cs (fun id => match id with 0 => S (length pool) | _ => id end)).
    { intros [|k] c o Hk Ho.
      - rewrite Hl0 in Hk. apply Some_inj in Hk. subst c. apply calls_in in Ho. destruct Ho as [i [l [n [Hi Hci]]]]. destruct i as [e|id0 l0 n0|k0]; cbn in Hci; try discriminate. inversion Hci; subst. rewrite Forall_forall in Hpc. destruct (Hpc _ Hi o l n eq_refl) as [d [Hd _]]. pose proof (cpool_get_lt _ _ _ Hd). destruct o; [discriminate|lia].
      - rewrite HlS in Hk. destruct (Hok (S k) c Hk) as [_ [_ [Hp Hlt]]]. specialize (Hlt o Ho). apply calls_in in Ho. destruct Ho as [i [l [n [Hi Hci]]]]. destruct i as [e|id0 l0 n0|k0]; cbn in Hci; try discriminate. inversion Hci; subst. rewrite Forall_forall in Hp. destruct (Hp _ Hi o l n eq_refl) as [d [Hd _]]. destruct o; [discriminate|lia]. }
    assert (Hka : length add = if random then 1 else 0).
    { destruct random.
      - pose proof (e_need _ _ _ _ _ _ _ _ X (conj eq_refl (Hneed eq_refl))) as Hne. unfold expanded in He. apply obind_some in He. destruct He as [ol [_ He]]. cbv zeta in He. apply obind_some in He. destruct He as [? [_ He]]. apply obind_some in He. destruct He as [P [_ He]]. apply obind_some in He. destruct He as [cns [_ He]]. apply obind_some in He. destruct He as [outs [_ He]].
        destruct (comb _ _ _ _ _ _ _ _ _ _) as [[i2 m2] a2] eqn:Ec. inversion He; subst add. apply comb_root1 in Ec; [|reflexivity|cbn; lia]. destruct a2 as [|x1 [|y1 a2]]; [contradiction|reflexivity|cbn in Ec; lia].
      - destruct (e_cons _ _ _ _ _ _ _ _ X eq_refl) as [_ ->]. reflexivity. }
    assert (Hctx : forall E : Env F, (exists r, e_rnd E r) -> ctx E cs pool).
    { intros E Hr. constructor; auto. intros id c ins Hc Hl. destruct (total_run DI L E cs _ (total_dest E cs Hr) Wcs Hrank id c ins (Hget _ _ Hc) Hl) as [outs [b Hb]]. exists outs. pose proof (run_true E cs Hncon _ _ _ _ Hb) as ->. auto. }
    assert (Hlo : length (outputs root) = length add + length (outputs c0)) by (cbn [root outputs]; rewrite app_length, (e_lo _ _ _ _ _ _ _ _ X); auto).
    destruct (wr_root _ _ W) as [c1 [Hc1 Hz]]. rewrite Hc0 in Hc1. apply Some_inj in Hc1. subst c1.
    assert (Ez : expected_num_output_zeroes rc' = expected_num_output_zeroes rc + (if random then 1 else 0)) by (subst rc'; reflexivity).
    constructor; auto; [|subst rc'; reflexivity|rewrite Ecs; auto|].
    - split; rewrite ?Ecs; auto; [eexists; exact Hrank|]. exists root. split; auto. rewrite Ez, Hlo. lia.
    - exists c0, root, (length add). rewrite Ecs. split; auto. split; auto. split; auto. split; auto. split; auto. intros E ins Hr Hins. destruct (e_sem _ _ _ _ _ _ _ _ X E cs pool (Hctx E Hr) (pool_le_refl _) ins Hins) as [SA SB]. split.
      + intros all b' Hrun. pose proof (run_true E cs Hncon _ _ _ _ Hrun) as ->. split; auto. apply run_iff in Hrun. destruct Hrun as [c1 [nv [b0 [Hc1 [X1 [_ [_ [-> _]]]]]]]]. rewrite Hl0 in Hc1. apply Some_inj in Hc1. subst c1. cbn [root outputs instructions] in *. pose proof (exec_true E cs Hncon _ _ _ _ X1) as ->. destruct (SA nv X1) as [b [B1 B2]]. exists b.
        rewrite map_app. rewrite <- (map_length (getv nv) add) at 1 2. rewrite firstn_app, Nat.sub_diag, firstn_all, firstn_O, app_nil_r, skipn_app, Nat.sub_diag, skipn_all, skipn_O. auto.
      + intros outs b a Hrun HT. destruct (SB outs b a Hrun HT) as [nv [X1 [-> X3]]]. exists (map (getv nv) add). split; [apply map_length|]. split; auto. apply run_iff. exists root, nv, true. split; auto. split; auto. split; [constructor|].
        pose proof (exec_len DI L _ _ _ _ _ _ (wf_calls _ _ Wcs 0 root Hl0) X1) as Hlen. cbn [length] in Hlen. split; [eapply Forall_impl; [|exact (wf_out _ _ Wroot)]; unfold inb; cbn beta; intros; rewrite Hnin in *; lia|]. split; [cbn [root outputs]; rewrite map_app; auto|reflexivity].
  Qed.
End Top.
