(* The schedule of a circuit is always found: compute_layers never panics on a well-formed circuit whose calls all have arguments. *)
From Verif Require Import Prelude Field Zp Sorting Expr Topo Ir IrInst InputMapping Layered IrFacts Sim Layering LaySem LaySched.
Open Scope nat_scope.

Lemma omap_total {A B} (f : A -> option B) l : (forall x, In x l -> exists y, f x = Some y) -> exists r, omap f l = Some r.
Proof.
  induction l as [|x l IH]; intros H; cbn [omap]; [eauto|]. destruct (H x (or_introl eq_refl)) as [y Hy]. destruct IH as [r Hr]; [intros; apply H; right; auto|]. rewrite Hy, Hr. cbn [obind]. eauto.
Qed.
Lemma ofold_total {A B} (f : A -> B -> option A) (P : A -> Prop) l : (forall a x, In x l -> P a -> exists a', f a x = Some a' /\ P a') -> forall a, P a -> exists r, ofold f l a = Some r /\ P r.
Proof.
  induction l as [|x l IH]; intros Hf a Ha; cbn [ofold]; [eauto|]. destruct (Hf a x (or_introl eq_refl) Ha) as [a' [E Ha']]. rewrite E. cbn [obind]. apply IH; auto. intros; apply Hf; auto. right; auto.
Qed.
Lemma guard_true b : b = true -> guard b = Some tt.
Proof. intros ->. auto. Qed.
Lemma cc_out_le (root : bool) (layers : list nat) (b : nat) : forall out : nat, out <= b -> (forall i, In i layers -> (if root then i else i + 1) <= b) -> cc_out root out layers <= b.
Proof.
  unfold cc_out. induction layers as [|i layers IH]; intros out H1 H2; cbn [fold_left]; auto. apply IH; [|intros; apply H2; right; auto].
  pose proof (H2 i (or_introl eq_refl)). destruct (out <? i + 1); auto.
Qed.
Lemma last_in {A} (l : list A) d : l <> [] -> In (last l d) l.
Proof. induction l as [|x l IH]; intros H; [congruence|]. destruct l as [|y l]; [left; auto|]. right. apply IH. congruence. Qed.
Lemma sorted_last (l : list nat) x : StronglySorted lt l -> In x l -> x <= last l 0.
Proof.
  induction l as [|a l IH]; intros Hs Hx; [destruct Hx|]. inversion Hs as [|? ? Hs' Hf]; subst. destruct l as [|b l]; [destruct Hx as [<-|[]]; cbn; auto|].
  change (last (a :: b :: l) 0) with (last (b :: l) 0). destruct Hx as [<-|Hx]; [|apply IH; auto]. rewrite Forall_forall in Hf. specialize (Hf (last (b :: l) 0) (last_in (b :: l) 0 ltac:(discriminate))). lia.
Qed.

Section LayTotA.
  Context {F : Fld}.
  Notation DI := (DestI F true).
  Notation Ctx := (Ctx (F := F)).
  Variable cross : bool.

  Lemma compute_intro ctxs root (c : Circuit DI) subs starts occ :
    omap (fun l => lookup (cl_sub l) ctxs) (calls_of c) = Some subs ->
    omap (fun k => let* _ := guard (getn (d_adv c subs) (d_nv c + k) <=? getn (d_ml c subs) (d_nv c + k)) in Some (getn (d_ml c subs) (d_nv c + k) - getn (d_adv c subs) (d_nv c + k))) (seq 0 (d_ns c)) = Some starts ->
    (root = true -> d_out2 root c subs starts < length (d_cc1 root c subs starts)) ->
    forallb (fun k => getn (d_ml2 root c subs starts) (d_nv c + k) =? getn (d_mx root c subs starts) (d_nv c + k)) (seq 0 (d_ns c)) = true ->
    (if cross then omap (fun x => if x =? 0 then Some [] else occured (d_edges2 root c subs starts) (d_adv2 root c subs starts) (d_ml3 root c subs starts) (d_mx2 root c subs starts) (outputs c) (d_out root c subs starts) x)
        (seq 0 (length (d_ml2 root c subs starts))) else Some []) = Some occ ->
    compute_layers cross ctxs root c = Some (d_X root c subs starts occ [], snd (d_rh root c subs starts)).
  Proof.
    intros Es Est Hr Hg Eocc. unfold compute_layers. rewrite Es. cbn [obind].
    fold (d_kd c) in *. fold (d_nv c) in *. fold (d_ns c) in *. fold (d_deps subs) in *. fold (d_adv c subs) in *. fold (d_edges c) in *. fold (d_q c) in *. fold (d_init c) in *. fold (d_ml c subs) in *.
    rewrite Est. cbn [obind].
    fold (d_mo c subs) in *. fold (d_n c) in *. fold (d_rh root c subs starts) in *. fold (d_out1 c subs starts) in *.
    destruct (d_rh root c subs starts) as [raws has0] eqn:Erh. assert (Hraws : raws = fst (d_rh root c subs starts)) by (rewrite Erh; auto). rewrite Hraws.
    fold (d_cc0 root c subs starts) in *. fold (d_cl0 root c subs starts) in *. fold (d_out2 root c subs starts) in *. fold (d_ml2 root c subs starts) in *. fold (d_adv2 root c subs starts) in *. fold (d_edges2 root c subs starts) in *.
    fold (d_cc1 root c subs starts) in *. fold (d_mx root c subs starts) in *.
    match goal with |- (let* s := ?o in _) = _ => assert (Eo : o = Some (d_out3 root c subs starts)) end.
    { unfold d_out3. destruct root; auto. specialize (Hr eq_refl). apply Nat.ltb_lt in Hr. rewrite Hr. auto. }
    rewrite Eo. cbn [obind]. rewrite (guard_true _ Hg). cbn [obind].
    fold (d_out4 root c subs starts) in *. 
    change (fun k : nat => forallb (fun y : nat => getn (d_ml2 root c subs starts) y =? d_out4 root c subs starts) (outs_of (d_edges2 root c subs starts) (d_nv c + k)) &&
       (negb (length (filter (fun y : nat => memb y (outputs c)) (outs_of (d_edges2 root c subs starts) (d_nv c + k))) =? 0) || match nth_error subs k with Some X => existsb is_some (x_cc X) | None => false end) &&
       negb (length (filter (fun y : nat => memb y (outputs c)) (outs_of (d_edges2 root c subs starts) (d_nv c + k))) =? length (outs_of (d_edges2 root c subs starts) (d_nv c + k)))) with (d_partial root c subs starts).
    fold (d_out root c subs starts) in *. fold (d_cc root c subs starts) in *. fold (d_mx2 root c subs starts) in *. fold (d_ml3 root c subs starts) in *.
    rewrite Eocc. cbn [obind]. reflexivity.
  Qed.

  Section One.
    Variables (root : bool) (c : Circuit DI) (subs : list Ctx).
    Hypothesis Hw : wf_circuit DI c.
    Hypothesis Hsubs : length subs = d_ns c.
    Hypothesis Hdep : forall Y, In Y subs -> 1 <= x_out Y.
    Hypothesis Hcci : forall Y j, In Y subs -> cc_at (x_cc Y) j = true -> j < x_out Y.
    Hypothesis Harg : forall l, In l (calls_of c) -> cl_ins l <> [].
    Notation kd := (kinds c). Notation nv := (d_nv c). Notation ns := (d_ns c). Notation ni := (num_inputs c).
    Notation m := (d_ml c subs). Notation adv := (d_adv c subs). Notation edges := (d_edges c). Notation cl := (calls_of c).
    Definition start_f := (fun k => let* _ := guard (getn (d_adv c subs) (d_nv c + k) <=? getn (d_ml c subs) (d_nv c + k)) in Some (getn (d_ml c subs) (d_nv c + k) - getn (d_adv c subs) (d_nv c + k))).
    Lemma starts_total : exists starts, omap start_f (seq 0 ns) = Some starts.
    Proof.
      apply omap_total. intros k Hk. apply in_seq in Hk. unfold start_f. destruct (nth_error_Some_ex cl k) as [l Hl]; [fold (d_ns c); lia|].
      specialize (Harg l (nth_error_In _ _ Hl)). destruct (cl_ins l) as [|x t] eqn:El; [congruence|].
      assert (He : In (x, nv + k) edges) by (eapply edge_arg; eauto; rewrite El; left; auto).
      pose proof (m_edge false c subs [] Hw Hsubs ltac:(discriminate) _ _ He) as Hm. rewrite guard_true by (apply Nat.leb_le; lia). cbn [obind]. eauto.
    Qed.
    Variable starts : list nat.
    Hypothesis Hst : omap start_f (seq 0 ns) = Some starts.
    Notation mo := (d_mo c subs).
    Lemma out1_le : d_out1 c subs starts <= mo + 1.
    Proof.
      apply fold_max_le; [lia|]. intros x Hx. apply in_app_iff in Hx. destruct Hx as [Hx|Hx].
      - apply in_map_iff in Hx. destruct Hx as [[a b] [<- Hx]]. apply In_nth_error in Hx. destruct Hx as [k Hk]. cbn [fst snd].
        assert (Hlen : length starts = ns) by (apply omap_length in Hst; rewrite seq_length in Hst; auto).
        assert (Hkl : k < ns). { apply nth_error_Some_lt in Hk. rewrite combine_length in Hk. lia. }
        destruct (nth_error_Some_ex subs k) as [Y HY]; [lia|]. destruct (start_at false c subs starts Hsubs Hst ltac:(discriminate) _ _ HY) as [S1 _].
        assert (Hd : nth_error (d_deps subs) k = Some (x_out Y)) by (unfold d_deps; rewrite nth_error_map, HY; auto).
        rewrite (combine_at _ _ _ _ _ S1 Hd) in Hk. injection Hk as <- <-. apply (mo_call false c subs starts Hsubs Hdep Hst ltac:(discriminate) _ _ HY).
      - assert (In x m). { rewrite <- (firstn_skipn 1 m). apply in_app_iff. right. rewrite <- (firstn_skipn (nv - 1) (skipn 1 m)). apply in_app_iff. left; auto. }
        pose proof (maxl_in m x H). unfold d_mo. lia.
    Qed.
    Lemma cc0_len : length (d_cc0 root c subs starts) = mo + 3 /\ (root = true -> forall i, cc_at (d_cc0 root c subs starts) i = false) \/ length (d_cc0 root c subs starts) = mo + 2 /\ root = true.
    Proof.
      unfold d_cc0. rewrite cc_num_len. unfold d_rh, cc_merge. fold (d_raw c subs starts). destruct root; [|left; split; [cbn [fst]; rewrite map_length, seq_length; auto|discriminate]].
      destruct (find_first cc_nonempty (map (d_raw c subs starts) (seq 0 (mo + 3)))) as [first|] eqn:Ef; cbn [fst]; rewrite map_length, seq_length; [right; auto|]. left. split; auto. intros _ i. apply not_true_iff_false. rewrite cc_num_at.
      intros [p [P1 P2]]. rewrite map_seq_at in P1. destruct (i <? mo + 3); [|discriminate]. injection P1 as <-.
      rewrite (M_none false c subs starts Hw Hsubs Hdep Hcci Hst ltac:(discriminate) Ef) in P2. discriminate.
    Qed.
    Lemma out2_le : d_out2 root c subs starts < length (d_cc0 root c subs starts).
    Proof.
      assert (Hc : exists b, d_out2 root c subs starts <= b /\ b < length (d_cc0 root c subs starts)); [|destruct Hc as [b Hb]; lia]. pose proof out1_le.
      destruct cc0_len as [[Hl H0]|[Hl Hr]].
      - exists (mo + 2). split; [|lia]. apply cc_out_le; [lia|]. intros i Hi. apply cc_layers_in in Hi. destruct Hi as [_ Hi]. rewrite Nat.sub_0_r in Hi. destruct root eqn:Er; [rewrite H0 in Hi by auto; discriminate|].
        apply cc_at_iff in Hi. destruct Hi as [a Ha]. pose proof (cc0_inv false c subs starts Hw Hsubs Hdep Hcci Hst ltac:(discriminate) _ _ Ha). lia.
      - exists (mo + 1). split; [|lia]. apply cc_out_le; [lia|]. intros i Hi. apply cc_layers_in in Hi. destruct Hi as [_ Hi]. rewrite Nat.sub_0_r in Hi. rewrite Hr in *. apply cc_at_iff in Hi. destruct Hi as [a Ha]. apply nth_error_Some_lt in Ha. lia.
    Qed.
    Lemma cc1_len : d_out2 root c subs starts < length (d_cc1 root c subs starts).
    Proof.
      pose proof out2_le as Hl. destruct (cc_popped (d_cc0 root c subs starts) (d_out2 root c subs starts)) as [t [H1 H2]]. fold (d_cc1 root c subs starts) in *. destruct t as [|t]; [|apply H2; auto]. cbn [repeat] in H1. rewrite app_nil_r in H1. rewrite <- H1. auto.
    Qed.
    Lemma Hroot' : root = true -> d_out2 root c subs starts < length (d_cc1 root c subs starts).
    Proof. intros _. apply cc1_len. Qed.
    Notation ml2 := (d_ml2 root c subs starts). Notation adv2 := (d_adv2 root c subs starts). Notation edges2 := (d_edges2 root c subs starts). Notation out := (d_out root c subs starts).
    Notation mx := (d_mx root c subs starts). Notation mx2 := (d_mx2 root c subs starts). Notation ml3 := (d_ml3 root c subs starts). Notation cl0 := (d_cl0 root c subs starts).
    Lemma cc_len : out < length (d_cc root c subs starts).
    Proof.
      pose proof cc1_len as Hl. unfold d_cc. destruct (Nat.eqb_spec out (length (d_cc1 root c subs starts))) as [E|E]; [rewrite app_length; cbn; lia|].
      assert (H4 : d_out4 root c subs starts <= length (d_cc1 root c subs starts)) by (unfold d_out4, d_out3; destruct root; lia). unfold d_out in *. destruct (existsb (d_partial root c subs starts) (seq 0 ns)) eqn:Ep; [|lia].
      assert (Hc : d_out4 root c subs starts < length (d_cc1 root c subs starts)); [|lia].
      apply existsb_exists in Ep. destruct Ep as [k [Hk _]]. apply in_seq in Hk. destruct (nth_error_Some_ex subs k) as [Y HY]; [lia|].
      pose proof (out1_call root c subs starts Hsubs Hst Hroot' _ _ HY) as H1. pose proof (Hdep Y (nth_error_In _ _ HY)).
      pose proof (out2_ge root c subs starts Hsubs Hroot') as [H2 _]. unfold d_out4, d_out3. destruct root; lia.
    Qed.
    Lemma mx_at x : x < length ml2 -> getn mx x = fold_left Nat.max (map (fun y => getn ml2 y - getn adv2 y) (outs_of edges2 x)) (getn ml2 x).
    Proof. intros H. unfold d_mx. rewrite getn_map_seq by auto. auto. Qed.
    (* nodes that are not variables are used exactly where they are *)
    Lemma node_use x y : In (x, y) edges2 -> nv <= x -> getn ml2 y - getn adv2 y = getn ml2 x.
    Proof.
      intros He Hx. apply edges2_inv in He. destruct He as [He|[i [a [Ha [Hv ->]]]]].
      - destruct (edge_inv root c subs starts Hsubs Hroot' x y He) as [[e [E1 [E2 E3]]]|[[k [l [E1 [-> E3]]]]|[k [l [E1 [E2 ->]]]]]].
        + pose proof (expr_range root c subs starts Hw Hsubs Hroot' _ _ _ E1 E2). lia.
        + pose proof (arg_range root c subs starts Hw Hsubs Hroot' _ _ _ E1 E3). lia.
        + destruct (out_kind root c subs starts Hsubs Hroot' k l y E1 E2) as [K1 K2]. destruct (nth_error_Some_ex subs k) as [Y HY]; [apply nth_error_Some_lt in E1; fold (d_ns c) in E1; lia|].
          assert (k < ns) by (apply nth_error_Some_lt in E1; auto). rewrite !ml2_at, adv2_at, (adv_at _ _ _ _ K1) by lia. cbn [kind_adv].
          rewrite (m_out root c subs starts Hw Hsubs Hdep Hst Hroot' _ _ _ _ E1 HY E2). destruct (start_at root c subs starts Hsubs Hst Hroot' _ _ HY) as [_ S2]. pose proof (Hdep Y (nth_error_In _ _ HY)). lia.
      - destruct (cc0_inv root c subs starts Hw Hsubs Hdep Hcci Hst Hroot' _ _ Ha) as [R1 [_ [_ [ch [D1 [_ [_ D4]]]]]]]. destruct (cc_ml2 root c subs starts Hw Hsubs Hdep Hcci Hst Hroot' _ _ Ha) as [-> [-> _]].
        rewrite D1 in Hv. apply in_app_iff in Hv. destruct Hv as [Hv|Hv]; [apply raw_fst in Hv; destruct Hv as [Hv _]; apply (con_range root c subs starts Hw Hsubs Hroot') in Hv; lia|].
        destruct (D4 _ Hv) as [a' [D5 <-]]. destruct (cc_ml2 root c subs starts Hw Hsubs Hdep Hcci Hst Hroot' _ _ D5) as [-> _]. auto.
    Qed.
    Lemma mx_node x : x < length ml2 -> nv <= x -> getn mx x = getn ml2 x.
    Proof.
      intros Hl Hx. rewrite mx_at by auto. apply Nat.le_antisymm; [|apply fold_max_ge]. apply fold_max_le; auto. intros z Hz. apply in_map_iff in Hz. destruct Hz as [y [<- Hy]]. apply outs_of_In in Hy. rewrite (node_use x y Hy Hx). auto.
    Qed.
    Lemma out_range x : In x (outputs c) -> 1 <= x < nv.
    Proof. intros Hx. pose proof (wf_out _ _ Hw) as Ho. rewrite Forall_forall in Ho. apply Ho in Hx. rewrite nv_sum. lia. Qed.
    Lemma mx_guard : forallb (fun k => getn ml2 (nv + k) =? getn mx (nv + k)) (seq 0 ns) = true.
    Proof.
      apply forallb_forall. intros k Hk. apply in_seq in Hk. apply Nat.eqb_eq. symmetry. apply mx_node; [|lia]. pose proof (len2 root c subs starts Hsubs Hroot'). lia.
    Qed.
    Lemma dest_nc x y co : In (x, y) edges2 -> nth_error kd y <> Some (OCoef co).
    Proof.
      intros He. apply edges2_inv in He. destruct He as [He|[i [a [Ha [Hv ->]]]]].
      - apply (edge_range root c subs starts Hw Hsubs Hroot' _ _ He).
      - destruct (cc_ml2 root c subs starts Hw Hsubs Hdep Hcci Hst Hroot' _ _ Ha) as [_ [_ R]]. intros E. apply nth_error_Some_lt in E. change (cc_id a < nv) in E. lia.
    Qed.
    Lemma dest_lt x y : In (x, y) edges2 -> y < length ml2.
    Proof.
      intros He. apply edges2_inv in He. destruct He as [He|[i [a [Ha [Hv ->]]]]].
      - pose proof (edge_range root c subs starts Hw Hsubs Hroot' _ _ He). pose proof (len2 root c subs starts Hsubs Hroot'). lia.
      - apply (cc_ml2 root c subs starts Hw Hsubs Hdep Hcci Hst Hroot' _ _ Ha).
    Qed.
    Lemma occ_total x : 1 <= x < length ml2 -> exists t, occured edges2 adv2 ml3 mx2 (outputs c) out x = Some t.
    Proof.
      intros Hx. unfold occured. set (l := getn ml3 x :: _). set (t := dedup (isort Nat.leb l)).
      assert (Hin : forall i, In i t <-> In i l). { intros i. unfold t. rewrite dedup_In. split; apply Permutation_in; [|apply Permutation_sym]; apply isort_perm. }
      pose proof (dedup_sorted _ (isort_le l)) as Hs. fold t in Hs.
      assert (Hc : forall i, In i l <-> i = getn ml3 x \/ (exists y, In (x, y) edges2 /\ i = getn ml2 y - getn adv2 y) \/ (In x (outputs c) /\ i = out)).
      { intros i. unfold l. cbn [In]. rewrite in_app_iff, in_map_iff. split.
        - intros [<-|[[y [<- Hy]]|Hi]]; auto; [right; left; exists y; apply outs_of_In in Hy; split; auto; rewrite ml3_nc; auto; [eapply dest_lt; eauto|intros co; eapply dest_nc; eauto]|]. destruct (memb x (outputs c)) eqn:Em; [|destruct Hi]. apply memb_spec in Em. destruct Hi as [<-|[]]. auto.
        - intros [->|[[y [Hy ->]]|[Hi ->]]]; auto; [right; left; exists y; split; [rewrite ml3_nc; auto; [eapply dest_lt; eauto|intros co; eapply dest_nc; eauto]|apply outs_of_In; auto]|]. apply memb_spec in Hi. rewrite Hi. right; right. left; auto. }
      assert (Hmx2 : getn mx2 x = if memb x (outputs c) then out else getn mx x) by (unfold d_mx2; rewrite getn_map_seq by lia; auto).
      assert (Hfacts : (forall i, In i l -> getn ml3 x <= i <= getn mx2 x) /\ In (getn mx2 x) l).
      { destruct (Nat.lt_ge_cases x nv) as [Hv|Hv].
        - destruct (ml3_facts root c subs starts Hw Hsubs Hdep Hcci Hst Hroot' x ltac:(lia)) as [M1 [M2 M3]]. split.
          + intros i Hi. apply Hc in Hi. destruct Hi as [->|[[y [Hy ->]]|[Hi ->]]]; [lia| |].
            * split; auto. apply (mx2_use root c subs starts Hw Hsubs Hdep Hcci Hst Hroot'); auto.
            * apply memb_spec in Hi. rewrite Hi in Hmx2. lia.
          + apply Hc. rewrite Hmx2. destruct (memb x (outputs c)) eqn:Em; [right; right; apply memb_spec in Em; auto|].
            (* the maximum is reached *)
            assert (Hmax : forall (ys : list nat) a, In (fold_left Nat.max ys a) (a :: ys)).
            { clear. induction ys as [|y ys IH]; intros a; cbn [fold_left]; [left; auto|]. destruct (IH (Nat.max a y)) as [E|E]; [rewrite <- E; destruct (Nat.max_spec a y) as [[_ ->]|[_ ->]]; cbn; auto|right; right; auto]. }
            pose proof (Hmax (map (fun y => getn ml2 y - getn adv2 y) (outs_of edges2 x)) (getn ml2 x)) as Hm. rewrite <- mx_at in Hm by lia. destruct Hm as [Hm|Hm].
            * (* no later use *) left. rewrite <- Hm. assert (Hge := M2). rewrite Hmx2, <- Hm in Hge. lia.
            * apply in_map_iff in Hm. destruct Hm as [y [Hy1 Hy2]]. right; left. exists y. split; [apply outs_of_In; auto|auto].
        - assert (Em : memb x (outputs c) = false). { apply not_true_iff_false. intros E. apply memb_spec, out_range in E. lia. }
          rewrite Em, mx_node in Hmx2 by lia. assert (E3 : getn ml3 x = getn ml2 x). { apply ml3_nc; [lia|]. intros co E. apply nth_error_Some_lt in E. change (x < nv) in E. lia. }
          split; [|apply Hc; left; congruence]. intros i Hi. apply Hc in Hi. rewrite Hmx2, E3 in *. destruct Hi as [->|[[y [Hy ->]]|[Hi _]]]; [lia|rewrite (node_use x y) by auto; lia|]. apply out_range in Hi. lia. }
      destruct Hfacts as [H1 H2]. assert (Ht : t <> []). { intros E. apply (in_nil (a := getn mx2 x)). rewrite <- E. apply Hin. auto. }
      assert (Hl : last t 0 = getn mx2 x). { apply Nat.le_antisymm; [apply H1, Hin, last_in; auto|]. apply sorted_last; auto. apply Hin; auto. }
      assert (Hh : hd 0 t = getn ml3 x).
      { assert (Hmin : In (getn ml3 x) t) by (apply Hin, Hc; auto). destruct t as [|a t'] eqn:Et; [congruence|]. cbn [hd]. apply Nat.le_antisymm; [|apply H1, Hin; left; auto]. inversion Hs as [|? ? _ Hf]; subst. destruct Hmin as [->|Hmin]; auto. rewrite Forall_forall in Hf. apply Hf in Hmin. lia. }
      rewrite Hl, Hh, !Nat.eqb_refl. cbn [andb]. eauto.
    Qed.
  End One.

  Lemma compute_total ctxs root (c : Circuit DI) : wf_circuit DI c -> (forall l, In l (calls_of c) -> cl_ins l <> [] /\ exists Y, lookup (cl_sub l) ctxs = Some Y /\ 1 <= x_out Y /\ forall j, cc_at (x_cc Y) j = true -> j < x_out Y) ->
    exists subs starts occ, omap (fun l => lookup (cl_sub l) ctxs) (calls_of c) = Some subs /\ length subs = d_ns c /\
      (forall Y, In Y subs -> 1 <= x_out Y) /\ (forall Y j, In Y subs -> cc_at (x_cc Y) j = true -> j < x_out Y) /\ omap (start_f c subs) (seq 0 (d_ns c)) = Some starts /\
      (root = true -> d_out2 root c subs starts < length (d_cc1 root c subs starts)) /\
      (if cross then omap (fun x => if x =? 0 then Some [] else occured (d_edges2 root c subs starts) (d_adv2 root c subs starts) (d_ml3 root c subs starts) (d_mx2 root c subs starts) (outputs c) (d_out root c subs starts) x)
        (seq 0 (length (d_ml2 root c subs starts))) else Some []) = Some occ /\
      d_out root c subs starts < length (d_cc root c subs starts) /\
      compute_layers cross ctxs root c = Some (d_X root c subs starts occ [], snd (d_rh root c subs starts)).
  Proof.
    intros Hw Hl. destruct (omap_total (fun l => lookup (cl_sub l) ctxs) (calls_of c)) as [subs Hs]; [intros l Hin; destruct (Hl l Hin) as [_ [Y [HY _]]]; eauto|].
    assert (Hls : length subs = d_ns c) by (apply omap_length in Hs; auto).
    assert (Hin : forall Y, In Y subs -> 1 <= x_out Y /\ forall j, cc_at (x_cc Y) j = true -> j < x_out Y).
    { intros Y HY. apply In_nth_error in HY. destruct HY as [q HY]. destruct (nth_error_Some_ex (calls_of c) q) as [l Hq]; [apply nth_error_Some_lt in HY; rewrite Hls in HY; auto|].
      destruct (omap_at _ _ _ _ _ Hs Hq) as [Y' [E1 E2]]. assert (Y' = Y) by congruence. subst Y'. destruct (Hl l (nth_error_In _ _ Hq)) as [_ [Y' [E3 E4]]]. assert (Y' = Y) by congruence. subst Y'. auto. }
    assert (Hdep : forall Y, In Y subs -> 1 <= x_out Y) by (intros Y HY; exact (proj1 (Hin Y HY))).
    assert (Hcci : forall Y j, In Y subs -> cc_at (x_cc Y) j = true -> j < x_out Y) by (intros Y j HY; apply Hin; auto).
    assert (Harg : forall l, In l (calls_of c) -> cl_ins l <> []) by (intros l H; apply Hl; auto).
    destruct (starts_total c subs Hw Hls Harg) as [starts Hst].
    assert (Ho : exists occ, (if cross then omap (fun x => if x =? 0 then Some [] else occured (d_edges2 root c subs starts) (d_adv2 root c subs starts) (d_ml3 root c subs starts) (d_mx2 root c subs starts) (outputs c) (d_out root c subs starts) x)
        (seq 0 (length (d_ml2 root c subs starts))) else Some []) = Some occ).
    { destruct cross; [|eauto]. apply omap_total. intros x Hx. apply in_seq in Hx. destruct (Nat.eqb_spec x 0); [eauto|]. apply occ_total; auto. lia. }
    destruct Ho as [occ Ho]. exists subs, starts, occ. split; [auto|]. split; [auto|]. split; [auto|]. split; [auto|]. split; [auto|].
    assert (Hr : root = true -> d_out2 root c subs starts < length (d_cc1 root c subs starts)) by (apply Hroot'; auto). split; [auto|]. split; [auto|]. split; [apply cc_len; auto|].
    apply compute_intro; auto. apply mx_guard; auto.
  Qed.
End LayTotA.
