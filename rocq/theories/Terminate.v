(* The optimisation loops of the compiler (compile/mod.rs:59-77) end: each round that changes the circuit makes it smaller. *)
From Verif Require Import Prelude Field InputMapping Expr Topo Ir IrFacts IrInst Sim Bfs RemoveUnreachable ReassignDup RevPass FixedPoint.

(* what the traits of the IRs also satisfy: renaming variables to themselves changes nothing, and a call is determined by its parts *)
Record IRC_id {F : Fld} (I : IRC F) : Prop := {
  k_call : forall (i : Insn I) sub l n, i_call i = Some (sub, l, n) -> i_mkcall I sub l n = i;
  k_repl : forall f (i : Insn I), (forall x, In x (i_inputs i) -> f x = x) -> i_replace f i = i;
  k_con : forall f (c : Con I), f (c_var c) = c_var c -> c_replace f c = c }.

(* ------------------------------------------------------------ sums over association lists *)
Section Sums.
  Context {A : Type} (w : A -> nat).
  Definition sum (l : list A) : nat := fold_right (fun x a => w x + a) 0 l.
  Lemma sum_app a b : sum (a ++ b) = sum a + sum b.
  Proof. induction a as [|x a IH]; [reflexivity|]. cbn [app]. change (w x + sum (a ++ b) = w x + sum a + sum b). lia. Qed.
  Lemma sum_rev a : sum (rev a) = sum a.
  Proof. induction a as [|x a IH]; cbn [rev]; auto. rewrite sum_app, IH. change (sum a + (w x + 0) = w x + sum a). lia. Qed.
  Lemma sum_cons x a : sum (x :: a) = w x + sum a.
  Proof. reflexivity. Qed.
  Hypothesis Hw : forall x, 1 <= w x.
  Lemma sum_incl a : forall b, NoDup a -> incl a b -> sum a <= sum b /\ (sum a = sum b -> incl b a).
  Proof.
    induction a as [|x a IH]; intros b Hn Hi.
    - cbn. split; [lia|]. intros H y Hy. destruct b as [|z b]; [destruct Hy|]. exfalso. rewrite sum_cons in H. change (sum []) with 0 in H. specialize (Hw z). lia.
    - inversion Hn as [|? ? Hx Hn']; subst. destruct (in_split x b (Hi x (or_introl eq_refl))) as [b1 [b2 ->]].
      destruct (IH (b1 ++ b2) Hn') as [H1 H2].
      { intros y Hy. assert (Hy' : In y (b1 ++ x :: b2)) by (apply Hi; right; auto). apply in_app_or in Hy'. apply in_or_app. destruct Hy' as [|[<-|]]; auto. contradiction. }
      rewrite !sum_app in *. rewrite !sum_cons. split; [lia|]. intros He y Hy. apply in_app_or in Hy.
      assert (Hb : incl (b1 ++ b2) a) by (apply H2; lia). destruct Hy as [Hy|[<-|Hy]]; [right|left|right]; auto; apply Hb; apply in_or_app; auto.
  Qed.
End Sums.
Lemma sum_map {A B} (w : B -> nat) (f : A -> B) l : sum w (map f l) = sum (fun x => w (f x)) l.
Proof. unfold sum. induction l as [|x l IH]; cbn; auto. Qed.
Lemma sum_le {A} (w w' : A -> nat) l : (forall x, In x l -> w x <= w' x) -> sum w l <= sum w' l /\ (sum w l = sum w' l -> forall x, In x l -> w x = w' x).
Proof.
  unfold sum. induction l as [|x l IH]; intros H; cbn [fold_right]; [split; auto; intros _ x []|].
  destruct IH as [I1 I2]; [intros; apply H; right; auto|]. pose proof (H x (or_introl eq_refl)). split; [lia|]. intros He y [<-|Hy]; [lia|]. apply I2; auto. lia.
Qed.
Lemma NoDup_keys {A} (l : list (nat * A)) : NoDup (keys l) -> NoDup l.
Proof. apply NoDup_map_inv. Qed.
Lemma ntrue_full m : ntrue m = length m -> forall b, In b m -> b = true.
Proof.
  induction m as [|[] m IH]; intros H b Hb; [destruct Hb| |].
  - change (ntrue (true :: m)) with (S (ntrue m)) in H. cbn [length] in H. destruct Hb as [<-|Hb]; auto.
  - change (ntrue (false :: m)) with (ntrue m) in H. cbn [length] in H. pose proof (ntrue_le m). lia.
Qed.
Lemma full_repeat (m : list bool) : (forall b, In b m -> b = true) -> m = repeat true (length m).
Proof. induction m as [|b m IH]; intros H; cbn; auto. rewrite (H b (or_introl eq_refl)). f_equal. apply IH. intros; apply H; right; auto. Qed.
Lemma keep_le {A} m : forall (l : list A), length (keep m l) <= length l.
Proof. induction m as [|[] m IH]; intros [|x l]; cbn [keep length]; try lia; specialize (IH l); lia. Qed.

(* ------------------------------------------------------------ remove_unreachable *)
Section RU.
  Context {F : Fld} (I : IRC F) (L : IRC_laws I) (K : IRC_id I).
  Notation Circuit := (Circuit I). Notation RootCircuit := (RootCircuit I).

  Definition isize (is : list (Insn I)) : nat := sum (fun i => S (i_nout i + length (i_inputs i))) is.
  Definition csize (c : Circuit) : nat := S (num_inputs c + isize (instructions c) + length (outputs c)).
  Definition rsize (rc : RootCircuit) : nat := sum (fun p : nat * Circuit => csize (snd p)) (circuits rc).

  Definition ru_rules (ucs : list (nat * Circuit)) := flat_map (fun p => circuit_rules I (fst p) (snd p)) ucs.
  Definition ru_seeds (ucs : list (nat * Circuit)) (c0 : Circuit) :=
    flat_map (fun p => circuit_seeds I (fst p) (snd p)) ucs ++ map (fun j => (0, j, TOut)) (seq 0 (length (outputs c0))).
  (* what remove_unreachable does, the marking being characterised *)
  Lemma ru_shape EM rc rc' im : wf_root I rc -> remove_unreachable I EM rc = Some (rc', im) ->
    exists ucs V c0, NoDup (keys ucs) /\ (forall id c, In (id, c) ucs -> lookup id (circuits rc) = Some c) /\
      lookup 0 (circuits rc) = Some c0 /\ In (0, c0) ucs /\ (forall id c o, In (id, c) ucs -> In o (calls c) -> exists co, In (o, co) ucs) /\
      (forall e, visb V e = true <-> reach (ru_rules ucs) (ru_seeds ucs c0) e) /\
      num_public_inputs rc' = num_public_inputs rc /\ expected_num_output_zeroes rc' = expected_num_output_zeroes rc /\
      circuits rc' = map (fun p => (fst p, rb_circuit I (visb V) (fst p) (snd p))) (rev ucs).
  Proof.
    intros [W [rank R] [c0 [Hc0 Hz]]] H. destruct (root_order_spec I rc W (ex_intro _ rank R)) as [q [Hq [Hnd [Hqk Hord]]]].
    unfold remove_unreachable in H. rewrite Hq in H. cbn [obind] in H. set (cs := circuits rc) in *. set (used := mark_used I cs q [0]) in *.
    apply obind_some in H. destruct H as [ucs [Hom H]]. rewrite Hc0 in H. cbn [obind] in H. apply obind_some in H. destruct H as [V [HV H]]. injection H as <- _.
    apply omap_some in Hom.
    assert (Hkeys : keys ucs = filter (fun x => memb x used) q).
    { clear -Hom. induction Hom as [|x [y c] l l' Hx H IH]; cbn [keys map]; auto. apply obind_some in Hx. destruct Hx as [c' [_ Hx]]. injection Hx as -> ->. cbn. f_equal. auto. }
    assert (Hin : forall id c, In (id, c) ucs -> lookup id cs = Some c).
    { intros id c Hi. clear -Hom Hi. induction Hom as [|x [y c'] l l' Hx H IH]; [destruct Hi|]. destruct Hi as [E|Hi]; auto. injection E as -> ->. apply obind_some in Hx. destruct Hx as [c2 [Hl Hx]]. injection Hx as -> ->. auto. }
    assert (Hget : forall x, In x (keys ucs) -> exists c, In (x, c) ucs).
    { intros x Hx. apply in_map_iff in Hx. destruct Hx as [[y c] [E Hy]]. cbn in E. subst. eauto. }
    exists ucs, V, c0. split; [rewrite Hkeys; apply NoDup_filter; auto|]. split; auto. split; auto. split; [|split; [|split; [|auto]]].
    - destruct (Hget 0) as [c Hc]; [|rewrite (Hin _ _ Hc) in Hc0; injection Hc0 as <-; auto]. rewrite Hkeys. apply filter_In. split; [apply Hqk; apply lookup_keys; eauto|]. apply memb_spec. apply mark_used_incl. left; auto.
    - intros id c o Hi Ho. apply Hget. rewrite Hkeys. assert (Hid : In id (keys ucs)) by (apply in_map_iff; exists (id, c); auto). rewrite Hkeys in Hid. apply filter_In in Hid. destruct Hid as [Hi1 Hi2]. apply memb_spec in Hi2.
      apply filter_In. split; [apply Hqk; apply (wf_incl I rc W _ _ (Hin _ _ Hi)); auto|]. apply memb_spec. eapply mark_used_closed; eauto.
    - assert (Hsym : forall a r t, In (a, Some r, t) (ru_rules ucs) -> In (r, Some a, t) (ru_rules ucs)).
      { intros a r t Ht. unfold ru_rules in *. apply in_flat_map in Ht. destruct Ht as [p [Hp Ht]]. apply in_flat_map. exists p; split; auto.
        unfold circuit_rules in *. apply in_app_or in Ht. apply in_or_app. destruct Ht as [Ht|Ht]; [left; apply rules_sym; auto|]. apply in_map_iff in Ht. destruct Ht as [? [? _]]; discriminate. }
      destruct (mark_spec (ru_rules ucs) Hsym (ru_seeds ucs c0)) as [V' [HV' [_ [_ HR]]]]. unfold ru_rules, ru_seeds in HV'. rewrite HV in HV'. injection HV' as <-. intros e. rewrite visb_spec. apply HR.
  Qed.

  (* ---------- size ---------- *)
  Fixpoint full (vis : Elem -> bool) (id k : nat) (is : list (Insn I)) : Prop :=
    match is with
    | [] => True
    | i :: is => vis (id, k, TInsn) = true /\ match i_call i with Some (sub, _, n) => forall b, In b (out_mask vis sub n) -> b = true | None => True end /\ full vis id (S k) is
    end.
  Lemma mkcall_nout sub l n : i_nout (i_mkcall I sub l n) = n /\ i_inputs (i_mkcall I sub l n) = l.
  Proof. destruct (l_call I L _ _ _ _ (l_mkcall I L sub l n)). auto. Qed.
  Lemma rb_insns_size vis id is : forall k vm mx, isize (fst (rb_insns I vis id k is vm mx)) <= isize is /\ (isize (fst (rb_insns I vis id k is vm mx)) = isize is -> full vis id k is).
  Proof.
    induction is as [|i is IH]; intros k vm mx; cbn [rb_insns full]; [cbn; auto|].
    assert (Hs : isize (i :: is) = S (i_nout i + length (i_inputs i) + isize is)) by (unfold isize; rewrite sum_cons; lia).
    destruct (vis (id, k, TInsn)) eqn:Ev.
    - destruct (i_call i) as [[[sub l] n]|] eqn:Ec.
      + destruct (l_call I L _ _ _ _ Ec) as [El En]. set (om := out_mask vis sub n). destruct (rb_insns I vis id (S k) is (vm ++ assign om mx) (mx + ntrue om)) as [is' vm'] eqn:E.
        destruct (IH (S k) (vm ++ assign om mx) (mx + ntrue om)) as [I1 I2]. rewrite E in I1, I2. cbn [fst] in *. rewrite Hs.
        set (i' := i_mkcall I sub (map (vmap vm) (keep (in_mask vis sub (length l)) l)) (ntrue om)) in *. assert (Hs' : isize (i' :: is') = S (i_nout i' + length (i_inputs i') + isize is')) by (unfold isize; rewrite sum_cons; lia).
        rewrite Hs'. unfold i' at 1 2 3 4. destruct (mkcall_nout sub (map (vmap vm) (keep (in_mask vis sub (length l)) l)) (ntrue om)) as [-> ->]. rewrite map_length.
        pose proof (keep_le (in_mask vis sub (length l)) l) as Hkl. pose proof (ntrue_le om) as Hnt. assert (Hol : length om = n) by apply out_mask_length. rewrite El, En. split; [lia|]. intros He. split; auto. split; [|apply I2; lia].
        apply ntrue_full. lia.
      + destruct (rb_insns I vis id (S k) is (vm ++ seq (S mx) (i_nout i)) (mx + i_nout i)) as [is' vm'] eqn:E. destruct (IH (S k) (vm ++ seq (S mx) (i_nout i)) (mx + i_nout i)) as [I1 I2]. rewrite E in I1, I2. cbn [fst] in *. rewrite Hs.
        assert (Hs' : isize (i_replace (vmap vm) i :: is') = S (i_nout i + length (i_inputs i) + isize is')). { unfold isize at 1. rewrite sum_cons, (l_repl_nout I L), (l_repl_inputs I L), map_length. reflexivity. }
        rewrite Hs'. split; [lia|]. intros He. split; auto. split; auto. apply I2. lia.
    - destruct (IH (S k) (vm ++ repeat 0 (i_nout i)) mx) as [I1 I2]. rewrite Hs. split; lia.
  Qed.
  Lemma rb_size vis id c : csize (rb_circuit I vis id c) <= csize c /\
    (csize (rb_circuit I vis id c) = csize c -> (forall b, In b (in_mask vis id (num_inputs c)) -> b = true) /\ (forall b, In b (out_mask vis id (length (outputs c))) -> b = true) /\ full vis id 0 (instructions c)).
  Proof.
    pose proof (rb_num_inputs I vis id c) as Hn. pose proof (rb_outputs_length I vis id c) as Ho. unfold csize. rewrite Hn, Ho.
    assert (Hi : instructions (rb_circuit I vis id c) = fst (rb_insns I vis id 0 (instructions c) (0 :: assign (in_mask vis id (num_inputs c)) 0) (ntrue (in_mask vis id (num_inputs c))))).
    { unfold rb_circuit. destruct (rb_insns I vis id 0 _ _ _). reflexivity. }
    rewrite Hi. destruct (rb_insns_size vis id (instructions c) 0 (0 :: assign (in_mask vis id (num_inputs c)) 0) (ntrue (in_mask vis id (num_inputs c)))) as [I1 I2].
    pose proof (ntrue_le (in_mask vis id (num_inputs c))) as A1. pose proof (ntrue_le (out_mask vis id (length (outputs c)))) as A2. rewrite in_mask_length in A1. rewrite out_mask_length in A2.
    split; [lia|]. intros He. split; [|split; [|apply I2; lia]]; apply ntrue_full; rewrite ?in_mask_length, ?out_mask_length; lia.
  Qed.
  (* when everything is visited, nothing changes *)
  Lemma vmap_id n x : x < n -> vmap (seq 0 n) x = x.
  Proof. intros H. unfold vmap. rewrite seq_nth; auto. Qed.
  Lemma full_insns vis id is : forall k cur, wf_insns I is cur -> full vis id k is ->
    (forall i sub l n, In i is -> i_call i = Some (sub, l, n) -> forall b, In b (in_mask vis sub (length l)) -> b = true) ->
    rb_insns I vis id k is (seq 0 (S cur)) cur = (is, seq 0 (S (cur + nouts I is))).
  Proof.
    induction is as [|i is IH]; intros k cur W Hf Hm; cbn [rb_insns nouts]; [rewrite Nat.add_0_r; auto|]. destruct W as [W1 W2]. destruct Hf as [F1 [F2 F3]]. rewrite F1.
    rewrite Forall_forall in W1. assert (Hx : forall x, In x (i_inputs i) -> vmap (seq 0 (S cur)) x = x) by (intros x Hx; apply vmap_id; apply W1 in Hx; lia).
    assert (Hsq : forall n, seq 0 (S cur) ++ seq (S cur) n = seq 0 (S (cur + n))) by (intros n; change (S (cur + n)) with (S cur + n); rewrite seq_app; reflexivity).
    assert (Hrest : rb_insns I vis id (S k) is (seq 0 (S (cur + i_nout i))) (cur + i_nout i) = (is, seq 0 (S (cur + (i_nout i + nouts I is))))).
    { rewrite (IH (S k) (cur + i_nout i)); auto; [rewrite Nat.add_assoc; auto|]. intros; eapply Hm; eauto. right; auto. }
    destruct (i_call i) as [[[sub l] n]|] eqn:Ec.
    - destruct (l_call I L _ _ _ _ Ec) as [El En]. rewrite (full_repeat _ F2), out_mask_length, ntrue_repeat, <- seq_assign, Hsq, <- En, Hrest. rewrite En.
      rewrite (keep_all (in_mask vis sub (length l)) l); [|apply in_mask_length|apply (Hm i sub l n); auto; left; auto]. rewrite (map_ext_in (vmap (seq 0 (S cur))) (fun x => x)), map_id; [|intros x Hx'; apply Hx; rewrite El; auto].
      f_equal. f_equal. apply (k_call I K); auto.
    - rewrite Hsq, Hrest. f_equal. f_equal. apply (k_repl I K); auto.
  Qed.
  Lemma full_circuit vis id c : wf_circuit I c -> (forall b, In b (in_mask vis id (num_inputs c)) -> b = true) -> (forall b, In b (out_mask vis id (length (outputs c))) -> b = true) -> full vis id 0 (instructions c) ->
    (forall i sub l n, In i (instructions c) -> i_call i = Some (sub, l, n) -> forall b, In b (in_mask vis sub (length l)) -> b = true) -> rb_circuit I vis id c = c.
  Proof.
    intros W H1 H2 H3 H4. pose proof (rb_num_inputs I vis id c) as Hn. unfold rb_circuit in *. rewrite (full_repeat _ H1), in_mask_length, ntrue_repeat, <- seq_assign in *. change (0 :: seq 1 (num_inputs c)) with (seq 0 (S (num_inputs c))) in *.
    rewrite (full_insns vis id (instructions c) 0 (num_inputs c) (wf_is _ _ W) H3 H4) in *. cbn [num_inputs] in Hn. rewrite Hn.
    rewrite (keep_all _ _ (out_mask_length _ _ _) H2).
    assert (Ho : map (vmap (seq 0 (S (num_inputs c + nouts I (instructions c))))) (outputs c) = outputs c).
    { rewrite (map_ext_in _ (fun x => x)), map_id; auto. intros x Hx. apply vmap_id. pose proof (wf_out _ _ W) as Hw. rewrite Forall_forall in Hw. apply Hw in Hx. lia. }
    assert (Hc : map (c_replace (vmap (seq 0 (S (num_inputs c + nouts I (instructions c)))))) (constraints c) = constraints c).
    { rewrite (map_ext_in _ (fun x => x)), map_id; auto. intros k Hk. apply (k_con I K). apply vmap_id. pose proof (wf_con _ _ W) as Hw. rewrite Forall_forall in Hw. apply Hw in Hk. lia. }
    rewrite Ho, Hc. destruct c; reflexivity.
  Qed.
  (* remove_unreachable makes a circuit smaller, or leaves it as it is *)
  Lemma ru_smaller EM rc rc' im : wf_root I rc -> remove_unreachable I EM rc = Some (rc', im) -> rsize rc' <= rsize rc /\ (rsize rc' = rsize rc -> same_root I rc rc').
  Proof.
    intros W H. destruct (ru_shape EM rc rc' im W H) as [ucs [V [c0 [Hnd [Hin [Hc0 [H0 [Hcl [HV [Hp [Hz Hcs]]]]]]]]]]]. set (vis := visb V) in *.
    assert (Wc := wr_cs _ _ W). assert (Hsub : incl ucs (circuits rc)) by (intros [id c] Hi; apply lookup_In; auto).
    assert (Hs1 : rsize rc' = sum (fun p : nat * Circuit => csize (rb_circuit I vis (fst p) (snd p))) ucs) by (unfold rsize; rewrite Hcs, sum_map, sum_rev; auto).
    destruct (sum_le (fun p : nat * Circuit => csize (rb_circuit I vis (fst p) (snd p))) (fun p => csize (snd p)) ucs) as [A1 A2]; [intros p _; apply rb_size|].
    destruct (sum_incl (fun p : nat * Circuit => csize (snd p)) ltac:(intros x; unfold csize; lia) ucs (circuits rc) (NoDup_keys _ Hnd) Hsub) as [B1 B2].
    unfold rsize in *. split; [lia|]. intros He. assert (Hall : forall x, In x ucs -> csize (rb_circuit I vis (fst x) (snd x)) = csize (snd x)) by (apply A2; lia). assert (Hback : incl (circuits rc) ucs) by (apply B2; lia).
    assert (Hid : forall id c, In (id, c) ucs -> rb_circuit I vis id c = c).
    { intros id c Hi. destruct (proj2 (rb_size vis id c) (Hall _ Hi)) as [M1 [M2 M3]]. apply full_circuit; auto; [apply (wf_each _ _ Wc _ _ (Hin _ _ Hi))|].
      intros i sub l n Hii Ec. destruct (Hcl id c sub Hi (in_calls I c i sub l n Hii Ec)) as [co Hco]. pose proof (wf_calls _ _ Wc _ _ (Hin _ _ Hi)) as Wl. rewrite Forall_forall in Wl. destruct (Wl i Hii _ _ _ Ec) as [co' [C1 [C2 _]]].
      rewrite (Hin _ _ Hco) in C1. injection C1 as <-. rewrite C2. apply (proj2 (rb_size vis sub co) (Hall _ Hco)). }
    assert (Hcs2 : circuits rc' = rev ucs). { rewrite Hcs. rewrite (map_ext_in _ (fun p => p)), map_id; auto. intros [id c] Hi. apply in_rev in Hi. cbn [fst snd]. rewrite (Hid _ _ Hi). auto. }
    split; auto. split; auto. intros id. rewrite Hcs2. destruct (lookup id (circuits rc)) as [c|] eqn:El.
    - symmetry. apply In_lookup; [unfold keys; rewrite map_rev; apply NoDup_rev; auto|]. apply -> in_rev. apply Hback. apply lookup_In; auto.
    - destruct (lookup id (rev ucs)) as [c|] eqn:El2; auto. apply lookup_In in El2. apply in_rev in El2. rewrite (Hin _ _ El2) in El. discriminate.
  Qed.
End RU.

(* ------------------------------------------------------------ duplicate outputs *)
Section Neat.
  Context {F : Fld} (I : IRC F) (L : IRC_laws I) (K : IRC_id I).
  Notation Circuit := (Circuit I). Notation RootCircuit := (RootCircuit I).
  (* x is read by an instruction, constrained, or returned *)
  Definition reads (c : Circuit) (x : nat) : Prop :=
    (exists i, In i (instructions c) /\ In x (i_inputs i)) \/ (exists k, In k (constraints c) /\ c_var k = x) \/ In x (outputs c).
  (* x holds output j of a call of sub *)
  Definition call_out (c : Circuit) (x sub j : nat) : Prop :=
    exists a i b l n, instructions c = a ++ i :: b /\ i_call i = Some (sub, l, n) /\ j < n /\ x = S (num_inputs c + nouts I a + j).
  (* of the outputs of a call that are the same variable of the callee, only the first is read; the root's outputs are distinct *)
  Definition neat (rc : RootCircuit) : Prop :=
    (forall c0, lookup 0 (circuits rc) = Some c0 -> NoDup (outputs c0)) /\
    forall id c x sub j co, lookup id (circuits rc) = Some c -> reads c x -> call_out c x sub j -> lookup sub (circuits rc) = Some co -> pos (nth j (outputs co) 0) (outputs co) = j.
  Definition distinct (rc : RootCircuit) : Prop := forall id c, lookup id (circuits rc) = Some c -> NoDup (outputs c).

  Lemma pos_nodup l j : NoDup l -> j < length l -> pos (nth j l 0) l = j.
  Proof.
    intros Hn Hj. assert (Hin : In (nth j l 0) l) by (apply nth_In; auto). pose proof (pos_lt _ _ Hin). pose proof (pos_nth _ _ Hin) as E. rewrite NoDup_nth in Hn. apply Hn; eauto.
  Qed.
  Lemma distinct_neat rc : wf_root I rc -> distinct rc -> neat rc.
  Proof.
    intros W D. split; [intros c0; apply D|]. intros id c x sub j co Hc _ [a [i [b [l [n [Hi [Ec [Hj _]]]]]]]] Hco. apply pos_nodup; [eapply D; eauto|].
    pose proof (wf_calls _ _ (wr_cs _ _ W) _ _ Hc) as Wl. rewrite Forall_forall in Wl. destruct (Wl i) with (id := sub) (l := l) (n := n) as [co' [C1 [_ ->]]]; auto.
    - rewrite Hi. apply in_or_app; right; left; auto.
    - rewrite Hco in C1. injection C1 as <-. auto.
  Qed.
  Lemma insn_rules_in id is : forall k cur a req t, In (a, req, t) (insn_rules I id k is cur) ->
    (exists x i, t = (id, x, TVar) /\ In i is /\ In x (i_inputs i)) \/
    (exists a' i b l n sub j, is = a' ++ i :: b /\ i_call i = Some (sub, l, n) /\ j < n /\ a = (id, S (cur + nouts I a' + j), TVar) /\ t = (sub, j, TOut)) \/
    (snd t = TInsn \/ snd t = TCon).
  Proof.
    induction is as [|i is IH]; intros k cur a req t H; cbn [insn_rules] in H; [destruct H|]. apply in_app_or in H. destruct H as [H|H].
    - destruct (i_call i) as [[[sub l] n]|] eqn:Ec.
      + destruct (l_call I L _ _ _ _ Ec) as [El En]. apply in_app_or in H. destruct H as [H|H]; [|apply in_app_or in H; destruct H as [H|H]].
        * apply in_flat_map in H. destruct H as [j [Hj H]]. apply in_seq in Hj. destruct H as [H|[H|[]]]; injection H as <- <- <-; [|right; right; left; auto].
          right; left. exists [], i, is, l, n, sub, j. cbn [nouts app]. rewrite Nat.add_0_r. repeat (split; auto). lia.
        * apply in_flat_map in H. destruct H as [[p x] [Hp H]]. apply in_combine_r in Hp. left. exists x, i. rewrite El. destruct H as [H|[H|[]]]; injection H as <- <- <-; cbn [fst snd]; (split; [auto|split; [left|]; auto]).
        * right; right. destruct H as [H|[H|[]]]; injection H as <- <- <-; auto.
      + apply in_app_or in H. destruct H as [H|H]; apply in_map_iff in H.
        * destruct H as [j [H _]]. injection H as <- <- <-. right; right; left; auto.
        * destruct H as [x [H Hx]]. injection H as <- <- <-. left. exists x, i. split; auto. split; auto. left; auto.
    - apply IH in H. destruct H as [[x [i' [H1 [H2 H3]]]]|[[a' [i' [b [l [n [sub [j [H1 [H2 [H3 [H4 H5]]]]]]]]]]]|H]]; [left|right; left|right; right; auto].
      + exists x, i'. split; auto. split; auto. right; auto.
      + exists (i :: a'), i', b, l, n, sub, j. subst is. cbn [nouts app]. repeat (split; auto). rewrite H4. do 3 f_equal. lia.
  Qed.
  Section Vis.
    Variables (ucs : list (nat * Circuit)) (c0 : Circuit) (vis : Elem -> bool).
    Hypothesis HV : forall e, vis e = true <-> reach (ru_rules I ucs) (ru_seeds I ucs c0) e.
    (* only variables that are read are visited *)
    Lemma vis_reads id x : vis (id, x, TVar) = true -> exists c, In (id, c) ucs /\ reads c x.
    Proof.
      intros H. apply HV in H. inversion H as [e He|a req t Hin Ha Hr]; subst.
      - unfold ru_seeds in He. apply in_app_or in He. destruct He as [He|He]; [|apply in_map_iff in He; destruct He as [? [? _]]; discriminate].
        apply in_flat_map in He. destruct He as [[id' c] [Hp He]]. unfold circuit_seeds in He. cbn [fst snd] in He. apply in_app_or in He. destruct He as [He|He].
        + apply in_map_iff in He. destruct He as [k [He Hk]]. injection He as -> <-. exists c. split; auto. right; left; eauto.
        + destruct (constraints c); [destruct He|]. destruct He as [He|[]]. discriminate.
      - unfold ru_rules in Hin. apply in_flat_map in Hin. destruct Hin as [[id' c] [Hp Hin]]. cbn [fst snd] in Hin. unfold circuit_rules in Hin. apply in_app_or in Hin. destruct Hin as [Hin|Hin].
        + apply insn_rules_in in Hin. destruct Hin as [[y [i [H1 [H2 H3]]]]|[[a' [i' [b [l [n [sub [j [H1 [H2 [H3 [H4 H5]]]]]]]]]]]|[E|E]]]; try discriminate.
          injection H1 as -> ->. exists c. split; auto. left; eauto.
        + apply in_map_iff in Hin. destruct Hin as [[j y] [E Hj]]. injection E as <- <- <- <-. apply in_combine_r in Hj. exists c. split; auto. right; right; auto.
    Qed.
    Lemma vis_out sub j : vis (sub, j, TOut) = true -> (sub = 0 /\ j < length (outputs c0)) \/ exists id c x, In (id, c) ucs /\ call_out c x sub j /\ vis (id, x, TVar) = true.
    Proof.
      intros H. apply HV in H. inversion H as [e He|a req t Hin Ha Hr]; subst.
      - left. unfold ru_seeds in He. apply in_app_or in He. destruct He as [He|He].
        + apply in_flat_map in He. destruct He as [[id' c] [Hp He]]. unfold circuit_seeds in He. cbn [fst snd] in He. apply in_app_or in He. destruct He as [He|He]; [apply in_map_iff in He; destruct He as [k [He Hk]]; discriminate|].
          destruct (constraints c); [destruct He|]. destruct He as [He|[]]. discriminate.
        + apply in_map_iff in He. destruct He as [j' [E Hj]]. injection E as <- <-. apply in_seq in Hj. split; auto. lia.
      - right. unfold ru_rules in Hin. apply in_flat_map in Hin. destruct Hin as [[id' c] [Hp Hin]]. cbn [fst snd] in Hin. unfold circuit_rules in Hin. apply in_app_or in Hin. destruct Hin as [Hin|Hin].
        + apply insn_rules_in in Hin. destruct Hin as [[y [i [H1 [H2 H3]]]]|[[a' [i' [b [l [n [sub' [j' [H1 [H2 [H3 [H4 H5]]]]]]]]]]]|[E|E]]]; try discriminate.
          injection H5 as <- <-. subst a. exists id', c, (S (num_inputs c + nouts I a' + j)). split; auto. split; [|apply HV; auto]. exists a', i', b, l, n. auto.
        + apply in_map_iff in Hin. destruct Hin as [[j' y] [E Hj]]. discriminate.
    Qed.
  End Vis.
  (* the new numbers of the variables kept are distinct *)
  Definition vinj (vm : list nat) (mx : nat) : Prop := (forall x, vmap vm x <= mx) /\ forall x y, vmap vm x = vmap vm y -> vmap vm x <> 0 -> x = y.
  Lemma assign_le m : forall mx j, nth j (assign m mx) 0 <= mx + ntrue m.
  Proof.
    induction m as [|[] m IH]; intros mx [|j]; cbn [assign nth]; try lia; unfold ntrue in *; cbn [filter length].
    - lia.
    - specialize (IH (S mx) j). lia.
    - specialize (IH mx j). lia.
  Qed.
  Lemma assign_gt m : forall mx j, nth j (assign m mx) 0 <> 0 -> mx < nth j (assign m mx) 0.
  Proof. induction m as [|[] m IH]; intros mx [|j]; cbn [assign nth]; try lia; intros H; [apply IH in H; lia|apply IH in H; lia]. Qed.
  Lemma assign_inj m : forall mx i j, nth i (assign m mx) 0 = nth j (assign m mx) 0 -> nth i (assign m mx) 0 <> 0 -> i = j.
  Proof.
    induction m as [|[] m IH]; intros mx [|i] [|j] H Hn; cbn [assign nth] in *; auto; try congruence.
    - assert (Hj := assign_gt m (S mx) j). rewrite <- H in Hj. specialize (Hj ltac:(lia)). lia.
    - assert (Hj := assign_gt m (S mx) i Hn). lia.
    - f_equal. eapply IH; eauto.
    - f_equal. eapply IH; eauto.
  Qed.
  Lemma vinj_ext vm mx m : vinj vm mx -> vinj (vm ++ assign m mx) (mx + ntrue m).
  Proof.
    intros [H1 H2]. assert (Hl : forall x, x < length vm -> vmap (vm ++ assign m mx) x = vmap vm x) by (intros x Hx; unfold vmap; apply app_nth1; auto).
    assert (Hr : forall x, length vm <= x -> vmap (vm ++ assign m mx) x = nth (x - length vm) (assign m mx) 0) by (intros x Hx; unfold vmap; apply app_nth2; auto).
    split.
    - intros x. destruct (Nat.lt_ge_cases x (length vm)) as [Hx|Hx]; [rewrite Hl by auto; specialize (H1 x); lia|rewrite Hr by auto; apply assign_le].
    - intros x y. destruct (Nat.lt_ge_cases x (length vm)) as [Hx|Hx], (Nat.lt_ge_cases y (length vm)) as [Hy|Hy]; rewrite ?(Hl x Hx), ?(Hr x Hx), ?(Hl y Hy), ?(Hr y Hy); intros E Hn; auto.
      + assert (G := assign_gt m mx (y - length vm)). rewrite <- E in G. specialize (G Hn). specialize (H1 x). lia.
      + assert (G := assign_gt m mx (x - length vm) Hn). specialize (H1 y). lia.
      + apply assign_inj in E; auto. lia.
  Qed.
  Lemma rb_insns_vinj vis id is : forall k vm mx, vinj vm mx -> exists mx', vinj (snd (rb_insns I vis id k is vm mx)) mx'.
  Proof.
    induction is as [|i is IH]; intros k vm mx H; cbn [rb_insns]; [cbn; eauto|]. destruct (vis (id, k, TInsn)).
    - destruct (i_call i) as [[[sub l] n]|].
      + set (om := out_mask vis sub n). destruct (IH (S k) (vm ++ assign om mx) (mx + ntrue om) (vinj_ext _ _ _ H)) as [mx' G]. destruct (rb_insns I vis id (S k) is _ _) as [is' vm']. cbn [snd] in *. eauto.
      + pose proof (vinj_ext vm mx (repeat true (i_nout i)) H) as Hx. rewrite <- seq_assign, ntrue_repeat in Hx. destruct (IH (S k) _ _ Hx) as [mx' G]. destruct (rb_insns I vis id (S k) is _ _) as [is' vm']. cbn [snd] in *. eauto.
    - pose proof (vinj_ext vm mx (repeat false (i_nout i)) H) as Hx. rewrite <- assign_false, ntrue_false, Nat.add_0_r in Hx. apply (IH (S k) _ _ Hx).
  Qed.
  Lemma keep_first m (l : list nat) : (forall j, nth_error m j = Some true -> pos (nth j l 0) l = j) -> length m = length l -> NoDup (keep m l).
  Proof.
    intros H Hl. assert (G : forall m2 l2 m1 l1, m = m1 ++ m2 -> l = l1 ++ l2 -> length m1 = length l1 -> length m2 = length l2 -> NoDup (keep m2 l2) /\ forall x, In x (keep m2 l2) -> ~ In x l1).
    { induction m2 as [|b m2 IH]; intros [|x l2] m1 l1 Em El H1 H2; cbn [keep length] in *; try discriminate; [split; [constructor|intros y []]|].
      destruct (IH l2 (m1 ++ [b]) (l1 ++ [x])) as [N1 N2]; try (rewrite <- app_assoc; auto); [rewrite !app_length; cbn; lia|lia|].
      destruct b; cbn [keep].
      - assert (Hx : ~ In x l1).
        { assert (Hp := H (length m1)). rewrite Em, nth_error_app2, Nat.sub_diag in Hp by lia. specialize (Hp eq_refl). rewrite El, H1, app_nth2, Nat.sub_diag in Hp by lia. cbn [nth] in Hp.
          apply pos_nin in Hp. rewrite firstn_app, Nat.sub_diag, firstn_all in Hp. cbn [firstn] in Hp. rewrite app_nil_r in Hp. auto. }
        split.
        + constructor; auto. intros Hi. apply (N2 x Hi). apply in_or_app; right; left; auto.
        + intros y [<-|Hy]; auto. intros Hy1. apply (N2 y Hy). apply in_or_app; auto.
      - split; auto. intros y Hy Hy1. apply (N2 y Hy). apply in_or_app; auto. }
    apply (G m l [] []); auto.
  Qed.
  (* after remove_unreachable on a neat circuit no circuit has duplicate outputs *)
  Lemma neat_ru EM rc rc' im : wf_root I rc -> neat rc -> remove_unreachable I EM rc = Some (rc', im) -> distinct rc'.
  Proof.
    intros W [N0 N] H id c' Hc'. destruct (remove_unreachable_spec I L EM rc W) as [rc2 [im2 [X1 [X2 _]]]]. rewrite H in X1. injection X1 as <- <-.
    pose proof (wf_out _ _ (wf_each _ _ (wr_cs _ _ X2) _ _ Hc')) as Wo. destruct (ru_shape I EM rc rc' im W H) as [ucs [V [c0 [Hnd [Hin [Hc0 [H0 [Hcl [HV [_ [_ Hcs]]]]]]]]]]]. set (vis := visb V) in *.
    apply lookup_In in Hc'. rewrite Hcs in Hc'. apply in_map_iff in Hc'. destruct Hc' as [[id' c] [E Hi]]. cbn [fst snd] in E. injection E as -> <-. apply in_rev in Hi. pose proof (Hin _ _ Hi) as Hc.
    assert (Hmx : vinj (0 :: assign (in_mask vis id (num_inputs c)) 0) (ntrue (in_mask vis id (num_inputs c)))).
    { apply (vinj_ext [0] 0 (in_mask vis id (num_inputs c))). split; [intros [|[|x]]; cbn; lia|]. intros x y _ Hn. exfalso. apply Hn. destruct x as [|[|x]]; reflexivity. }
    destruct (rb_insns_vinj vis id (instructions c) 0 _ _ Hmx) as [mx2 [_ V2]]. unfold rb_circuit in *. destruct (rb_insns I vis id 0 _ _ _) as [is' vm] eqn:Er. cbn [outputs snd] in *.
    assert (Hk : NoDup (keep (out_mask vis id (length (outputs c))) (outputs c))).
    { apply keep_first; [|apply out_mask_length]. intros j Hj. assert (Hjl : j < length (outputs c)) by (apply nth_error_Some_lt in Hj; rewrite out_mask_length in Hj; auto). rewrite out_mask_nth in Hj by auto. injection Hj as Hj.
      destruct (vis_out ucs c0 vis HV id j Hj) as [[-> Hj0]|[id2 [c2 [x [Hi2 [Ho Hx]]]]]]; [apply pos_nodup; auto|].
      destruct (vis_reads ucs c0 vis HV id2 x Hx) as [c3 [Hi3 Hr]]. pose proof (Hin _ _ Hi2) as L2. rewrite (Hin _ _ Hi3) in L2. injection L2 as ->. apply (N id2 c2 x id j c); auto. }
    revert Wo. generalize dependent (keep (out_mask vis id (length (outputs c))) (outputs c)). intros l Hk Wo.
    induction Hk as [|x l Hx Hk IH]; cbn [map] in *; [constructor|]. inversion Wo as [|? ? Wx Wo']; subst. constructor; auto. intros Hi'. apply in_map_iff in Hi'. destruct Hi' as [y [Ey Hy]]. apply Hx.
    rewrite (V2 x y); auto. lia.
  Qed.
  Lemma distinct_dups rc : NoDup (keys (circuits rc)) -> distinct rc -> has_duplicate_outputs I rc = false.
  Proof.
    intros Hk D. unfold has_duplicate_outputs. destruct (existsb _ _) eqn:E; auto. apply existsb_exists in E. destruct E as [[id c] [Hi Hc]]. cbn [snd] in Hc. apply negb_true_iff in Hc.
    assert (Hn : NoDup (outputs c)) by (apply (D id); apply In_lookup; auto). exfalso. assert (nodupb (outputs c) = true); [|congruence]. clear -Hn. induction Hn as [|x l Hx Hn IH]; cbn; auto. rewrite IH, andb_true_r, negb_true_iff.
    destruct (memb x l) eqn:E; auto. apply memb_spec in E. contradiction.
  Qed.
  Lemma ra_nothing force rc : NoDup (keys (circuits rc)) -> distinct rc -> reassign_duplicates I force rc = Some rc.
  Proof. intros Hk D. unfold reassign_duplicates. rewrite (distinct_dups rc Hk D). auto. Qed.
  (* after reassign_duplicate_sub_circuit_outputs only the first of equal outputs of a call is read *)
  Lemma ra_insns_seen om is : forall cur vm is' vm',
    (forall i sub l n, In i is -> i_call i = Some (sub, l, n) -> exists s, om sub = Some s /\ length s = n /\ Forall (fun x => x < n) s) ->
    wf_insns I is cur -> length vm = S cur -> ra_insns I om is vm = Some (is', vm') ->
    nouts I is' = nouts I is /\ exists e, vm' = vm ++ e /\ length e = nouts I is /\ Forall (fun y => cur < y) e /\
      (forall a i b sub l n j, is' = a ++ i :: b -> i_call i = Some (sub, l, n) -> j < n -> In (S (cur + nouts I a + j)) e -> exists s, om sub = Some s /\ In j s) /\
      (forall i x, In i is' -> In x (i_inputs i) -> In x vm').
  Proof.
    induction is as [|i is IH]; intros cur vm is' vm' Hs Hw Hl H; cbn [ra_insns] in H.
    - injection H as <- <-. split; auto. exists []. rewrite app_nil_r. split; auto. split; auto. split; [constructor|]. split; [intros [|? ?]; discriminate|intros ? ? []].
    - destruct Hw as [Hi Hw]. apply obind_some in H. destruct H as [vm1 [H1 H]]. apply obind_some in H. destruct H as [[is2 vm2] [H2 H]]. cbn [fst snd] in H. injection H as <- <-.
      assert (He : exists e1, vm1 = vm ++ e1 /\ length e1 = i_nout i /\ Forall (fun y => cur < y <= cur + i_nout i) e1 /\
        forall sub l n j, i_call i = Some (sub, l, n) -> j < n -> In (S (cur + j)) e1 -> exists s, om sub = Some s /\ In j s).
      { destruct (i_call i) as [[[sub l] n]|] eqn:Ec.
        - destruct (Hs i sub l n (or_introl eq_refl) Ec) as [s [S1 [S2 S3]]]. rewrite S1 in H1. cbn [obind] in H1. injection H1 as <-. destruct (l_call I L _ _ _ _ Ec) as [_ En]. rewrite Forall_forall in S3.
          eexists; split; [reflexivity|]. split; [rewrite map_length; congruence|]. split.
          + apply Forall_forall. intros y Hy. apply in_map_iff in Hy. destruct Hy as [x [<- Hx]]. apply S3 in Hx. lia.
          + intros sub' l' n' j E Hj Hin. injection E as <- <- <-. apply in_map_iff in Hin. destruct Hin as [x [Hx Hx2]]. exists s. split; auto. replace j with x by lia. auto.
        - injection H1 as <-. eexists; split; [reflexivity|]. split; [apply seq_length|]. split; [|discriminate]. apply Forall_forall. intros y Hy. apply in_seq in Hy. lia. }
      destruct He as [e1 [-> [E1 [E2 E3]]]]. destruct (IH (cur + i_nout i) (vm ++ e1) is2 vm2) as [N [e [-> [A1 [A2 [A3 A4]]]]]]; auto.
      { intros i' sub l n Hi'. apply Hs. right; auto. } { rewrite app_length. lia. }
      cbn [nouts]. rewrite (l_repl_nout I L), N. split; auto. exists (e1 ++ e). rewrite app_assoc, app_length. split; auto. split; [lia|]. rewrite Forall_forall in E2, A2. split; [|split].
      + apply Forall_forall. intros y Hy. apply in_app_or in Hy. destruct Hy as [Hy|Hy]; [apply E2 in Hy; lia|apply A2 in Hy; lia].
      + intros [|i0 a] i1 b sub l n j E Ec Hj Hin; cbn [app nouts] in *; injection E as <- E.
        * rewrite (l_repl_call I L) in Ec. destruct (i_call i) as [[[sub' l'] n']|] eqn:Ec0; [|discriminate]. cbn [option_map fst snd] in Ec. injection Ec as <- _ <-. destruct (l_call I L _ _ _ _ Ec0) as [_ En].
          rewrite Nat.add_0_r in Hin. apply in_app_or in Hin. destruct Hin as [Hin|Hin]; [apply (E3 sub' l' n' j); auto|apply A2 in Hin; lia].
        * rewrite (l_repl_nout I L) in Hin. apply in_app_or in Hin. destruct Hin as [Hin|Hin]; [apply E2 in Hin; lia|]. apply (A3 a i1 b sub l n j); auto. replace (cur + i_nout i + nouts I a + j) with (cur + (i_nout i + nouts I a) + j) by lia. auto.
      + intros i' x [<-|Hi'] Hx; [|eapply A4; eauto]. rewrite (l_repl_inputs I L) in Hx. apply in_map_iff in Hx. destruct Hx as [y [<- Hy]]. rewrite Forall_forall in Hi. specialize (Hi y Hy).
        apply in_or_app. left. unfold vmap. apply nth_In. rewrite app_length. lia.
  Qed.
  Lemma ra_copy_reads (G : nat -> Prop) om : forall i outs mx is o, ra_copy I om i outs mx = (is, o) -> G 0 -> (forall y, mx < y -> G y) -> Forall G outs ->
    Forall G o /\ forall i, In i is -> i_call i = None /\ Forall G (i_inputs i).
  Proof.
    induction om as [|x om IH]; intros i outs mx is o H G0 Gm Ho; cbn [ra_copy] in H; [injection H as <- <-; split; auto; intros ? []|].
    destruct (x <? i); [|eapply IH; eauto]. destruct (ra_copy I om (S i) (upd outs i (S mx)) (S mx)) as [is1 o1] eqn:E1. injection H as <- <-. apply IH in E1; auto.
    - destruct E1 as [E1 E2]. split; auto. intros i' [<-|Hi']; [|auto]. destruct (l_kxb_call I L (nth x outs 0) f1 f0) as [K1 [K2 K3]]. split; auto. apply Forall_forall. intros y Hy. apply K3 in Hy. destruct Hy as [<-|[]].
      destruct (nth_in_or_default x outs 0) as [Hn|Hn]; [|rewrite Hn; auto]. rewrite Forall_forall in Ho. auto.
    - intros y Hy. apply Gm. lia.
    - apply Forall_forall. intros y Hy. apply In_nth_error in Hy. destruct Hy as [j Hj]. rewrite nth_error_upd in Hj. destruct ((i =? j) && (i <? length outs)); [injection Hj as <-; apply Gm; lia|].
      rewrite Forall_forall in Ho. apply Ho. eapply nth_error_In; eauto.
  Qed.
  Lemma app_split {A} (u v a b : list A) x : u ++ v = a ++ x :: b -> ~ In x v -> exists b', u = a ++ x :: b'.
  Proof.
    revert a; induction u as [|y u IH]; intros a H Hn.
    - cbn in H. exfalso. apply Hn. rewrite H. apply in_or_app; right; left; auto.
    - destruct a as [|z a]; cbn [app] in H; injection H as <- H; [exists u; auto|]. destruct (IH a H Hn) as [b' ->]. exists b'. auto.
  Qed.
  Lemma ra_neat rc rc' : wf_root I rc -> reassign_duplicates I false rc = Some rc' -> neat rc'.
  Proof.
    intros W H. destruct (reassign_duplicates_spec I L false rc W) as [rc2 [X1 [X2 [_ [_ [_ [_ [X3 _]]]]]]]]. rewrite H in X1. injection X1 as <-.
    unfold reassign_duplicates in H. destruct (has_duplicate_outputs I rc) eqn:Ed.
    2:{ injection H as <-. apply distinct_neat; auto. intros id c Hc. unfold has_duplicate_outputs in Ed. apply lookup_In in Hc. destruct (nodupb (outputs c)) eqn:En.
        - revert En. clear. induction (outputs c) as [|x l IHl]; cbn; [constructor|]. rewrite andb_true_iff, negb_true_iff. intros [H1 H2]. constructor; auto. intros Hin. apply memb_spec in Hin. congruence.
        - assert (existsb (fun p : nat * Circuit => negb (nodupb (outputs (snd p)))) (circuits rc) = true); [|congruence]. apply existsb_exists. exists (id, c). split; auto. cbn. rewrite En. auto. }
    pose proof (wr_cs _ _ W) as Wc. destruct (wr_rank _ _ W) as [rank R].
    destruct (rev_pass_spec I (ra_circuit I false) (Q I (circuits rc)) (ra_local I false) rc Wc (ex_intro _ rank R)) as [q [acc [H1 [H2 [H3 [H4 H5]]]]]].
    { intros m id c Hc Hm. destruct (ra_circuit_static I L (circuits rc) Wc false m id c Hc Hm) as [c' [s [K1 [K2 _]]]]. eauto. }
    rewrite H1 in H. cbn [obind] in H. rewrite H2 in H. cbn [obind] in H. injection H as <-. cbn [circuits] in *. set (cs' := map _ acc) in *.
    assert (Hlk : forall id, lookup id cs' = option_map fst (lookup id acc)) by (intros id; apply (lookup_map (fun _ x => fst x))).
    assert (Hkeys : keys cs' = keys acc) by (unfold cs', keys; rewrite map_map; apply map_ext; auto).
    assert (Hback : forall id c', lookup id cs' = Some c' -> exists c s, lookup id (circuits rc) = Some c /\ summary acc id = Some s /\ ra_circuit I false (summary acc) id c = Some (c', s) /\ Q I (circuits rc) id s).
    { intros id c' Hc'. assert (Hk : In id (keys (circuits rc))) by (apply H4; rewrite <- Hkeys; apply lookup_keys; eauto). apply lookup_keys in Hk. destruct Hk as [c Hc]. destruct (H5 id c Hc) as [c2 [s [G1 [G2 G3]]]].
      rewrite Hlk, G1 in Hc'. cbn in Hc'. injection Hc' as <-. exists c, s. split; auto. split; [unfold summary; rewrite G1; auto|]. auto. }
    split; [intros c0 Hc0; apply (X3 0 c0); auto|]. cbn [circuits].
    intros id c' x sub j co' Hc' Hr [a [i [b [l [n [Hi [Ec [Hj Hx]]]]]]]] Hco'.
    destruct (Hback _ _ Hco') as [co [so [Lo [So [Ro _]]]]].
    destruct (Nat.eq_dec sub 0) as [->|Hsub].
    { apply pos_nodup; [apply (X3 0 co'); auto|]. pose proof (wf_calls _ _ (wr_cs _ _ X2) _ _ Hc') as Wl. rewrite Forall_forall in Wl. destruct (Wl i) with (id := 0) (l := l) (n := n) as [co2 [C1 [_ ->]]]; auto.
      - rewrite Hi. apply in_or_app; right; left; auto.
      - cbn [circuits] in C1. rewrite Hco' in C1. injection C1 as <-. auto. }
    assert (Hin : In j so).
    { destruct (Hback _ _ Hc') as [c [s [Lc [Sc [Rc _]]]]]. pose proof (wf_each _ _ Wc _ _ Lc) as We. pose proof (wf_calls _ _ Wc _ _ Lc) as Wl. rewrite Forall_forall in Wl.
      unfold ra_circuit in Rc. apply obind_some in Rc. destruct Rc as [[is' vm] [R1 Rc]].
      destruct (fun X => ra_insns_seen (summary acc) (instructions c) (num_inputs c) _ is' vm X (wf_is _ _ We) (seq_length _ _) R1) as [N [e [Ev [E1 [E2 [E3 E4]]]]]].
      { intros i0 sub0 l0 n0 Hi0 Ec0. destruct (Wl i0 Hi0 _ _ _ Ec0) as [co0 [C1 [_ C2]]]. destruct (H5 sub0 co0 C1) as [c3 [s3 [G4 [_ G5]]]]. exists s3. split; [unfold summary; rewrite G4; auto|]. rewrite C2. apply G5; auto. }
      assert (Hvl : length vm = S (num_inputs c + nouts I (instructions c))) by (rewrite Ev, app_length, seq_length; lia).
      set (G := fun y => In y vm \/ length vm <= y). assert (G0 : G 0) by (left; rewrite Ev; left; auto).
      assert (Gv : forall y, G (vmap vm y)). { intros y. unfold vmap. destruct (nth_in_or_default y vm 0) as [Hn|Hn]; [left; auto|rewrite Hn; auto]. }
      assert (Gouts : Forall G (map (vmap vm) (outputs c))) by (apply Forall_forall; intros y Hy; apply in_map_iff in Hy; destruct Hy as [z [<- _]]; auto).
      assert (Hcp : exists cp outs', instructions c' = is' ++ cp /\ constraints c' = map (c_replace (vmap vm)) (constraints c) /\ outputs c' = outs' /\ num_inputs c' = num_inputs c /\
        Forall G outs' /\ forall i, In i cp -> i_call i = None /\ Forall G (i_inputs i)).
      { destruct ((id =? 0) || false).
        - destruct (ra_copy I _ 0 _ _) as [cp outs'] eqn:Ecp. injection Rc as <- _. cbn. exists cp, outs'. apply (ra_copy_reads G) in Ecp; [destruct Ecp; auto 8|auto|intros y Hy; right; lia|auto].
        - injection Rc as <- _. cbn. exists [], (map (vmap vm) (outputs c)). rewrite app_nil_r. repeat (split; [solve [auto]|]). intros ? []. }
      destruct Hcp as [cp [outs' [B1 [B2 [B3 [B4 [B5 B6]]]]]]].
      assert (Gx : G x).
      { destruct Hr as [[i0 [Hi0 Hx0]]|[[k [Hk <-]]|Ho]].
        - rewrite B1 in Hi0. apply in_app_or in Hi0. destruct Hi0 as [Hi0|Hi0]; [left; eapply E4; eauto|]. apply B6 in Hi0. destruct Hi0 as [_ Hi0]. rewrite Forall_forall in Hi0. auto.
        - rewrite B2 in Hk. apply in_map_iff in Hk. destruct Hk as [k0 [<- _]]. rewrite (l_con_repl I L). auto.
        - rewrite B3 in Ho. rewrite Forall_forall in B5. auto. }
      rewrite B1 in Hi. apply app_split in Hi; [|intros Hc; apply B6 in Hc; destruct Hc; congruence]. destruct Hi as [b' Hi]. destruct (l_call I L _ _ _ _ Ec) as [_ En].
      assert (Hb : nouts I a + j < nouts I is'). { rewrite Hi, nouts_app. cbn [nouts]. lia. }
      destruct Gx as [Gx|Gx]; [|lia]. rewrite Ev in Gx. apply in_app_or in Gx. destruct Gx as [Gx|Gx]; [apply in_seq in Gx; lia|]. rewrite Hx, B4 in Gx.
      destruct (E3 a i b' sub l n j Hi Ec Hj Gx) as [s' [S1 S2]]. rewrite So in S1. injection S1 as <-. auto. }
    unfold ra_circuit in Ro. apply obind_some in Ro. destruct Ro as [[is' vm] [_ Ro]]. destruct (Nat.eqb_spec sub 0) as [|_]; [contradiction|]. cbn [orb] in Ro. injection Ro as <- <-. cbn [outputs].
    apply in_map_iff in Hin. destruct Hin as [z [<- Hz]]. rewrite pos_nth; auto.
  Qed.
End Neat.

(* ------------------------------------------------------------ the loops end *)
Section Ends.
  Variable EMPTY : nat.
  Context {T : Type} (eqb : T -> T -> bool) (f : T -> option (T * InputMapping)).
  Lemma opt_loop_ends (Inv : T -> InputMapping -> Prop) (m : T -> nat) :
    (forall x im, Inv x im -> exists y imy, f x = Some (y, imy) /\ (eqb x y = true \/ exists im', compose_in_place EMPTY im imy = Some im' /\ Inv y im' /\ m y < m x)) ->
    forall x im, Inv x im -> exists r, forall fuel, m x < fuel -> opt_loop EMPTY eqb f fuel x im = Some r.
  Proof.
    intros H. assert (G : forall k x im, m x < k -> Inv x im -> exists r, forall fuel, m x < fuel -> opt_loop EMPTY eqb f fuel x im = Some r); [|intros x im; apply (G (S (m x))); lia].
    induction k as [|k IH]; intros x im Hk Hx; [lia|]. destruct (H x im Hx) as [y [imy [Hf Hy]]]. destruct (eqb x y) eqn:E.
    - exists (x, im). intros [|fl] Hfl; [lia|]. cbn [opt_loop]. rewrite Hf. cbn [obind fst snd]. rewrite E. auto.
    - destruct Hy as [Hy|[im' [Hc [Hy Hm]]]]; [discriminate|]. destruct (IH y im' ltac:(lia) Hy) as [r Hr]. exists r. intros [|fl] Hfl; [lia|]. cbn [opt_loop]. rewrite Hf. cbn [obind fst snd]. rewrite E, Hc. cbn [obind]. apply Hr. lia.
  Qed.
End Ends.

Section LoopEnds.
  Variable EMPTY : nat.
  Context {F : Fld} (I : IRC F) (L : IRC_laws I) (K : IRC_id I).
  Variable eqb : RootCircuit I -> RootCircuit I -> bool.
  Hypothesis Heq : forall x y, same_root I x y -> eqb x y = true.
  Definition fits (x : RootCircuit I) (im : InputMapping) : Prop := wf_root I x /\ im_good EMPTY im /\ exists c0, lookup 0 (circuits x) = Some c0 /\ num_inputs c0 = next_size im.
  Notation none := (fun _ : Env F => False).
  (* a pass that never panics, establishes P, and on circuits with P shrinks what it changes *)
  Definition shrinks (P : RootCircuit I -> Prop) (f : RootCircuit I -> option (RootCircuit I * InputMapping)) : Prop :=
    forall x, wf_root I x -> small EMPTY x -> exists y imy, f x = Some (y, imy) /\ wf_root I y /\ tied EMPTY none x y imy /\ P y /\
      (P x -> rsize I y <= rsize I x /\ (rsize I y = rsize I x -> same_root I x y)).
  Lemma fits_next x im y imy : fits x im -> wf_root I y -> tied EMPTY none x y imy -> exists im', compose_in_place EMPTY im imy = Some im' /\ fits y im'.
  Proof.
    intros [W [G [c0 [Hc Hn]]]] Wy [T1 [ca [cb [T2 [T3 [T4 [T5 T6]]]]]] T7 T8]. rewrite Hc in T2. injection T2 as <-.
    destruct (compose_good EMPTY im imy G T1 ltac:(congruence)) as [im' [C1 [C2 [C3 [C4 _]]]]]. exists im'. split; auto. split; auto. split; auto. exists cb. split; auto. congruence.
  Qed.
  Lemma fits_small x im : fits x im -> small EMPTY x.
  Proof. intros [W [[[G _] _] [c0 [Hc Hn]]]] c Hc'. rewrite Hc in Hc'. injection Hc' as <-. lia. Qed.
  Lemma loop_ends P f : shrinks P f -> forall x im, fits x im -> exists n r, forall fuel, n <= fuel -> optimize_until_fixed_point EMPTY eqb f fuel x im = Some r.
  Proof.
    intros Hs x im Hf. destruct (Hs x (proj1 Hf) (fits_small _ _ Hf)) as [y [imy [F1 [F2 [F3 [F4 _]]]]]]. destruct (fits_next _ _ _ _ Hf F2 F3) as [im1 [C1 C2]].
    unfold optimize_until_fixed_point. rewrite F1. cbn [obind fst snd]. destruct (eqb x y); [exists 0; eauto|]. rewrite C1. cbn [obind].
    destruct (opt_loop_ends EMPTY eqb f (fun x im => fits x im /\ P x) (rsize I)) with (x := y) (im := im1) as [r Hr]; auto.
    - intros z imz [Hz Pz]. destruct (Hs z (proj1 Hz) (fits_small _ _ Hz)) as [z' [imz' [G1 [G2 [G3 [G4 G5]]]]]]. exists z', imz'. split; auto. destruct (G5 Pz) as [G6 G7].
      destruct (Nat.eq_dec (rsize I z') (rsize I z)) as [E|E]; [left; auto|right]. destruct (fits_next _ _ _ _ Hz G2 G3) as [im2 [D1 D2]]. exists im2. split; auto. split; auto. lia.
    - exists (S (rsize I y)), r. intros fl Hfl. apply Hr. lia.
  Qed.
  Lemma ru_shrinks : shrinks (fun _ => True) (remove_unreachable I EMPTY).
  Proof.
    intros x W Hs. destruct (ru_pass_tied EMPTY L none x W Hs ltac:(intros E [])) as [y [imy [H1 [H2 [_ [_ [_ H3]]]]]]]. unfold ru_pass in H1. exists y, imy. split; auto. split; auto. split; auto. split; auto. intros _. eapply ru_smaller; eauto.
  Qed.
  Lemma op_shrinks : shrinks (neat I) (opt_pass EMPTY).
  Proof.
    intros x W Hs. destruct (opt_pass_tied EMPTY L none x W Hs ltac:(intros E [])) as [y [imy [H1 [H2 H3]]]]. exists y, imy. split; auto. split; auto. split; auto.
    unfold opt_pass in H1. apply obind_some in H1. destruct H1 as [[z imz] [K1 K2]]. cbn [fst snd] in K2. apply obind_some in K2. destruct K2 as [z' [K2 K3]]. injection K3 as -> ->.
    destruct (remove_unreachable_spec I L EMPTY x W) as [z2 [im2 [X1 [X2 _]]]]. rewrite K1 in X1. injection X1 as <- <-. split; [eapply ra_neat; eauto|].
    intros N. pose proof (neat_ru I L EMPTY x z imy W N K1) as D. rewrite (ra_nothing I false z) in K2; [|apply X2|auto]. injection K2 as <-. eapply ru_smaller; eauto.
  Qed.
End LoopEnds.

(* ------------------------------------------------------------ the IRs *)
Section Ids.
  Context (F : Fld).
  Lemma map_same (f : nat -> nat) l : (forall x, In x l -> f x = x) -> map f l = l.
  Proof. intros H. rewrite (map_ext_in f (fun x => x)) by auto. apply map_id. Qed.
  Lemma lc_same (f : nat -> nat) (l : LinComb F) : (forall x, In x (lc_vars l) -> f x = x) -> lc_replace f l = l.
  Proof. intros H. rewrite (lc_replace_ext f (fun x => x)) by auto. destruct l as [t c]. unfold lc_replace. cbn. f_equal. rewrite (map_ext _ (fun t => t)); [apply map_id|]. intros []; auto. Qed.
  Lemma e_same (f : nat -> nat) (e : Expression F) : (forall x, In x (e_vars F e) -> f x = x) -> e_replace F f e = e.
  Proof.
    unfold e_vars, e_replace. induction e as [|[c v] e IH]; intros H; cbn [map]; auto. f_equal; [|apply IH; intros x Hx; apply H; cbn [flat_map]; apply in_or_app; auto].
    assert (G : forall x, In x (vs_vars v) -> f x = x) by (intros x Hx; apply H; cbn [flat_map]; apply in_or_app; auto). cbn [coef vars]. f_equal. destruct v; cbn in *; auto; f_equal; auto. apply map_same; auto.
  Qed.
  Lemma src_id : IRC_id (SrcI F).
  Proof.
    split; cbn.
    - intros i sub l n H. destruct i; try discriminate. cbn in H. injection H as <- <- <-. auto.
    - intros f i H. destruct i; cbn in *; f_equal; auto; try (apply map_same; auto). apply lc_same; auto.
    - intros f [t x] H. cbn in *. congruence.
  Qed.
  Lemma hn_id : IRC_id (HnI F).
  Proof.
    split; cbn.
    - intros i sub l n H. destruct i; try discriminate. cbn in H. injection H as <- <- <-. auto.
    - intros f i H. destruct i; cbn in *; f_equal; auto; try (apply map_same; auto). apply lc_same; auto.
    - auto.
  Qed.
  Lemma hl_id : IRC_id (HlI F).
  Proof.
    split; cbn.
    - intros i sub l n H. destruct i; try discriminate. cbn in H. injection H as <- <- <-. auto.
    - intros f i H. destruct i; cbn in *; f_equal; auto; try (apply map_same; auto). apply lc_same; auto.
    - auto.
  Qed.
  Lemma dest_id s : IRC_id (DestI F s).
  Proof.
    split; cbn.
    - intros i sub l n H. destruct i; try discriminate. cbn in H. injection H as <- <- <-. auto.
    - intros f i H. destruct i; cbn in *; f_equal; auto; try (apply map_same; auto). apply e_same; auto.
    - auto.
  Qed.
End Ids.
