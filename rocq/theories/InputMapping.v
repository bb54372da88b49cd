(* Model of expander_compiler/src/circuit/input_mapping.rs *)
From Verif Require Import Prelude.

Section IM.
  (* input_mapping.rs:3  EMPTY = usize::MAX >> 9.  Kept as a parameter: every theorem holds for every
     sentinel above the sizes involved. *)
  Variable EMPTY : nat.

  (* input_mapping.rs:5-9 *)
  Record InputMapping := { next_size : nat; mapping : list nat }.

  (* input_mapping.rs:16-21 *)
  Definition im_identity (n : nat) : InputMapping := {| next_size := n; mapping := seq 0 n |}.
  (* input_mapping.rs:23-25 *)
  Definition cur_size (m : InputMapping) : nat := length (mapping m).

  (* input_mapping.rs:38-42: the loop of map_inputs; an out-of-range target panics *)
  Fixpoint map_inputs_loop {T} (ms : list nat) (ins : list T) (acc : list T) : option (list T) :=
    match ms, ins with
    | m :: ms, x :: ins =>
        if m =? EMPTY then map_inputs_loop ms ins acc
        else let* acc := vset acc m x in map_inputs_loop ms ins acc
    | _, _ => Some acc
    end.
  (* input_mapping.rs:35-44 *)
  Definition map_inputs {T} (d : T) (m : InputMapping) (ins : list T) : option (list T) :=
    if length ins =? length (mapping m)
    then map_inputs_loop (mapping m) ins (repeat d (next_size m)) else None.

  (* input_mapping.rs:51-62 *)
  Fixpoint im_used (ms : list nat) (used : list bool) : option (list bool) :=
    match ms with
    | [] => Some used
    | m :: ms => if m =? EMPTY then im_used ms used else
                 match nth_error used m with
                 | None => None                     (* m >= next_size *)
                 | Some true => None
                 | Some false => im_used ms (upd used m true)
                 end
    end.
  (* input_mapping.rs:50-69 *)
  Definition im_validate (m : InputMapping) : bool :=
    match im_used (mapping m) (repeat false (next_size m)) with
    | None => false
    | Some used => forallb (fun u => u) used
    end.

  (* input_mapping.rs:71-84; other.mapping[..] panics out of range *)
  Definition compose (a b : InputMapping) : option InputMapping :=
    let* ms := omap (fun m => if m =? EMPTY then Some EMPTY else nth_error (mapping b) m) (mapping a) in
    Some {| next_size := next_size b; mapping := ms |}.

  (* input_mapping.rs:86-93: the in-place loop *)
  Fixpoint compose_loop (b : InputMapping) (n i : nat) (ms : list nat) : option (list nat) :=
    match n with
    | 0 => Some ms
    | S n => let* m := nth_error ms i in
             if m =? EMPTY then compose_loop b n (S i) ms
             else let* t := nth_error (mapping b) m in compose_loop b n (S i) (upd ms i t)
    end.
  Definition compose_in_place (a b : InputMapping) : option InputMapping :=
    let* ms := compose_loop b (length (mapping a)) 0 (mapping a) in
    Some {| next_size := next_size b; mapping := ms |}.

  (* ---------------------------------------------------------------- specification *)
  (* the value that arrives at position j: that of the last input sent there, else the default *)
  Fixpoint last_sent {T} (d : T) (ms : list nat) (ins : list T) (j : nat) : T :=
    match ms, ins with
    | m :: ms, x :: ins => last_sent (if (m =? j) && negb (m =? EMPTY) then x else d) ms ins j
    | _, _ => d
    end.
  Definition in_range (m : InputMapping) : Prop :=
    next_size m <= EMPTY /\ Forall (fun t => t = EMPTY \/ t < next_size m) (mapping m).
  Definition injective (m : InputMapping) : Prop :=
    forall i j t, nth_error (mapping m) i = Some t -> nth_error (mapping m) j = Some t ->
                  t <> EMPTY -> i = j.

  (* ---------------------------------------------------------------- proofs *)
  Lemma map_inputs_loop_spec {T} (d : T) ms : forall ins acc,
    Forall (fun t => t = EMPTY \/ t < length acc) ms ->
    exists r, map_inputs_loop ms ins acc = Some r /\ length r = length acc /\
      forall j, j < length acc -> nth j r d = last_sent (nth j acc d) ms ins j.
  Proof.
    induction ms as [|m ms IH]; intros ins acc Hr.
    - exists acc. destruct ins; repeat split; auto.
    - destruct ins as [|x ins].
      { exists acc; repeat split; auto. }
      inversion Hr as [|? ? Hm Hms]; subst. simpl.
      destruct (Nat.eqb_spec m EMPTY) as [E|E].
      + destruct (IH ins acc Hms) as [r [H1 [H2 H3]]]. exists r; repeat split; auto.
        intros j Hj. rewrite H3 by auto. rewrite andb_false_r; auto.
      + destruct Hm as [Hm|Hm]; [contradiction|].
        unfold vset. destruct (Nat.ltb_spec m (length acc)); [|lia]. simpl.
        destruct (IH ins (upd acc m x)) as [r [H1 [H2 H3]]].
        { rewrite upd_length; auto. }
        rewrite upd_length in H2, H3. exists r; repeat split; auto.
        intros j Hj. rewrite H3 by auto. rewrite nth_upd, andb_true_r.
        destruct (Nat.ltb_spec m (length acc)); [|lia]. rewrite andb_true_r. auto.
  Qed.

  Lemma map_inputs_spec {T} (d : T) m ins : in_range m -> length ins = cur_size m ->
    exists r, map_inputs d m ins = Some r /\ length r = next_size m /\
      forall j, j < next_size m -> nth j r d = last_sent d (mapping m) ins j.
  Proof.
    intros [HE Hr] Hl. unfold map_inputs, cur_size in *. rewrite Hl, Nat.eqb_refl.
    destruct (map_inputs_loop_spec d (mapping m) ins (repeat d (next_size m))) as [r [H1 [H2 H3]]].
    { rewrite repeat_length; auto. }
    rewrite repeat_length in *. exists r; repeat split; auto.
    intros j Hj. rewrite H3 by auto. f_equal. apply nth_repeat.
  Qed.

  Lemma last_sent_notin {T} (d : T) ms : forall ins j, ~ In j ms -> last_sent d ms ins j = d.
  Proof.
    induction ms as [|m ms IH]; intros [|x ins] j H; simpl; auto.
    simpl in H. destruct (Nat.eqb_spec m j); [exfalso; auto|]. simpl. apply IH; auto.
  Qed.

  (* with a unique sender, its value arrives *)
  Lemma last_sent_at {T} ms : forall (d : T) ins i j, length ins = length ms ->
    nth_error ms i = Some j -> j <> EMPTY ->
    (forall k, nth_error ms k = Some j -> k = i) ->
    nth_error ins i = Some (last_sent d ms ins j).
  Proof.
    induction ms as [|m ms IH]; intros d [|x ins] [|i] j Hl Hi Hj Hu; simpl in *; try discriminate.
    - inversion Hi; subst. rewrite Nat.eqb_refl. destruct (Nat.eqb_spec j EMPTY); [contradiction|]. simpl.
      rewrite last_sent_notin; auto. intros Hin. apply In_nth_error in Hin. destruct Hin as [k Hk].
      specialize (Hu (S k) Hk). discriminate.
    - assert (m <> j). { intros ->. specialize (Hu 0 eq_refl). discriminate. }
      destruct (Nat.eqb_spec m j); [contradiction|]. simpl.
      apply IH; auto. intros k Hk. specialize (Hu (S k) Hk). lia.
  Qed.

  Lemma map_inputs_delivers {T} (d : T) m ins r i j : in_range m -> injective m ->
    map_inputs d m ins = Some r -> nth_error (mapping m) i = Some j -> j <> EMPTY ->
    nth_error r j = nth_error ins i /\ j < length r.
  Proof.
    intros Hr Hi H Hij Hj.
    assert (Hl : length ins = cur_size m).
    { unfold map_inputs in H. destruct (Nat.eqb_spec (length ins) (length (mapping m))); auto. discriminate. }
    destruct (map_inputs_spec d m ins Hr Hl) as [r' [H1 [H2 H3]]]. rewrite H1 in H; inversion H; subst r'.
    destruct Hr as [HE Hr].
    assert (Hjn : j < next_size m).
    { rewrite Forall_forall in Hr. destruct (Hr j); auto. eapply nth_error_In; eauto. contradiction. }
    split; [|lia].
    rewrite (last_sent_at (mapping m) d ins i j); auto.
    - rewrite <- H3 by auto. apply nth_error_nth'. lia.
    - intros k Hk. eapply Hi; eauto.
  Qed.

  Lemma last_sent_compose {T} (b : InputMapping) (d : T) :
    injective b -> next_size b <= EMPTY ->
    forall msa ms' (ins : list T) j,
    omap (fun m => if m =? EMPTY then Some EMPTY else nth_error (mapping b) m) msa = Some ms' ->
    j <> EMPTY ->
    forall i, nth_error (mapping b) i = Some j -> i <> EMPTY ->
    forall d0 : T, last_sent d0 ms' ins j = last_sent d0 msa ins i.
  Proof.
    intros Hinj HE msa. induction msa as [|m msa IH]; intros ms' ins j Hms Hj i Hi Hie d0; simpl in Hms.
    - inversion Hms; subst. destruct ins; auto.
    - destruct (if m =? EMPTY then Some EMPTY else nth_error (mapping b) m) as [t|] eqn:Et; [|discriminate].
      destruct (omap _ msa) as [ms''|] eqn:Eo; [|discriminate]. inversion Hms; subst. clear Hms.
      destruct ins as [|x ins]; auto. simpl.
      rewrite (IH ms'' ins j eq_refl Hj i Hi Hie). f_equal.
      destruct (Nat.eqb_spec m EMPTY) as [E|E].
      + inversion Et; subst t. rewrite Nat.eqb_refl. rewrite !andb_false_r. auto.
      + rewrite andb_true_r. destruct (Nat.eqb_spec t j) as [Etj|Etj]; simpl.
        * subst. assert (m = i) by (eapply Hinj; eauto). subst. rewrite Nat.eqb_refl.
          destruct (Nat.eqb_spec j EMPTY); [contradiction|]. auto.
        * destruct (Nat.eqb_spec m i); auto. subst. congruence.
  Qed.

  Lemma compose_spec {T} (d : T) a b ins : in_range a -> in_range b -> injective b ->
    cur_size b = next_size a -> length ins = cur_size a ->
    exists c mid r, compose a b = Some c /\ map_inputs d a ins = Some mid /\
      map_inputs d b mid = Some r /\ map_inputs d c ins = Some r.
  Proof.
    intros Ha Hb Hinj Hsz Hl.
    assert (Hc : exists ms, omap (fun m => if m =? EMPTY then Some EMPTY else nth_error (mapping b) m) (mapping a) = Some ms).
    { destruct Ha as [_ Ha]. clear Hl. induction Ha as [|m ms Hm Hms IH]; simpl; eauto.
      destruct IH as [ms' ->]. destruct (Nat.eqb_spec m EMPTY); eauto.
      destruct Hm as [Hm|Hm]; [contradiction|].
      destruct (nth_error_Some_ex (mapping b) m) as [t Ht]. { unfold cur_size in Hsz. lia. }
      rewrite Ht; eauto. }
    destruct Hc as [ms Hms].
    set (c := {| next_size := next_size b; mapping := ms |}).
    assert (Hrc : in_range c).
    { destruct Hb as [HbE Hb]. split; auto. simpl. apply omap_some in Hms. clear -Hms Hb.
      induction Hms as [|m t l l' Hmt Hms IH]; constructor; auto.
      destruct (m =? EMPTY). left; congruence. apply nth_error_In in Hmt.
      rewrite Forall_forall in Hb; auto. }
    destruct (map_inputs_spec d a ins Ha Hl) as [mid [H1 [H2 H3]]].
    assert (Hlm : length mid = cur_size b) by congruence.
    destruct (map_inputs_spec d b mid Hb Hlm) as [r [H4 [H5 H6]]].
    assert (Hlc : length ins = cur_size c).
    { unfold cur_size, c; simpl. rewrite (omap_length _ _ _ Hms); auto. }
    destruct (map_inputs_spec d c ins Hrc Hlc) as [r' [H7 [H8 H9]]].
    exists c, mid, r. unfold compose. rewrite Hms. repeat split; auto.
    rewrite H7. f_equal. simpl in *. apply (nth_ext _ _ d d). congruence.
    intros j Hj. rewrite H8 in Hj. rewrite H6, H9 by auto. simpl.
    destruct Hb as [HbE Hb].
    assert (Hje : j <> EMPTY) by lia.
    destruct (in_dec Nat.eq_dec j (mapping b)) as [Hin|Hnin].
    - apply In_nth_error in Hin. destruct Hin as [i Hi].
      assert (Hil : i < next_size a). { apply nth_error_Some_lt in Hi. unfold cur_size in Hsz; lia. }
      destruct Ha as [HaE Ha].
      rewrite (last_sent_compose b d Hinj HbE (mapping a) ms ins j Hms Hje i Hi) by lia.
      rewrite <- H3 by auto.
      assert (Hx := last_sent_at (mapping b) d mid i j Hlm Hi Hje).
      assert (Hu : forall k, nth_error (mapping b) k = Some j -> k = i) by (intros k Hk; eapply Hinj; eauto).
      specialize (Hx Hu). apply nth_error_nth with (d:=d) in Hx. congruence.
    - rewrite (last_sent_notin d (mapping b)) by auto. apply last_sent_notin.
      intros Hin. apply Hnin. apply omap_some in Hms. clear -Hms Hin Hje.
      induction Hms as [|m t l l' Hmt Hms IH]; [contradiction|].
      destruct Hin as [->|Hin]; auto. destruct (Nat.eqb_spec m EMPTY). congruence.
      eapply nth_error_In; eauto.
  Qed.

  Lemma compose_loop_spec b : forall n i ms, i + n = length ms ->
    compose_loop b n i ms =
    let* r := omap (fun m => if m =? EMPTY then Some EMPTY else nth_error (mapping b) m) (skipn i ms) in
    Some (firstn i ms ++ r).
  Proof.
    induction n as [|n IH]; intros i ms Hl; cbn [compose_loop].
    - rewrite skipn_all2 by lia. simpl. rewrite app_nil_r, firstn_all2; auto; lia.
    - destruct (nth_error_Some_ex ms i) as [m Hm]; [lia|]. rewrite Hm. unfold obind at 1.
      assert (Hsk : skipn i ms = m :: skipn (S i) ms).
      { clear -Hm. revert i Hm; induction ms as [|x t IH]; intros [|i] H; simpl in *; try discriminate.
        inversion H; auto. apply IH; auto. }
      assert (Hfi : firstn (S i) ms = firstn i ms ++ [m]).
      { clear -Hm. revert i Hm; induction ms as [|x t IH]; intros [|i] H; simpl in *; try discriminate.
        inversion H; auto. f_equal. apply IH; auto. }
      rewrite Hsk. cbn [omap]. destruct (Nat.eqb_spec m EMPTY) as [E|E].
      + rewrite IH by lia. destruct (omap _ (skipn (S i) ms)); unfold obind; auto.
        rewrite Hfi, <- app_assoc. cbn [app]. subst; auto.
      + destruct (nth_error (mapping b) m) as [t|] eqn:Et; unfold obind at 1; auto.
        rewrite IH by (rewrite upd_length; lia).
        destruct (upd_split ms i t m Hm) as [_ Hu].
        assert (Hli : length (firstn i ms) = i) by (rewrite firstn_length; lia).
        assert (H1 : skipn (S i) (upd ms i t) = skipn (S i) ms).
        { rewrite Hu, skipn_app, Hli. rewrite skipn_all2 by (rewrite Hli; lia).
          replace (S i - i) with 1 by lia. reflexivity. }
        assert (H2 : firstn (S i) (upd ms i t) = firstn i ms ++ [t]).
        { rewrite Hu, firstn_app, Hli. rewrite firstn_all2 by (rewrite Hli; lia).
          replace (S i - i) with 1 by lia. reflexivity. }
        rewrite H1, H2. destruct (omap _ (skipn (S i) ms)); unfold obind; auto. rewrite <- app_assoc; auto.
  Qed.
  Lemma compose_in_place_eq a b : compose_in_place a b = compose a b.
  Proof.
    unfold compose_in_place, compose. rewrite compose_loop_spec by auto. simpl.
    destruct (omap _ (mapping a)); auto.
  Qed.

  Lemma last_sent_seq {T} (d : T) : forall ins k j, k + length ins <= EMPTY ->
    last_sent d (seq k (length ins)) ins j =
    if (k <=? j) && (j <? k + length ins) then nth (j - k) ins d else d.
  Proof.
    intros ins. assert (Hg : forall (dd : T) k j, j < k \/ True -> k + length ins <= EMPTY ->
      last_sent dd (seq k (length ins)) ins j =
      if (k <=? j) && (j <? k + length ins) then nth (j - k) ins dd else dd).
    2: { intros; apply Hg; auto. }
    induction ins as [|x ins IH]; intros dd k j _ HE; cbn [length seq last_sent].
    - destruct (Nat.leb_spec k j), (Nat.ltb_spec j (k + 0)); cbn; auto; lia.
    - cbn [length] in HE. rewrite IH by (auto; lia).
      destruct (Nat.eqb_spec k j).
      + subst. destruct (Nat.eqb_spec j EMPTY); [lia|]. cbn [andb negb].
        destruct (Nat.leb_spec (S j) j); [lia|]. cbn [andb].
        destruct (Nat.leb_spec j j); [|lia]. destruct (Nat.ltb_spec j (j + S (length ins))); [|lia].
        cbn [andb]. replace (j - j) with 0 by lia; auto.
      + cbn [andb]. destruct (Nat.leb_spec (S k) j), (Nat.leb_spec k j); cbn [andb]; try lia; auto.
        replace (k + S (length ins)) with (S k + length ins) by lia.
        destruct (Nat.ltb_spec j (S k + length ins)); auto.
        replace (j - k) with (S (j - S k)) by lia; auto.
  Qed.
  Lemma map_inputs_identity {T} (d : T) ins : length ins <= EMPTY ->
    map_inputs d (im_identity (length ins)) ins = Some ins.
  Proof.
    intros HE.
    assert (Hr : in_range (im_identity (length ins))).
    { split; simpl; auto. apply Forall_forall. intros t Ht. apply in_seq in Ht. right; lia. }
    destruct (map_inputs_spec d _ ins Hr) as [r [H1 [H2 H3]]].
    { unfold cur_size; simpl. rewrite seq_length; auto. }
    rewrite H1. f_equal. simpl in *. apply (nth_ext _ _ d d); auto.
    intros j Hj. rewrite H3 by lia. rewrite last_sent_seq by lia. simpl.
    destruct (Nat.ltb_spec j (length ins)); [|lia]. rewrite Nat.sub_0_r; auto.
  Qed.

  (* validate accepts exactly the mappings whose kept inputs are in bijection with the new positions *)
  Lemma im_used_spec ms : forall used,
    (exists u, im_used ms used = Some u) <->
    (forall t, In t ms -> t <> EMPTY -> nth_error used t = Some false) /\
    (forall i j t, nth_error ms i = Some t -> nth_error ms j = Some t -> t <> EMPTY -> i = j).
  Proof.
    induction ms as [|m ms IH]; intros used; simpl.
    - split; [intros _; split; [contradiction | intros [|i] j t H; discriminate] | eauto].
    - destruct (Nat.eqb_spec m EMPTY) as [E|E].
      + rewrite IH. split; intros [H1 H2]; split.
        * intros t [Ht|Ht] Hne; [congruence | auto].
        * intros [|i] [|j] t Hi Hj Hne; simpl in *; try congruence. f_equal; eauto.
        * intros t Ht Hne; auto.
        * intros i j t Hi Hj Hne. specialize (H2 (S i) (S j) t Hi Hj Hne). lia.
      + destruct (nth_error used m) as [[|]|] eqn:Em.
        * split; [intros [u Hu]; discriminate|]. intros [H1 _]. specialize (H1 m (or_introl eq_refl) E). congruence.
        * rewrite IH. split; intros [H1 H2]; split.
          -- intros t [Ht|Ht] Hne; [congruence|]. specialize (H1 t Ht Hne).
             rewrite nth_error_upd in H1. destruct ((m =? t) && _); congruence.
          -- assert (Hnot : ~ In m ms).
             { intros Hin. specialize (H1 m Hin E). rewrite nth_error_upd_eq in H1; [discriminate|].
               eapply nth_error_Some_lt; eauto. }
             intros [|i] [|j] t Hi Hj Hne; simpl in *; auto.
             ++ inversion Hi; subst. exfalso; apply Hnot. eapply nth_error_In; eauto.
             ++ inversion Hj; subst. exfalso; apply Hnot. eapply nth_error_In; eauto.
             ++ f_equal; eauto.
          -- intros t Ht Hne. rewrite nth_error_upd_ne; auto.
             intros ->. apply In_nth_error in Ht. destruct Ht as [k Hk].
             specialize (H2 0 (S k) t eq_refl Hk Hne). discriminate.
          -- intros i j t Hi Hj Hne. specialize (H2 (S i) (S j) t Hi Hj Hne). lia.
        * split; [intros [u Hu]; discriminate|]. intros [H1 _]. specialize (H1 m (or_introl eq_refl) E). congruence.
  Qed.
  Lemma im_used_res ms : forall used u, im_used ms used = Some u -> length u = length used /\
    forall j, nth_error u j = Some true <->
              nth_error used j = Some true \/ (j < length used /\ j <> EMPTY /\ In j ms).
  Proof.
    induction ms as [|m ms IH]; intros used u H; simpl in *.
    - inversion H; subst. split; auto. intros j. intuition.
    - destruct (Nat.eqb_spec m EMPTY) as [E|E].
      + destruct (IH _ _ H) as [H1 H2]. split; auto. intros j. rewrite H2. intuition. congruence.
      + destruct (nth_error used m) as [[|]|] eqn:Em; try discriminate.
        destruct (IH _ _ H) as [H1 H2]. rewrite upd_length in *. split; auto.
        intros j. rewrite H2, nth_error_upd. apply nth_error_Some_lt in Em as Hlt.
        destruct (Nat.ltb_spec m (length used)); [|lia]. rewrite andb_true_r.
        destruct (Nat.eqb_spec m j); subst; intuition.
  Qed.
  Lemma im_validate_spec m : next_size m <= EMPTY ->
    (im_validate m = true <->
     in_range m /\ injective m /\ (forall j, j < next_size m -> In j (mapping m))).
  Proof.
    intros HE. unfold im_validate. split.
    - destruct (im_used (mapping m) _) as [u|] eqn:Eu; [|discriminate]. intros Hall.
      destruct (im_used_res _ _ _ Eu) as [Hl Hres]. rewrite repeat_length in *.
      assert (Hex : exists u, im_used (mapping m) (repeat false (next_size m)) = Some u) by eauto.
      apply im_used_spec in Hex. destruct Hex as [H1 H2].
      repeat split; auto.
      + apply Forall_forall. intros t Ht. destruct (Nat.eq_dec t EMPTY); auto. right.
        specialize (H1 t Ht n). apply nth_error_Some_lt in H1. rewrite repeat_length in H1; auto.
      + intros j Hj. rewrite forallb_forall in Hall.
        destruct (nth_error_Some_ex u j) as [x Hx]; [lia|].
        assert (x = true) by (apply Hall; eapply nth_error_In; eauto). subst.
        apply Hres in Hx. destruct Hx as [Hx|[_ [_ Hx]]]; auto.
        apply nth_error_In, repeat_spec in Hx. discriminate.
    - intros [[_ Hr] [Hi Hs]].
      assert (Hex : exists u, im_used (mapping m) (repeat false (next_size m)) = Some u).
      { apply im_used_spec. split; auto. intros t Ht Hne. rewrite Forall_forall in Hr.
        destruct (Hr t Ht); [contradiction|]. apply nth_error_repeat; auto. }
      destruct Hex as [u Hu]. rewrite Hu. destruct (im_used_res _ _ _ Hu) as [Hl Hres]. rewrite repeat_length in *.
      apply forallb_forall. intros x Hx. apply In_nth_error in Hx. destruct Hx as [j Hj].
      assert (j < next_size m) by (apply nth_error_Some_lt in Hj; lia).
      assert (nth_error u j = Some true) by (apply Hres; right; repeat split; auto; lia). congruence.
  Qed.
End IM.
