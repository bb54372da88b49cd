(* Range proofs by lookup (circuit-std-rs/src/logup.rs, LogUpRangeProofTable): what their runs are. *)
From Verif Require Import Prelude Field Expr Hints Ir IrInst ApiSpec Gadget GadgetRec ShaSpec ShaGf2 ShaGf2Facts LogUp LogUpFacts LogUpPoly.
From Coq Require Import NArith.
Open Scope nat_scope.

Section Hints.
  Context {F : Fld}.
  (* logup.rs:508-518: None is an index out of bounds *)
  Definition query_count_hint (n : nat) (inputs : list F) : option (list F) :=
    if forallb (fun x => Z.ltb (toZ x) (Z.of_nat n)) inputs then
      Some (map (fun i => ofZ (Z.of_nat (count_occ Z.eq_dec (map toZ inputs) (Z.of_nat i)))) (seq 0 n))
    else None.
  (* logup.rs:545-563: n / m outputs; None where an index is out of bounds or m is 0.  r is below 2^m: m at most 32 *)
  Definition rangeproof_hint (n_outputs : nat) (inputs : list F) : option (list F) :=
    match inputs with
    | n :: m :: a :: _ =>
        if (toZ m =? 0)%Z || (Z.of_nat n_outputs <? toZ n / toZ m)%Z then None
        else Some (map (fun i => if (Z.of_nat i <? toZ n / toZ m)%Z then ofZ ((toZ a / 2 ^ (toZ m * Z.of_nat i)) mod 2 ^ toZ m) else f0) (seq 0 n_outputs))
    | _ => None
    end.
  (* logup.rs:520-543: keys are truncated to 32 bits (as_u32); None is an index out of bounds.  The map counts the occurrences of each key *)
  Definition key32 (x : F) : Z := (toZ x mod 2 ^ 32)%Z.
  Definition query_count_by_key_hint (n_outputs : nat) (inputs : list F) : option (list F) :=
    match inputs with
    | size :: rest =>
        let table_size := Z.to_nat (toZ size) in
        if (length rest <? table_size) || (n_outputs <? table_size) then None
        else let table := firstn table_size rest in let query_keys := skipn table_size rest in
          Some (map (fun k => ofZ (Z.of_nat (count_occ Z.eq_dec (map key32 query_keys) (key32 k)))) table ++ repeat f0 (n_outputs - table_size))
    | [] => None
    end.
End Hints.

Section Range.
  Context {F : Fld}.
  Variable fns : nat -> nat -> nat -> Prog F.
  Variable E : Env F.
  (* the number of bits rounded up, the value moved to the top of that range *)
  Definition up (bits n : nat) : nat := if n mod bits =? 0 then n else n + (bits - n mod bits).
  Definition moved (bits : nat) (v : F) (n : nat) : F := if n mod bits =? 0 then v else fadd v (fmul (ofZ (2 ^ Z.of_nat (bits - n mod bits) - 1)) (ofZ (2 ^ Z.of_nat n))).
  (* digits *)
  Definition weighted (bits : nat) (ws : list F) : F := fsum F (map (fun p => fmul (snd p) (ofZ (2 ^ Z.of_nat (bits * fst p)))) (combine (seq 0 (length ws)) ws)).
  (* with a condition that may fail in the first part *)
  Lemma cr_bindb {A B} hv (m : G F A) (f : A -> G F B) X Y pre (bx : X -> bool) (pre2 : X -> Y -> Prop) (P : X -> list F -> A -> Prop) (Q : X -> Y -> list F -> B -> bool -> Prop) :
    cr fns E hv m X pre (fun x h a b => P x h a /\ b = bx x) -> (forall x h a, pre x -> ext hv h -> P x h a -> cr fns E h (f a) Y (pre2 x) (Q x)) ->
    cr fns E hv (gbind m f) (X * Y) (fun p => pre (fst p) /\ pre2 (fst p) (snd p)) (fun p h c b => exists b2, b = bx (fst p) && b2 /\ Q (fst p) (snd p) h c b2).
  Proof.
    intros [M1 M2] H. split.
    - intros hv' c b R. apply runs_bind in R. destruct R as (h & a & b1 & b2 & R1 & R2 & ->). destruct (M1 _ _ _ R1) as (x & Px & Pq & ->).
      destruct (H _ _ _ Px (runs_ext _ _ _ _ _ _ _ R1) Pq) as [N1 _]. destruct (N1 _ _ _ R2) as (y & Py & Qy). exists (x, y). cbn [fst snd]. eauto.
    - intros [x y] [Px Py]. cbn [fst snd] in *. destruct (M2 _ Px) as (h & a & b1 & R1 & Pq & ->). destruct (H _ _ _ Px (runs_ext _ _ _ _ _ _ _ R1) Pq) as [_ N2].
      destruct (N2 _ Py) as (h' & c & b2 & R2 & Qy). exists h', c, (bx x && b2). split; [|eauto]. apply runs_bind. exists h, a, (bx x), b2. auto.
  Qed.
  Lemma cr_ret {A} hv (a : A) X (pre : X -> Prop) (x0 : X) (Q : X -> list F -> A -> bool -> Prop) : (forall x, pre x <-> x = x0) -> Q x0 hv a true -> cr fns E hv (gret a) X pre Q.
  Proof.
    intros H1 H2. split.
    - intros hv' a' b R. apply runs_ret in R. destruct R as (-> & -> & ->). exists x0. split; auto. apply H1. auto.
    - intros x Px. apply H1 in Px. subst. exists hv, a, true. split; auto. apply runs_ret. auto.
  Qed.
  (* change of the type of choices *)
  Lemma cr_iso {A} hv (m : G F A) X Y preX preY (QX : X -> list F -> A -> bool -> Prop) (QY : Y -> list F -> A -> bool -> Prop) :
    cr fns E hv m X preX QX -> (forall x h a b, preX x -> QX x h a b -> exists y, preY y /\ QY y h a b) -> (forall y, preY y -> exists x, preX x /\ forall h a b, QX x h a b -> QY y h a b) ->
    cr fns E hv m Y preY QY.
  Proof.
    intros [M1 M2] H1 H2. split.
    - intros hv' a b R. destruct (M1 _ _ _ R) as (x & Px & Qx). eauto.
    - intros y Py. destruct (H2 y Py) as (x & Px & H). destruct (M2 x Px) as (h & a & b & R & Qx). eauto 6.
  Qed.
  (* one value *)
  Definition rp_pre (id : N) (bits : nat) (v : F * nat) (ws : list F) : Prop :=
    if snd v <=? bits then ws = [] else hint_sem F E id (up bits (snd v) / bits) [ofZ (Z.of_nat (up bits (snd v))); ofZ (Z.of_nat bits); moved bits (fst v) (snd v)] ws.
  Definition rp_queries (bits : nat) (v : F * nat) (ws : list F) : list F := if snd v <=? bits then [moved bits (fst v) (snd v)] else ws.
  Definition rp_holds (bits : nat) (v : F * nat) (ws : list F) : bool := if snd v <=? bits then true else feqb (weighted bits ws) (moved bits (fst v) (snd v)).
  Local Open Scope fld_scope.
  Add Field FfR : (fth F).
  Lemma up_div bits n : (0 < bits)%nat -> (up bits n mod bits = 0)%nat.
  Proof.
    intros H. unfold up. destruct (Nat.eqb_spec (n mod bits) 0) as [Z|Z]; auto. pose proof (Nat.div_mod n bits ltac:(lia)) as D. pose proof (Nat.mod_upper_bound n bits ltac:(lia)) as U.
    replace (n + (bits - n mod bits))%nat with ((n / bits + 1) * bits)%nat by lia. apply Nat.mod_mul. lia.
  Qed.
  Lemma up_ge bits n : (n <= up bits n)%nat. Proof. unfold up. destruct (_ =? _)%nat; lia. Qed.
  Lemma ok_one hv bits a v n : is hv a v -> (n <= bits)%nat -> ok hv (rangeproof_onechunk bits a n) (fun hv' q => is hv' q (moved bits v n)).
  Proof.
    intros H L. unfold rangeproof_onechunk, moved. destruct (Nat.ltb_spec bits n); [lia|]. destruct (n mod bits =? 0)%nat; [apply ok_ret; auto|].
    eapply ok_bind; [eapply ok_bin; cbn [arg_val k bin_fun]; reflexivity|]. cbv beta. intros h1 s X1 S. apply ok_add; [eapply is_ext; [exact X1|exact H]|exact S].
  Qed.
  Lemma weighted_cons bits w ws : weighted bits (w :: ws) = w + fsum F (map (fun p => snd p * ofZ (2 ^ Z.of_nat (bits * fst p))) (combine (seq 1 (length ws)) ws)).
  Proof.
    unfold weighted. cbn [length seq combine map fst snd fsum fold_right]. rewrite Nat.mul_0_r. change (2 ^ Z.of_nat 0)%Z with 1%Z. rewrite ofZ_1. unfold fsum. ring.
  Qed.
  Lemma cr_rangeproof hv id bits a v n : is hv a v -> (0 < bits)%nat -> (n < 128)%nat ->
    cr fns E hv (rangeproof id bits a n) (list F) (rp_pre id bits (v, n)) (fun ws h qs b => iss h qs (rp_queries bits (v, n) ws) /\ b = rp_holds bits (v, n) ws).
  Proof.
    intros H Hb Hn. unfold rangeproof, rp_pre, rp_queries, rp_holds. cbn [fst snd]. destruct (Nat.ltb_spec 128 n); [lia|]. destruct (Nat.leb_spec n bits) as [L|L].
    - eapply cr_ok; [apply ok_one; eauto|]. cbv beta. intros h1 q X1 Q. apply cr_ret with (x0 := []); [tauto|]. split; auto. repeat constructor; auto.
    - eapply cr_ok with (P := fun h p => is h (fst p) (moved bits v n) /\ snd p = up bits n).
      + unfold moved, up. destruct (n mod bits =? 0)%nat; [apply ok_ret; auto|].
        eapply ok_bind; [apply ok_const|]. cbv beta. intros h1 mf X1 M. eapply ok_bind; [eapply ok_bin; cbn [arg_val k]; [reflexivity|exact M|reflexivity]|]. cbv beta. intros h2 s X2 S.
        eapply ok_bind; [apply ok_add; [eapply is_ext; [|exact H]; eauto using ext_trans|exact S]|]. cbv beta. intros h3 na X3 NA. apply ok_ret. auto.
      + intros h1 [na n'] X1 [NA En]. cbn [fst snd] in *. subst n'. pose proof (up_div bits n Hb) as UD. pose proof (up_ge bits n) as UG.
        eapply cr_ok; [apply ok_const|]. cbv beta. intros h2 cn X2 CN. eapply cr_ok; [apply ok_const|]. cbv beta. intros h3 cb X3 CB.
        set (m := (up bits n / bits)%nat). assert (Pm : (0 < m)%nat) by (apply Nat.div_str_pos; lia).
        assert (I : iss h3 [cn; cb; na] [ofZ (Z.of_nat (up bits n)); ofZ (Z.of_nat bits); moved bits v n]).
        { constructor; [eapply is_ext; eauto|]. constructor; auto. constructor; [|constructor]. eapply is_ext; [|exact NA]. eauto using ext_trans. }
        eapply cr_iso with (preX := fun p : list F * (unit * unit) => hint_sem F E id m [ofZ (Z.of_nat (up bits n)); ofZ (Z.of_nat bits); moved bits v n] (fst p) /\ (True /\ True))
          (QX := fun p h qs b => exists b2, b = true && b2 /\ (exists b3, b2 = (weighted bits (fst p) =? moved bits v n) && b3 /\ (iss h qs (fst p) /\ b3 = true))).
        * eapply (cr_bindb _ _ _ _ (unit * unit) _ (fun _ => true) (fun _ _ => True /\ True)
            (fun ws h a => iss h a ws) (fun ws _ h qs b => exists b3, b = (weighted bits ws =? moved bits v n) && b3 /\ (iss h qs ws /\ b3 = true))).
          { unfold m. eapply cr_imp; [apply cr_hint; exact I|]. cbv beta. tauto. }
          intros ws h4 wits Hw X4 W. pose proof (f2_len _ _ _ W) as LW. destruct Hw as [Lw _]. destruct ws as [|w ws]; cbn in Lw; [lia|]. destruct wits as [|w0 wits]; [discriminate|].
          inversion W as [|x y l l' W0 Ws]; subst.
          eapply cr_ok with (P := fun h s => is h s (weighted bits (w :: ws))).
          { rewrite weighted_cons. assert (FL : forall l (acc : F), fold_left (fun acc (p : nat * F) => acc + snd p * ofZ (2 ^ Z.of_nat (bits * fst p))) l acc = acc + fsum F (map (fun p => snd p * ofZ (2 ^ Z.of_nat (bits * fst p))) l)).
            { induction l as [|p l IHl]; intros acc; cbn [fold_left map fsum fold_right]; [ring|]. rewrite IHl. unfold fsum. ring. }
            rewrite <- FL. eapply (ok_gfold _ (fun h p q => fst p = fst q /\ is h (snd p) (snd q)) (fun h x v => is h x v) (fun acc (p : nat * F) => acc + snd p * ofZ (2 ^ Z.of_nat (bits * fst p)))).
            - intros h5 h6 x y X [A1 A2]. split; auto. eapply is_ext; eauto.
            - intros h5 s y x z S [A1 A2]. rewrite A1. eapply ok_bind; [apply ok_const|]. cbv beta. intros h6 c X6 C. eapply ok_bind; [apply ok_mul; [eapply is_ext; [exact X6|exact A2]|exact C]|]. cbv beta. intros h7 mm X7 M.
              apply ok_add; auto. eapply is_ext; [|exact S]. eauto using ext_trans.
            - rewrite (f2_len _ _ _ Ws). generalize (seq 1 (length ws)). clear -Ws. induction Ws; intros [|i l0]; cbn [combine]; constructor; auto.
            - exact W0. }
          cbv beta. intros h5 s X5 S.
          eapply cr_iso with (preX := fun p : unit * unit => True /\ True) (QX := fun p h qs b => exists b2, b = (weighted bits (w :: ws) =? moved bits v n) && b2 /\ (iss h qs (w :: ws) /\ b2 = true)).
          { eapply (cr_bindb _ _ _ _ unit (fun _ => True) (fun _ => weighted bits (w :: ws) =? moved bits v n) (fun _ _ => True) (fun _ h _ => h = h5) (fun _ _ h qs b => iss h qs (w :: ws) /\ b = true)).
            - apply cr_assert_eq; [exact S|]. eapply is_ext; [|exact NA]. eauto using ext_trans.
            - intros _ h6 _ _ X6 ->. apply cr_ret with (x0 := tt); [intros []; tauto|]. split; auto. fold m. rewrite firstn_all2 by (cbn [length] in *; lia). eapply iss_ext; [exact X5|exact W]. }
          { intros x h6 q b Px Qx. exists x. auto. }
          { intros y Py. exists y. auto. }
        * intros [ws u] h6 q b [Px _] (b2 & -> & b3 & -> & I2 & ->). exists ws. cbn [fst] in *. split; auto. split; auto. cbn [andb]. rewrite andb_true_r. auto.
        * intros ws Pws. exists (ws, (tt, tt)). split; [auto|]. cbn [fst]. intros h6 q b (b2 & -> & b3 & -> & I2 & ->). split; auto. cbn [andb]. rewrite andb_true_r. auto.
  Qed.
  (* many values *)
  Definition all_pre (id : N) (bits : nat) (vs : list (F * nat)) (wss : list (list F)) : Prop := Forall2 (rp_pre id bits) vs wss.
  Definition all_queries (bits : nat) (vs : list (F * nat)) (wss : list (list F)) : list F := concat (map (fun p => rp_queries bits (fst p) (snd p)) (combine vs wss)).
  Definition all_holds (bits : nat) (vs : list (F * nat)) (wss : list (list F)) : bool := forallb (fun p => rp_holds bits (fst p) (snd p)) (combine vs wss).
  Definition RV (hv : list F) (p : nat * nat) (v : F * nat) : Prop := is hv (fst p) (fst v) /\ snd p = snd v.
  Lemma cr_rangeproofs id bits : (0 < bits)%nat -> forall l vs hv, Forall2 (RV hv) l vs -> Forall (fun p => (snd p < 128)%nat) l ->
    cr fns E hv (gmap (fun p => rangeproof id bits (fst p) (snd p)) l) (list (list F)) (all_pre id bits vs) (fun wss h qs b => iss h (concat qs) (all_queries bits vs wss) /\ b = all_holds bits vs wss).
  Proof.
    intros Hb l. induction l as [|p l IH]; intros vs hv H L; inversion H as [|p0 v l0 vs0 [Hp1 Hp2] Hl]; subst; cbn [gmap].
    - apply cr_ret with (x0 := []).
      + intros x. unfold all_pre. split; intros Q; [inversion Q; auto|subst; constructor].
      + split; [constructor|reflexivity].
    - inversion L as [|p0 l0 L1 L2]; subst. destruct v as [v n]. cbn [fst snd] in *. subst n.
      eapply cr_iso with (preX := fun q : list F * (list (list F) * unit) => rp_pre id bits (v, snd p) (fst q) /\ (all_pre id bits vs0 (fst (snd q)) /\ True))
        (QX := fun q h qs b => exists b2, b = rp_holds bits (v, snd p) (fst q) && b2 /\ exists b3, b2 = all_holds bits vs0 (fst (snd q)) && b3 /\ (iss h (concat qs) (rp_queries bits (v, snd p) (fst q) ++ all_queries bits vs0 (fst (snd q))) /\ b3 = true)).
      + eapply (cr_bindb _ _ _ _ (list (list F) * unit) _ _ (fun _ q => all_pre id bits vs0 (fst q) /\ True) (fun ws h a => iss h a (rp_queries bits (v, snd p) ws))
          (fun ws q h qs b => exists b3, b = all_holds bits vs0 (fst q) && b3 /\ (iss h (concat qs) (rp_queries bits (v, snd p) ws ++ all_queries bits vs0 (fst q)) /\ b3 = true))).
        { apply cr_rangeproof; auto. }
        intros ws h1 q1 Pws X1 Q1.
        eapply (cr_bindb _ _ _ _ unit _ _ (fun _ _ => True) (fun wss h a => iss h (concat a) (all_queries bits vs0 wss)) (fun wss _ h qs b => iss h (concat qs) (rp_queries bits (v, snd p) ws ++ all_queries bits vs0 wss) /\ b = true)).
        { apply (IH vs0); auto. clear -Hl X1. induction Hl as [|a b la lb [H1 H2] Hl IHl]; constructor; auto. split; auto. eapply is_ext; eauto. }
        intros wss h2 qs Pwss X2 Q2. apply cr_ret with (x0 := tt); [intros []; tauto|]. split; auto. cbn [concat]. apply Forall2_app; auto. eapply iss_ext; eauto.
      + intros [ws [wss u]] h qs b [P1 [P2 _]] (b2 & -> & b3 & -> & I & ->). cbn [fst snd] in *. exists (ws :: wss). split; [constructor; auto|]. split; [exact I|]. rewrite andb_true_r. reflexivity.
      + intros wss' P. inversion P as [|v0 ws vs1 wss P1 P2]; subst. exists (ws, (wss, tt)). cbn [fst snd]. split; [auto|]. intros h qs b (b2 & -> & b3 & -> & I & ->). split; [exact I|]. rewrite andb_true_r. reflexivity.
  Qed.
  (* the table and the final check *)
  Definition range_table (bits : nat) : list F := map (fun i => ofZ (Z.of_nat i)) (seq 0 (2 ^ bits)%nat).
  Lemma ok_table hv bits : ok hv (rp_initial bits) (fun hv' xs => iss hv' xs (range_table bits)).
  Proof.
    unfold rp_initial, range_table. eapply (ok_gmap _ (fun _ a x => a = x) (fun hv x v => is hv x v) (fun i => ofZ (Z.of_nat i))).
    - auto.
    - intros. eapply is_ext; eauto.
    - intros h a x ->. apply ok_const.
    - generalize (seq 0 (2 ^ bits)%nat). intros l. induction l; constructor; auto.
  Qed.
  Lemma cr_rp_final hv id table queries ts qs : iss hv table ts -> iss hv queries qs ->
    cr fns E hv (rp_final_check id table queries) (F * (list F * unit)) (fun x => e_rnd E (fst x) /\ (hint_sem F E id (length ts) qs (fst (snd x)) /\ True)) (fun x _ _ b => b = balanced (fst x) (combine (fst (snd x)) ts) qs).
  Proof.
    intros HT HQ. unfold rp_final_check.
    eapply cr_bind with (pre2 := fun y : list F * unit => hint_sem F E id (length ts) qs (fst y) /\ True) (Q := fun x y h a b => b = balanced x (combine (fst y) ts) qs); [apply cr_random|].
    intros alpha h1 xa b Ha X1 [Ia Eb]. split; [exact Eb|].
    eapply cr_bind with (pre := fun cs : list F => hint_sem F E id (length ts) qs cs) (pre2 := fun _ : unit => True) (Q := fun cs _ h a b => b = balanced alpha (combine cs ts) qs).
    { rewrite (f2_len _ _ _ HT). apply cr_hint. eapply iss_ext; eauto. }
    cbv beta. intros cs h2 qc b2 Hc X2 [Ic Eb2]. split; [exact Eb2|].
    eapply cr_ok; [apply ok_poly; [eapply iss_ext; [exact (ext_trans _ _ _ X1 X2)|exact HT]|exact Ic|eapply is_ext; [exact X2|exact Ia]]|]. cbv beta. intros h3 vt X3 H3.
    apply cr_tail; [exact H3|eapply iss_ext; [|exact HQ]; eauto using ext_trans|eapply is_ext; [|exact Ia]; eauto using ext_trans].
  Qed.
End Range.
