(* Gadgets and the builder: the calls of a gadget are recorded without panicking. *)
From Verif Require Import Prelude Field Expr Hints Ir IrInst ApiSpec ApiFacts Frontend FrontProg Gadget.
Open Scope nat_scope.

Section Rec.
  Context {F : Fld}.
  (* every call satisfies P *)
  Definition gall {A} (P : Op (Arg F) -> bool) (m : G F A) : Prop := forall H ops a, m H = Some (ops, a) -> forallb P ops = true.
  Lemma gall_ret {A} P (a : A) : gall P (gret a). Proof. intros H ops x E. injection E as <- <-. auto. Qed.
  Lemma gall_panic {A} P : gall P (@gpanic F A). Proof. intros H ops x E. discriminate. Qed.
  Lemma gall_bind {A B} P (m : G F A) (f : A -> G F B) : gall P m -> (forall a, gall P (f a)) -> gall P (gbind m f).
  Proof.
    intros Hm Hf H ops b E. unfold gbind in E. destruct (m H) as [[o1 a]|] eqn:E1; [|discriminate].
    destruct (f a _) as [[o2 b']|] eqn:E2; [|discriminate]. injection E as <- <-. rewrite forallb_app, (Hm _ _ _ E1), (Hf _ _ _ _ E2). auto.
  Qed.
  Lemma gall_call1 P o : P o = true -> gall P (call1 o). Proof. intros Hp H ops x E. injection E as <- <-. cbn. rewrite Hp. auto. Qed.
  Lemma gall_calln P o : P o = true -> gall P (calln o). Proof. intros Hp H ops x E. injection E as <- <-. cbn. rewrite Hp. auto. Qed.
  Lemma gall_call0 P o : P o = true -> gall P (call0 o). Proof. intros Hp H ops x E. injection E as <- <-. cbn. rewrite Hp. auto. Qed.
  Lemma gall_gmap {A B} P (f : A -> G F B) l : (forall a, gall P (f a)) -> gall P (gmap f l).
  Proof. intros Hf. induction l as [|a l IH]; cbn [gmap]; [apply gall_ret|]. apply gall_bind; auto. intros b. apply gall_bind; auto. intros bs. apply gall_ret. Qed.
  Lemma gall_gfold {A S} P (f : S -> A -> G F S) l : (forall s a, gall P (f s a)) -> forall s, gall P (gfold f l s).
  Proof. intros Hf. induction l as [|a l IH]; intros s; cbn [gfold]; [apply gall_ret|]. apply gall_bind; auto. Qed.
  (* neither a hint nor a comparison *)
  Definition simple_op {A} (o : Op A) : bool := match o with OHint _ _ _ | OGt _ _ | OGeq _ _ => false | _ => true end.
  Lemma prog_sup fsize n m p : gall simple_op m -> gprog n m = Some p -> sup fsize p.
  Proof.
    intros Hg Hp. unfold gprog in Hp. destruct (m n) as [[ops a]|] eqn:E; cbn [obind fst snd] in Hp; [|discriminate]. injection Hp as <-. unfold sup. cbn.
    specialize (Hg _ _ _ E). clear E. induction ops as [|o ops IH]; cbn in *; constructor; apply andb_true_iff in Hg as [H1 H2]; auto. cbn. destruct o; cbn in *; auto; discriminate.
  Qed.
  (* programs: gadgets run one after the other on the same builder *)
  Lemma stmts_app fns (E : Env F) ss1 : forall ss2 hv hv' b, stmts fns E (ss1 ++ ss2) hv hv' b <-> exists h b1 b2, stmts fns E ss1 hv h b1 /\ stmts fns E ss2 h hv' b2 /\ b = b1 && b2.
  Proof.
    induction ss1 as [|s ss1 IH]; intros ss2 hv hv' b; cbn [app]; split.
    - intros H. exists hv, true, b. split; [constructor|auto].
    - intros (h & b1 & b2 & H1 & H2 & ->). inversion H1; subst. exact H2.
    - intros H. inversion H as [|o o' ss h0 outs b0 h1 b1 Ho Ha Hr|ty cap l ins ss h0 outs b0 h1 b1 Ho Ha Hr]; subst; apply IH in Hr; destruct Hr as (h & c1 & c2 & R1 & R2 & ->);
        exists h, (b0 && c1), c2; rewrite andb_assoc; split; auto; econstructor; eauto.
    - intros (h & b1 & b2 & H1 & H2 & ->). inversion H1 as [|o o' ss h0 outs b0 h1 c1 Ho Ha Hr|ty cap l ins ss h0 outs b0 h1 c1 Ho Ha Hr]; subst; rewrite <- andb_assoc; econstructor; eauto; apply IH; eauto 8.
  Qed.
End Rec.
Create HintDb gall.
#[export] Hint Resolve gall_ret gall_panic gall_bind gall_call1 gall_calln gall_call0 gall_gmap gall_gfold : gall.
