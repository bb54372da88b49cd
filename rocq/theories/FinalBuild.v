(* Model of expander_compiler/src/builder/final_build_opt.rs and circuit/costs.rs.
   None and Panic = a panic (failed assertion, unwrap of None, index out of bounds).
   Simplification: an index out of bounds of mid_var_layer reads layer 0 here (the layers only steer decisions; FbFacts.v proves
   that every variable of every expression exists). *)
From Verif Require Import Prelude Field Sorting Expr Topo Containers Ir IrFacts IrInst Sim Builder.

(* circuit/config.rs:24-28, 63: the costs, which differ between configurations *)
Record Costs := { COST_VARIABLE : nat; COST_MUL : nat; COST_ADD : nat; COST_CONST : nat }.

Section Model.
  Context {F : Fld}.
  Open Scope fld_scope.
  Notation Expr := (list (Term F)).
  Notation tm c v := {| coef := c; vars := v |}.
  Variable K : Costs.

  (* costs.rs:3-36; the three degree counts d0, d1, d2 *)
  Definition cost_of_compress (d : nat * nat * nat) : nat :=
    let '(d0, d1, d2) := d in (COST_MUL K * d2 + COST_ADD K * d1 + COST_CONST K * d0 + COST_VARIABLE K)%nat.
  Definition cost_of_multiply (a0 a1 b0 b1 : nat) : nat :=
    (COST_MUL K * (a1 * b1) + COST_ADD K * (a0 * b1 + a1 * b0) + COST_CONST K * (a0 * b0))%nat.
  Definition cost_of_possible_references (d : nat * nat * nat) (ref_add ref_mul : nat) : nat :=
    let '(d0, d1, d2) := d in
    (COST_CONST K * (d0 * ref_add) + COST_ADD K * (d1 * ref_add + d0 * ref_mul)
     + COST_MUL K * (d2 * ref_add + (d1 + d2 * 2) * ref_mul))%nat.
  Definition cost_of_relay (l1 l2 : nat) : nat := ((l1 - l2) + (l2 - l1)) * (COST_VARIABLE K + COST_ADD K).

  (* expr.rs:346-358; None = panic on RandomLinear *)
  Fixpoint count_of_degrees (e : Expr) : option (nat * nat * nat) :=
    match e with
    | [] => Some (0, 0, 0)%nat
    | t :: e => let* d := count_of_degrees e in
                let '(d0, d1, d2) := d in
                match vars t with
                | VConst => Some (S d0, d1, d2)
                | VLinear _ => Some (d0, S d1, d2)
                | VQuad _ _ | VCustom _ _ => Some (d0, d1, S d2)
                | VRandom _ => None
                end
    end.

  (* final_build_opt.rs:56-60 *)
  Definition Key : Type := Expr * bool.
  Definition key_eqb (a b : Key) : bool := e_eqb (fst a) (fst b) && Bool.eqb (snd a) (snd b).
  (* final_build_opt.rs:62-67 *)
  Record MCoef := { mk : F; mkinv : F; mb : F }.
  (* final_build_opt.rs:41-48: stripped_mid_vars, mid_var_coefs, mid_var_layer *)
  Record Mid := { m_pool : Pool Key; m_coefs : list MCoef; m_layers : list nat }.
  Definition mlen (M : Mid) : nat := length (pvec Key (m_pool M)).
  Definition mcoef_default : MCoef := {| mk := 1; mkinv := 1; mb := 0 |}.
  Definition kadd (p : Pool Key) (k : Key) : nat * Pool Key := pool_add Key key_eqb p k.
  (* final_build_opt.rs:85-100 *)
  Definition m_new : Mid := {| m_pool := snd (kadd (pool_new Key) ([], false)); m_coefs := [mcoef_default]; m_layers := [0%nat] |}.
  Definition m_ext (M : Mid) (p : Pool Key) (c : MCoef) (layer : nat) : Mid :=
    {| m_pool := p; m_coefs := m_coefs M ++ [c]; m_layers := m_layers M ++ [layer] |}.
  (* final_build_opt.rs:102-114 *)
  Definition m_new_var (M : Mid) (layer : nat) : option Mid :=
    let id := mlen M in
    let '(i, p) := kadd (m_pool M) (e_linear F 1 id, false) in
    if Nat.eqb i id then Some (m_ext M p mcoef_default layer) else None.
  (* final_build_opt.rs:210-230 *)
  Definition layer_of_var (M : Mid) (v : nat) : nat := nth v (m_layers M) 0%nat.
  Definition layer_of_varspec (M : Mid) (v : VarSpec) : nat := fold_right Nat.max 0%nat (map (layer_of_var M) (vs_vars v)).
  Definition layer_of_expr (M : Mid) (e : Expr) : nat := fold_right Nat.max 0%nat (map (fun t => layer_of_varspec M (vars t)) e).

  (* final_build_opt.rs:499-521 *)
  Definition f_strip (e : Expr) : option (Expr * F * F) :=
    let cst := fold_left (fun a t => if is_const_term t then coef t else a) e (0 : F) in
    match filter (fun t => negb (is_const_term t)) e with
    | [] => Some ([t_default F], 1, cst)
    | t :: l => if is0 F (coef t) then None
                else let* e' := from_terms_sorted F (scale (finv (coef t)) (t :: l)) in Some (e', coef t, cst)
    end.
  (* final_build_opt.rs:523-541 *)
  Definition f_unstrip (vid : nat) (c k : F) (mc : MCoef) : option Expr :=
    if Nat.eqb vid 0 then None
    else let nc := mkinv mc * c in
         let nk := k - mb mc * nc in
         Some (from_terms F (t_linear F nc vid :: if is0 F nk then [] else [t_const F nk])).
  (* final_build_opt.rs:129-151 *)
  Definition make_single (M : Mid) (e : Expr) : option (Mid * Expr) :=
    let* s := f_strip e in
    let '(e', c, k) := s in
    let* d := e_degree F e' in
    if Nat.eqb (length e') 1 && (d <=? 1)%nat then Some (M, e)
    else let '(idx, p) := kadd (m_pool M) (e', false) in
         if Nat.eqb idx (length (m_coefs M)) then
           if is0 F c then None
           else Some (m_ext M p {| mk := c; mkinv := finv c; mb := k |} (S (layer_of_expr M e')), e_linear F 1 idx)
         else let* mc := nth_error (m_coefs M) idx in
              let* r := f_unstrip idx c k mc in Some (M, r).
  (* final_build_opt.rs:153-165 *)
  Definition try_make_single (M : Mid) (e : Expr) : option Expr :=
    let* s := f_strip e in
    let '(e', c, k) := s in
    let* d := e_degree F e' in
    if Nat.eqb (length e') 1 && (d <=? 1)%nat then Some e
    else match pool_try_get_idx Key key_eqb (m_pool M) (e', false) with
         | Some idx => let* mc := nth_error (m_coefs M) idx in f_unstrip idx c k mc
         | None => Some e
         end.
  (* final_build_opt.rs:167-208 *)
  Definition make_really_single (M : Mid) (e : Expr) : option (Mid * nat) :=
    let* d := e_degree F e in
    if Nat.eqb (length e) 1 && Nat.eqb d 1 && (coef (hd (t_default F) e) =? 1) then
      match vars (hd (t_default F) e) with VLinear v => Some (M, v) | _ => None end
    else
      let* s := f_strip e in
      let '(es, c, k) := s in
      let '(idx, p) := kadd (m_pool M) (es, false) in
      if Nat.eqb idx (length (m_coefs M)) then
        if is0 F c then None
        else Some (m_ext M p {| mk := c; mkinv := finv c; mb := k |} (S (layer_of_expr M e)), idx)
      else
        let* mc := nth_error (m_coefs M) idx in
        if (c =? mk mc) && (k =? mb mc) then Some (M, idx)
        else
          let* r := make_single M e in
          let M := fst r in
          let '(idx, p) := kadd (m_pool M) (snd r, true) in
          if Nat.eqb idx (length (m_coefs M)) then Some (m_ext M p mcoef_default (S (layer_of_expr M (snd r))), idx)
          else Some (M, idx).

  (* final_build_opt.rs:325-341; [last]: the layer of the previous term *)
  Fixpoint la_loop (M : Mid) (cur : list (Term F)) (last : option nat) (ts : list (Term F)) : option (Mid * Expr) :=
    match ts with
    | [] => Some (M, from_terms F cur)
    | t :: ts =>
        let layer := layer_of_varspec M (vars t) in
        let change := match last with None => false | Some l => negb (Nat.eqb l layer) end in
        let* r := if change then make_single M (from_terms F cur) else Some (M, cur) in
        la_loop (fst r) (snd r ++ [t]) (Some layer) ts
    end.
  Definition lay_leb (M : Mid) (a b : Term F) : bool :=
    let la := layer_of_varspec M (vars a) in let lb := layer_of_varspec M (vars b) in
    if Nat.eqb la lb then vars_leb a b else (la <? lb)%nat.
  (* final_build_opt.rs:307-342 *)
  Definition layered_add (M : Mid) (ts : list (Term F)) : option (Mid * Expr) :=
    match ts with
    | [] | [_] => let* e := from_terms_sorted F ts in Some (M, e)
    | t :: ts' =>
        if forallb (fun u => Nat.eqb (layer_of_varspec M (vars u)) (layer_of_varspec M (vars t))) ts'
        then let* e := from_terms_sorted F ts in Some (M, e)
        else la_loop M [] None (isort (lay_leb M) ts)
    end.
  (* final_build_opt.rs:262-303: the operands with a coefficient other than 0, each term multiplied by that coefficient.  An
     empty operand would panic.  The heap merge is a sort here, as in Builder.lin_comb_inner *)
  Fixpoint fb_terms (l : list (Expr * F)) : option (list (Term F)) :=
    match l with
    | [] => Some []
    | (e, c) :: l =>
        if is0 F c then fb_terms l
        else match e with
             | [] => None
             | _ => let* ts := fb_terms l in Some (scale c e ++ ts)
             end
    end.
  (* final_build_opt.rs:250-305 *)
  Definition f_lin_comb_inner (M : Mid) (l : list (Expr * F)) : option (Mid * Expr) :=
    match l with
    | [] => Some (M, [t_default F])
    | _ =>
        let* vs := omap (fun x => let* e := try_make_single M (fst x) in Some (e, snd x)) l in
        match vs with
        | [(e, c)] => let* r := mul_constant F e c in layered_add M r
        | _ =>
            let* ts := fb_terms vs in
            match lc_merge [] (isort vars_leb ts) with
            | [] => Some (M, [t_default F])
            | res => layered_add M (rev res)
            end
        end
    end.
  (* final_build_opt.rs:344-357 *)
  Definition mul_leb (M : Mid) (a b : Expr) : bool :=
    let la := layer_of_expr M a in let lb := layer_of_expr M b in
    if negb (Nat.eqb la lb) then (la <? lb)%nat
    else if negb (Nat.eqb (length a) (length b)) then (length a <? length b)%nat
    else e_leb a b.
  (* final_build_opt.rs:420-452: (compress_some, compress_1) *)
  Definition mul_decide (M : Mid) (e1 e2 : Expr) : option (bool * bool) :=
    let* dc1 := count_of_degrees e1 in
    let* dc2 := count_of_degrees e2 in
    let '(a0, a1, a2) := dc1 in
    let '(b0, b1, b2) := dc2 in
    if Nat.eqb a2 0 && Nat.eqb b2 0 then
      let l1 := layer_of_expr M e1 in
      let l2 := layer_of_expr M e2 in
      let direct := cost_of_multiply a0 a1 b0 b1 in
      let v1 := (cost_of_multiply 0 1 b0 b1 + cost_of_compress dc1)%nat in
      let v2 := (cost_of_multiply a0 a1 0 1 + cost_of_compress dc2)%nat in
      let both := (cost_of_multiply 0 1 0 1 + cost_of_compress dc1 + cost_of_compress dc2)%nat in
      if Nat.eqb l1 l2 then Some ((Nat.min (Nat.min v1 v2) both <? direct)%nat, (v1 <? Nat.min v2 both)%nat)
      else
        let direct := (direct + cost_of_relay l1 l2)%nat in
        let v1 := (v1 + cost_of_relay (S l1) l2)%nat in
        let v2 := (v2 + cost_of_relay l1 (S l2))%nat in
        if (v1 <? direct)%nat then Some ((2 <? length e1)%nat, true)
        else if (v2 <? direct)%nat then Some ((2 <? length e2)%nat, false)
        else Some (false, false)
    else None.
  (* final_build_opt.rs:389-466: one round of the loop of mul_vec on the two least expressions; the expressions pushed.  [rest] of
     the answer: what is pushed on the heap *)
  Definition mul_step (M : Mid) (p1 p2 : Expr) : option (Mid * list Expr) :=
    let '(e1, e2) := if (length p2 <? length p1)%nat then (p2, p1) else (p1, p2) in
    let* d1 := e_degree F e1 in
    let* d2 := e_degree F e2 in
    if Nat.eqb d1 0 then let* c := constant_value F e1 in let* r := mul_constant F e2 c in Some (M, [r])
    else if Nat.eqb d2 0 then let* c := constant_value F e2 in let* r := mul_constant F e1 c in Some (M, [r])
    else if Nat.eqb d1 2 then
      let* s2 := if Nat.eqb d2 2 then make_single M e2 else Some (M, e2) in
      let* s1 := make_single (fst s2) e1 in Some (fst s1, [snd s2; snd s1])
    else if Nat.eqb d2 2 then
      let* s2 := make_single M e2 in Some (fst s2, [e1; snd s2])
    else
      let* dec := mul_decide M e1 e2 in
      if fst dec then
        if snd dec then let* s1 := make_single M e1 in Some (fst s1, [snd s1; e2])
        else let* s2 := make_single M e2 in Some (fst s2, [e1; snd s2])
      else
        let* prods := omap (fun x1 => let* ts := omap (fun x2 => t_mul F x1 x2) e2 in Some (from_terms F ts, 1 : F)) e1 in
        let* r := f_lin_comb_inner M prods in Some (fst r, [snd r]).
  (* final_build_opt.rs:369-469.  The heap of positions is the list of the expressions, sorted in every round; the two taken are
     the least ones (utils/heap.rs; two expressions that compare equal are equal).  [fuel] bounds the number of rounds *)
  Fixpoint mul_loop (fuel : nat) (M : Mid) (es : list Expr) : Res (Mid * Expr) :=
    match fuel with
    | 0%nat => OutOfFuel
    | S fuel =>
        match isort (mul_leb M) es with
        | [] => Panic
        | [e] => Ok (M, e)
        | e1 :: e2 :: rest =>
            match mul_step M e1 e2 with
            | None => Panic
            | Some (M, l) => mul_loop fuel M (rest ++ l)
            end
        end
    end.
  Definition mul_fuel (n : nat) : nat := S n * S (S n).
  (* final_build_opt.rs:359-368 *)
  Definition f_mul_vec (M : Mid) (es : list Expr) : Res (Mid * Expr) :=
    if (2 <=? length es)%nat then
      match omap (try_make_single M) es with
      | None => Panic
      | Some es => mul_loop (mul_fuel (length es)) M es
      end
    else Panic.

  (* final_build_opt.rs:69-74: add, mul, single *)
  Definition Refs : Type := nat * nat * nat.
  Inductive Use := UAdd | UMul | USingle.
  Definition use (u : Use) (r : Refs) : Refs :=
    let '(a, m, s) := r in match u with UAdd => (S a, m, s) | UMul => (a, S m, s) | USingle => (a, m, S s) end.
  Definition f_bump (u : Use) (o : option (list Refs)) (x : nat) : option (list Refs) :=
    let* l := o in let* r := nth_error l x in Some (upd l x (use u r)).
  (* final_build_opt.rs:549-590 *)
  Definition insn_refs (o : option (list Refs)) (i : LInsn F) : option (list Refs) :=
    let* l := match i with
              | LLin lc => fold_left (f_bump UAdd) (lc_vars lc) o
              | LMul vs => fold_left (f_bump UMul) vs o
              | LConst _ => o
              | LCall _ vs _ => fold_left (f_bump USingle) vs o
              | LGate _ vs => fold_left (f_bump USingle) vs o
              end in
    Some (l ++ repeat (0, 0, 0)%nat (l_nout F i)).
  Definition ref_counts (c : Circuit (HlI F)) : option (list Refs) :=
    let o := fold_left insn_refs (instructions c) (Some (repeat (0, 0, 0)%nat (S (num_inputs c)))) in
    let o := fold_left (f_bump USingle) (outputs c) o in
    fold_left (f_bump USingle) (constraints c) o.

  (* final_build_opt.rs:34-54 *)
  Record FB := { fb_exprs : list Expr; fb_mid : Mid; fb_outs : list (nat * DInsn F) }.
  (* final_build_opt.rs:116-123 *)
  Fixpoint add_in_vars (n : nat) (layer : nat) (M : Mid) (es : list Expr) : option (Mid * list Expr) :=
    match n with
    | 0%nat => Some (M, es)
    | S n => let* M' := m_new_var M layer in add_in_vars n layer M' (es ++ [e_linear F 1 (mlen M)])
    end.
  Definition fb_add_in_vars (B : FB) (outs : list (nat * DInsn F)) (n layer : nat) : option FB :=
    let* r := add_in_vars n layer (fb_mid B) (fb_exprs B) in
    Some {| fb_exprs := snd r; fb_mid := fst r; fb_outs := outs |}.
  Definition fb_push (B : FB) (M : Mid) (e : Expr) : FB := {| fb_exprs := fb_exprs B ++ [e]; fb_mid := M; fb_outs := fb_outs B |}.
  (* final_build_opt.rs:26 *)
  Definition COMPRESS_THRESHOLD : nat := 64.
  (* final_build_opt.rs:471-496 *)
  Definition should_compress (r : Refs) (d : nat * nat * nat) : bool :=
    let '(ra, rm, rs) := r in
    let '(d0, d1, d2) := d in
    (0 <? rs)%nat || (COMPRESS_THRESHOLD <? d0 + d1 + d2)%nat
    || (cost_of_compress d + cost_of_possible_references (0, 1, 0)%nat ra rm <? cost_of_possible_references d ra rm)%nat.
  Definition add_and_check (refs : list Refs) (B : FB) (M : Mid) (e : Expr) : option FB :=
    let* r := nth_error refs (length (fb_exprs B)) in
    let* dc := count_of_degrees e in
    let* d := e_degree F e in
    if should_compress r dc && negb (Nat.eqb d 0) then let* s := make_single M e in Some (fb_push B (fst s) (snd s))
    else Some (fb_push B M e).
  (* final_build_opt.rs:636-639, 662-665, 682-686, 691-695: make_really_single of the expressions of the given variables, in order *)
  Fixpoint really_singles (M : Mid) (es : list Expr) : option (Mid * list nat) :=
    match es with
    | [] => Some (M, [])
    | e :: es => let* r := make_really_single M e in let* r2 := really_singles (fst r) es in Some (fst r2, snd r :: snd r2)
    end.
  Definition get_exprs (B : FB) (l : list nat) : option (list Expr) := omap (fun x => nth_error (fb_exprs B) x) l.
  Definition max_layer (M : Mid) (l : list nat) (d : nat) : nat :=
    match l with [] => d | _ => fold_right Nat.max 0%nat (map (layer_of_var M) l) end.
  (* final_build_opt.rs:596-673; [ol]: the output_layer of the circuits already built *)
  Definition fb_insn (ol : list (nat * nat)) (refs : list Refs) (B : FB) (i : LInsn F) : Res FB :=
    match i with
    | LLin lc =>
        of_opt (let* ops := omap (fun t : nat * F => let* e := nth_error (fb_exprs B) (fst t) in Some (e, snd t)) (lc_terms lc) in
                let ops := ops ++ (if is0 F (lc_const lc) then [] else [(e_const F (lc_const lc), 1)]) in
                let* r := f_lin_comb_inner (fb_mid B) ops in
                add_and_check refs B (fst r) (snd r))
    | LMul vs =>
        rbind (of_opt (get_exprs B vs)) (fun es =>
        rbind (f_mul_vec (fb_mid B) es) (fun r => of_opt (add_and_check refs B (fst r) (snd r))))
    | LConst (CConst c) => Ok (fb_push B (fb_mid B) (e_const F c))
    | LConst c => of_opt (fb_add_in_vars B (fb_outs B ++ [(mlen (fb_mid B), DConst c)]) 1 1)
    | LCall id vs n =>
        of_opt (let* sub := lookup id ol in
                let* es := get_exprs B vs in
                let* r := really_singles (fb_mid B) es in
                let M := fst r in
                fb_add_in_vars {| fb_exprs := fb_exprs B; fb_mid := M; fb_outs := fb_outs B |}
                  (fb_outs B ++ [(mlen M, DCall id (snd r) n)]) n (max_layer M (snd r) 1 + sub))
    | LGate gt vs =>
        of_opt (let* es := get_exprs B vs in
                let* r := really_singles (fb_mid B) es in
                add_and_check refs B (fst r) (e_custom F 1 gt (snd r)))
    end.
  Fixpoint fb_insns (ol : list (nat * nat)) (refs : list Refs) (B : FB) (is : list (LInsn F)) : Res FB :=
    match is with [] => Ok B | i :: is => rbind (fb_insn ol refs B i) (fun B => fb_insns ol refs B is) end.
  (* final_build_opt.rs:676-688; on the sorted constraints *)
  Fixpoint fb_cons (B : FB) (M : Mid) (l : list nat) : Res (Mid * list nat) :=
    match l with
    | [] => Ok (M, [])
    | x :: l =>
        match nth_error (fb_exprs B) x with
        | None => Panic
        | Some e =>
            match constant_value F e with
            | Some c => if is0 F c then fb_cons B M l else Err
            | None =>
                rbind (of_opt (make_really_single M e)) (fun r =>
                rbind (fb_cons B (fst r) l) (fun r2 => Ok (fst r2, snd r :: snd r2)))
            end
        end
    end.
  (* final_build_opt.rs:704-727: the instruction of a mid variable; None: it is made by the instruction of out_insns before it *)
  Definition mid_insn (M : Mid) (id : nat) : option (option (DInsn F)) :=
    let* key := nth_error (pvec Key (m_pool M)) id in
    let* mc := nth_error (m_coefs M) id in
    if e_eqb (fst key) (e_linear F 1 id) then Some None
    else
      let* e2 := mul_constant F (fst key) (mk mc) in
      Some (Some (DVar (if is0 F (mb mc) then e2 else from_terms F (e2 ++ [t_const F (mb mc)])))).
  Fixpoint take_at (id : nat) (outs : list (nat * DInsn F)) : list (DInsn F) * list (nat * DInsn F) :=
    match outs with
    | (k, i) :: outs' => if Nat.eqb k id then let '(a, r) := take_at id outs' in (i :: a, r) else ([], outs)
    | [] => ([], [])
    end.
  (* final_build_opt.rs:701-731 *)
  Fixpoint emit (M : Mid) (ids : list nat) (outs : list (nat * DInsn F)) : option (list (DInsn F)) :=
    match ids with
    | [] => Some (map snd outs)
    | id :: ids =>
        let '(a, outs) := take_at id outs in
        let* i := mid_insn M id in
        let* l := emit M ids outs in
        Some (a ++ (match i with None => [] | Some i => [i] end) ++ l)
    end.
  Definition emit_all (n : nat) (M : Mid) (outs : list (nat * DInsn F)) : option (list (DInsn F)) :=
    emit M (seq (S n) (mlen M - S n)) outs.
  Definition fb_new : FB := {| fb_exprs := [[t_default F]]; fb_mid := m_new; fb_outs := [] |}.
  (* final_build_opt.rs:543-744; the second component: the output layer *)
  Definition fb_circuit (ol : list (nat * nat)) (c : Circuit (HlI F)) : Res (Circuit (DestI F false) * nat) :=
    rbind (of_opt (ref_counts c)) (fun refs =>
    rbind (of_opt (fb_add_in_vars fb_new [] (num_inputs c) 0)) (fun B =>
    rbind (fb_insns ol refs B (instructions c)) (fun B =>
    rbind (fb_cons B (fb_mid B) (isort Nat.leb (constraints c))) (fun rc =>
    rbind (of_opt (get_exprs B (outputs c))) (fun es =>
    rbind (of_opt (really_singles (fst rc) es)) (fun ro =>
    rbind (of_opt (emit_all (num_inputs c) (fst ro) (fb_outs B))) (fun is =>
      Ok ({| instructions := is : list (Insn (DestI F false)); constraints := snd rc : list (Con (DestI F false));
             outputs := snd ro; num_inputs := num_inputs c |}, max_layer (fst ro) (snd ro) 0)))))))).
  (* final_build_opt.rs:746-764; [order] is topo_order in reverse *)
  Fixpoint fb_loop (cs : list (nat * Circuit (HlI F))) (order : list nat) (ol : list (nat * nat))
      (acc : list (nat * Circuit (DestI F false))) : Res (list (nat * Circuit (DestI F false))) :=
    match order with
    | [] => Ok acc
    | id :: order =>
        match lookup id cs with
        | None => Panic
        | Some c => rbind (fb_circuit ol c) (fun r => fb_loop cs order ((id, snd r) :: ol) ((id, fst r) :: acc))
        end
    end.
  Definition fb_process (rc : RootCircuit (HlI F)) : Res (RootCircuit (DestI F false)) :=
    rbind (of_opt (root_order (HlI F) rc)) (fun q =>
    rbind (fb_loop (circuits rc) (rev q) [] []) (fun cs =>
      Ok {| num_public_inputs := num_public_inputs rc; expected_num_output_zeroes := expected_num_output_zeroes rc; circuits := cs |})).
End Model.
