(* Model of expander_compiler/src/builder/basic.rs, as used by builder/hint_normalize.rs (IrcOut = hint_normalized).
   None = a panic (failed assertion, unwrap of None, index out of bounds). *)
From Verif Require Import Prelude Field Sorting Expr Topo Containers Hints Ir IrFacts IrInst Sim.

Section Model.
  Context {F : Fld}.
  Open Scope fld_scope.
  Notation Expr := (list (Term F)).
  Notation tm c v := {| coef := c; vars := v |}.

  (* derived Eq of Term and Expression (expr.rs:12, 207) *)
  Definition term_eqb (a b : Term F) : bool := (coef a =? coef b) && vs_eqb (vars a) (vars b).
  Fixpoint e_eqb (a b : Expr) : bool :=
    match a, b with
    | [], [] => true
    | x :: a, y :: b => term_eqb x y && e_eqb a b
    | _, _ => false
    end.
  (* derived Ord of Expression (expr.rs:207): lexicographic; the field's own order is taken to be that of the canonical
     representatives, as in term_leb *)
  Fixpoint e_leb (a b : Expr) : bool :=
    match a, b with
    | [], _ => true
    | _ :: _, [] => false
    | x :: a, y :: b => if term_eqb x y then e_leb a b else term_leb F x y
    end.
  (* HashMap<Expression, _> as an association list: get, insert, entry().or_insert() *)
  Fixpoint eget {A} (k : Expr) (m : list (Expr * A)) : option A :=
    match m with [] => None | (k', v) :: m => if e_eqb k' k then Some v else eget k m end.
  Fixpoint eput {A} (k : Expr) (v : A) (m : list (Expr * A)) : list (Expr * A) :=
    match m with [] => [(k, v)] | (k', v') :: m => if e_eqb k' k then (k', v) :: m else (k', v') :: eput k v m end.
  Definition eput_new {A} (k : Expr) (v : A) (m : list (Expr * A)) : list (Expr * A) :=
    match eget k m with Some _ => m | None => m ++ [(k, v)] end.

  Definition padd (p : Pool Expr) (e : Expr) : nat * Pool Expr := pool_add Expr e_eqb p e.
  Definition plen (p : Pool Expr) : nat := length (pvec Expr p).

  Definition scale (c : F) (e : Expr) : Expr := map (fun t : Term F => tm (coef t * c) (vars t)) e.
  Definition is_const_term (t : Term F) : bool := match vars t with VConst => true | _ => false end.
  (* basic.rs:423-444 *)
  Definition strip_constants (e : Expr) : option (Expr * F * F) :=
    let cst := fold_left (fun a t => if is_const_term t then coef t else a) e (0 : F) in
    match filter (fun t => negb (is_const_term t)) e with
    | [] => Some ([t_default F], 0, cst)
    | t :: l => if is0 F (coef t) then None
                else let* e' := from_terms_sorted F (scale (finv (coef t)) (t :: l)) in Some (e', coef t, cst)
    end.
  (* basic.rs:446-457 *)
  Definition unstrip_constants_single (vid : nat) (c k : F) : option Expr :=
    if Nat.eqb vid 0 then None
    else Some (from_terms F (t_linear F c vid :: if is0 F k then [] else [t_const F k])).
  (* basic.rs:380-387 *)
  Definition to_single (p : Pool Expr) (e : Expr) : option (Pool Expr * Expr) :=
    let* s := strip_constants e in
    let '(e', c, k) := s in
    let* d := e_degree F e' in
    if Nat.eqb (length e') 1 && (d <=? 1)%nat then Some (p, e)
    else let '(idx, p') := padd p e' in
         let* r := unstrip_constants_single idx c k in Some (p', r).
  (* basic.rs:389-399 *)
  Definition to_single_stripped (p : Pool Expr) (e : Expr) : option (Pool Expr * (nat * F * F)) :=
    let* s := strip_constants e in
    let '(e', c, k) := s in
    let* d := e_degree F e' in
    if Nat.eqb d 0 then Some (p, (0%nat, c, k))
    else let '(idx, p') := padd p e' in Some (p', (idx, c, k)).
  (* basic.rs:401-410 *)
  Definition to_really_single (p : Pool Expr) (e : Expr) : option (Pool Expr * Expr) :=
    let* d := e_degree F e in
    if Nat.eqb (length e) 1 && Nat.eqb d 1 && (coef (hd (t_default F) e) =? 1) then Some (p, e)
    else let '(idx, p') := padd p e in
         let* r := from_terms_sorted F [t_linear F 1 idx] in Some (p', r).

  (* basic.rs:459-460 *)
  Definition COMPRESS_THRESHOLD_ADD : nat := 10.
  Definition COMPRESS_THRESHOLD_MUL : nat := 40.

  (* basic.rs:473-495: the operands whose coefficient is not zero, long ones compressed, each multiplied by its coefficient
     (basic.rs:513).  An empty operand would panic at v[0] *)
  Fixpoint lc_operands (p : Pool Expr) (l : list (Expr * F)) : option (Pool Expr * list (Term F)) :=
    match l with
    | [] => Some (p, [])
    | (e, c) :: l =>
        if is0 F c then lc_operands p l
        else match e with
             | [] => None
             | _ =>
                 let* r := if (COMPRESS_THRESHOLD_ADD <? length e)%nat then to_single p e else Some (p, e) in
                 let* r2 := lc_operands (fst r) l in
                 Some (fst r2, scale c (snd r) ++ snd r2)
             end
    end.
  Definition vars_leb (a b : Term F) : bool := match vs_cmp (vars a) (vars b) with Gt => false | _ => true end.
  (* basic.rs:496-526: the terms come out of the heap in non-decreasing order of their vars.  Simplification: the heap merge of
     the (sorted) operands is a sort here; the order of terms with equal vars, which the heap leaves open, is that of the
     operands (such terms are added up).  [res] is the result so far, last term first *)
  Fixpoint lc_merge (res ts : list (Term F)) : list (Term F) :=
    match ts with
    | [] => res
    | t :: ts =>
        if is0 F (coef t) then lc_merge res ts
        else match res with
             | r :: res' =>
                 if vs_eqb (vars r) (vars t)
                 then if is0 F (coef r + coef t) then lc_merge res' ts else lc_merge (tm (coef r + coef t) (vars r) :: res') ts
                 else lc_merge (t :: res) ts
             | [] => lc_merge [t] ts
             end
    end.
  (* basic.rs:462-532 *)
  Definition lin_comb_inner (p : Pool Expr) (l : list (Expr * F)) : option (Pool Expr * Expr) :=
    match l with
    | [] => Some (p, [t_default F])
    | [(e, c)] => let* r := mul_constant F e c in Some (p, r)
    | _ =>
        let* r := lc_operands p l in
        match lc_merge [] (isort vars_leb (snd r)) with
        | [] => Some (fst r, [t_default F])
        | res => let* e := from_terms_sorted F (rev res) in Some (fst r, e)
        end
    end.
  (* basic.rs:534-587 *)
  Definition mul_two_expr (p : Pool Expr) (a b : Expr) : option (Pool Expr * Expr) :=
    let* a_deg := e_degree F a in
    let* b_deg := e_degree F b in
    if Nat.eqb a_deg 0 then
      let* c := constant_value F a in let* r := mul_constant F b c in Some (p, r)
    else if Nat.eqb b_deg 0 then
      let* c := constant_value F b in let* r := mul_constant F a c in Some (p, r)
    else
      let* r1 := if Nat.eqb a_deg 2 then to_single p a else Some (p, a) in
      let* r2 := if Nat.eqb b_deg 2 then to_single (fst r1) b else Some (fst r1, b) in
      let p := fst r2 in
      let '(v1, v2) := if (length (snd r2) <? length (snd r1))%nat then (snd r2, snd r1) else (snd r1, snd r2) in
      let* r3 :=
        if (COMPRESS_THRESHOLD_MUL <? length v1)%nat then
          let* s1 := to_single p v1 in let* s2 := to_single (fst s1) v2 in Some (fst s2, (snd s1, snd s2))
        else if (COMPRESS_THRESHOLD_MUL <? length v1 * length v2)%nat then
          let* s2 := to_single p v2 in Some (fst s2, (v1, snd s2))
        else Some (p, (v1, v2)) in
      let '(p, (v1, v2)) := r3 in
      let* prods := omap (fun x1 => let* ts := omap (fun x2 => t_mul F x1 x2) v2 in Some (from_terms F ts, 1 : F)) v1 in
      lin_comb_inner p prods.

  (* basic.rs:72-76 *)
  Inductive Status := Marked | Asserted.
  (* basic.rs:34-63 (in_circuit, in_circuit_id are arguments of the functions that use them).  For hint_normalize the constraint
     type is (), so `constraints` is a single map.  [b_log] has no counterpart in the code and is read by no function of the
     model: the calls of assert (true) and mark (false) so far, in order, each with the number of source
     variables translated before (which tells the source instruction it belongs to) *)
  Record Builder := {
    b_cons : list (Expr * Status);
    b_exprs : list Expr;
    b_pool : Pool Expr;
    b_m2o : list (option (nat * F * F));
    b_e2o : list (Expr * nat);
    b_i2o : list nat;
    b_insns : list (HInsn F);
    b_log : list (nat * bool * nat)
  }.
  Definition set_pool (B : Builder) p := {| b_cons := b_cons B; b_exprs := b_exprs B; b_pool := p; b_m2o := b_m2o B;
    b_e2o := b_e2o B; b_i2o := b_i2o B; b_insns := b_insns B; b_log := b_log B |}.
  Definition set_exprs (B : Builder) l := {| b_cons := b_cons B; b_exprs := l; b_pool := b_pool B; b_m2o := b_m2o B;
    b_e2o := b_e2o B; b_i2o := b_i2o B; b_insns := b_insns B; b_log := b_log B |}.
  Definition set_i2o (B : Builder) l := {| b_cons := b_cons B; b_exprs := b_exprs B; b_pool := b_pool B; b_m2o := b_m2o B;
    b_e2o := b_e2o B; b_i2o := l; b_insns := b_insns B; b_log := b_log B |}.
  Definition set_insns (B : Builder) l := {| b_cons := b_cons B; b_exprs := b_exprs B; b_pool := b_pool B; b_m2o := b_m2o B;
    b_e2o := b_e2o B; b_i2o := b_i2o B; b_insns := l; b_log := b_log B |}.
  Definition set_fix (B : Builder) p m e := {| b_cons := b_cons B; b_exprs := b_exprs B; b_pool := p; b_m2o := m;
    b_e2o := e; b_i2o := b_i2o B; b_insns := b_insns B; b_log := b_log B |}.
  Definition set_cons (B : Builder) c g := {| b_cons := c; b_exprs := b_exprs B; b_pool := b_pool B; b_m2o := b_m2o B;
    b_e2o := b_e2o B; b_i2o := b_i2o B; b_insns := b_insns B; b_log := g |}.

  (* basic.rs:136-151 *)
  Definition b_new : Builder :=
    {| b_cons := []; b_exprs := [[t_default F]]; b_pool := snd (padd (pool_new Expr) []); b_m2o := [None]; b_e2o := [];
       b_i2o := [0%nat]; b_insns := []; b_log := [] |}.
  (* basic.rs:153-155 *)
  Definition const_of (B : Builder) (x : nat) : option F := let* e := nth_error (b_exprs B) x in constant_value F e.
  (* basic.rs:157-165 *)
  Definition new_var (p : Pool Expr) : option (Pool Expr * nat) :=
    let id := plen p in
    let '(i, p') := padd p (e_linear F 1 id) in
    if Nat.eqb i id then Some (p', id) else None.

  (* *self.out_insns.last_mut().unwrap() = i *)
  Definition set_last (l : list (HInsn F)) (i : HInsn F) : option (list (HInsn F)) :=
    match l with [] => None | _ => Some (removelast l ++ [i]) end.
  (* basic.rs:255-290; one round of the loop for the variable [id].  The second component: the function returned *)
  Definition fix_one (n : nat) (B : Builder) (id : nat) : option (Builder * bool) :=
    let* e := nth_error (b_exprs B) id in
    let e2o := eput e id (b_e2o B) in
    let* r := to_single_stripped (b_pool B) e in
    let '(p, (eid, c, k)) := r in
    let m2o := b_m2o B ++ repeat None (plen p - length (b_m2o B)) in
    if Nat.eqb eid 0 then
      if Nat.eqb n 1 && is0 F c then
        let* l := set_last (b_insns B) (i_kxb (HnI F) 0 0 k) in Some (set_fix (set_insns B l) p m2o e2o, true)
      else None
    else
      let* o := nth_error m2o eid in
      match o with
      | Some (x, ok, ob) =>
          if Nat.eqb n 1 then
            let* l := set_last (b_insns B) (i_kxb (HnI F) x (ok * c) (ob * c + k)) in Some (set_fix (set_insns B l) p m2o e2o, false)
          else None
      | None =>
          if is0 F c then None
          else Some (set_fix B p (upd m2o eid (Some (id, finv c, - finv c * k))) e2o, false)
      end.
  Fixpoint fix_loop (n : nat) (B : Builder) (is : list nat) : option Builder :=
    match is with
    | [] => Some B
    | i :: is => let* id := (if (i <=? length (b_exprs B))%nat then Some (length (b_exprs B) - i)%nat else None) in
                 let* r := fix_one n B id in
                 if snd r then Some (fst r) else fix_loop n (fst r) is
    end.
  Definition fix_mid_to_out (n : nat) (B : Builder) : option Builder := fix_loop n B (seq 1 n).

  (* basic.rs:167-175 *)
  Fixpoint out_vars_loop (n : nat) (p : Pool Expr) (es : list Expr) : option (Pool Expr * list Expr) :=
    match n with
    | 0%nat => Some (p, es)
    | S n => let* r := new_var p in out_vars_loop n (fst r) (es ++ [e_linear F 1 (snd r)])
    end.
  Definition add_out_vars (B : Builder) (n : nat) : option Builder :=
    let* r := out_vars_loop n (b_pool B) (b_exprs B) in
    fix_mid_to_out n (set_exprs (set_pool B (fst r)) (snd r)).
  (* basic.rs:177-200 *)
  Definition add_lin_comb (B : Builder) (l : LinComb F) : option Builder :=
    let* ops := omap (fun t : nat * F => let* e := nth_error (b_exprs B) (fst t) in Some (e, snd t)) (lc_terms l) in
    let ops := ops ++ (if is0 F (lc_const l) then [] else [(e_const F (lc_const l), 1)]) in
    let* r := lin_comb_inner (b_pool B) ops in
    fix_mid_to_out 1 (set_exprs (set_pool B (fst r)) (b_exprs B ++ [snd r])).
  (* basic.rs:202-215 *)
  Fixpoint mul_rest (p : Pool Expr) (cur : Expr) (es : list Expr) : option (Pool Expr * Expr) :=
    match es with [] => Some (p, cur) | e :: es => let* r := mul_two_expr p cur e in mul_rest (fst r) (snd r) es end.
  Definition add_mul_vec (B : Builder) (l : list nat) : option Builder :=
    let* es := omap (fun x => nth_error (b_exprs B) x) l in
    match isort e_leb es with
    | a :: b :: rest =>
        let* r := mul_two_expr (b_pool B) a b in
        let* r := mul_rest (fst r) (snd r) rest in
        fix_mid_to_out 1 (set_exprs (set_pool B (fst r)) (b_exprs B ++ [snd r]))
    | _ => None
    end.
  (* basic.rs:217-220 *)
  Definition add_const (B : Builder) (c : F) : option Builder :=
    fix_mid_to_out 1 (set_exprs B (b_exprs B ++ [e_const F c])).
  (* basic.rs:222-233 *)
  Definition b_assert (B : Builder) (x : nat) : option Builder :=
    let* e := nth_error (b_exprs B) x in Some (set_cons B (eput_new e Asserted (b_cons B)) (b_log B ++ [(length (b_i2o B), true, x)])).
  (* basic.rs:235-245 *)
  Definition b_mark (B : Builder) (x : nat) : option Builder :=
    let* e := nth_error (b_exprs B) x in Some (set_cons B (eput e Marked (b_cons B)) (b_log B ++ [(length (b_i2o B), false, x)])).
  (* basic.rs:292-306 *)
  Fixpoint call_inputs (B : Builder) (l : list nat) : option Builder :=
    match l with
    | [] => Some B
    | x :: l => let* e := nth_error (b_exprs B) x in
                let* r := to_really_single (b_pool B) e in call_inputs (set_pool B (fst r)) l
    end.
  Definition sub_circuit_call (B : Builder) (l : list nat) (n : nat) : option Builder :=
    let* B := call_inputs B l in add_out_vars B n.

  (* hint_normalize.rs:327-367 *)
  Definition execute_out (B : Builder) (i : HInsn F) : option Builder :=
    match i with
    | HLin l => add_lin_comb B l
    | HMul l => add_mul_vec B l
    | HHint _ _ n => add_out_vars B n
    | HConst (CConst c) => add_const B c
    | HConst _ => add_out_vars B 1
    | HCall _ l n => sub_circuit_call B l n
    | HGate _ _ => add_out_vars B 1
    end.
  (* basic.rs:314-343: push_insn_with_root, push_insn, push_insn_multi_out; the variables created are the last ones *)
  Definition push_insn (B : Builder) (i : HInsn F) : option Builder :=
    execute_out (set_insns B (b_insns B ++ [i])) i.

  (* ---------------------------------------------------------------- hint_normalize.rs *)
  (* What a transformation does to the builder: push an instruction, assert or mark a variable.  The transformations are written
     with the number [n] of variables so far: push_insn answers the index of the variable it creates, which is that number
     (basic.rs:325-326, 339-341).  W A: from n, the actions, the new n and the answer *)
  Inductive Act := APush (i : HInsn F) | AAssert (x : nat) | AMark (x : nat).
  Definition W (A : Type) := nat -> list Act * nat * A.
  Definition wret {A} (a : A) : W A := fun n => ([], n, a).
  Definition wbind {A C} (w : W A) (f : A -> W C) : W C :=
    fun n => let '(l1, n1, a) := w n in let '(l2, n2, c) := f a n1 in (l1 ++ l2, n2, c).
  Notation "'do' x <- w ; k" := (wbind w (fun x => k)) (at level 200, x name, right associativity).
  Notation "'do_' w ; k" := (wbind w (fun _ => k)) (at level 200, right associativity).
  Definition push (i : HInsn F) : W nat := fun n => ([APush i], (n + h_nout F i)%nat, n).
  Definition push_multi (i : HInsn F) : W (list nat) := fun n => ([APush i], (n + h_nout F i)%nat, seq n (h_nout F i)).
  Definition wassert (x : nat) : W unit := fun n => ([AAssert x], n, tt).
  Definition wmark (x : nat) : W unit := fun n => ([AMark x], n, tt).
  Definition hint_id (h : Builtin) : N := builtin_id h.

  (* hint_normalize.rs:29-84 *)
  Definition push_const (c : F) : W nat := push (HConst (CConst c)).
  Definition lin2 (ca : F) (a : nat) (cb : F) (b : nat) : HInsn F := HLin {| lc_terms := [(a, ca); (b, cb)]; lc_const := 0 |}.
  Definition push_add (a b : nat) : W nat := push (lin2 1 a 1 b).
  Definition push_sub (a b : nat) : W nat := push (lin2 1 a (- (1)) b).
  Definition push_mul (a b : nat) : W nat := push (HMul [a; b]).
  Definition bool_cond (a : nat) : W nat :=
    do one <- push_const 1; do a_minus_one <- push_sub a one; push_mul a a_minus_one.
  Definition assert_bool (a : nat) : W unit := do t <- bool_cond a; wassert t.
  Definition mark_bool (a : nat) : W unit := do t <- bool_cond a; wmark t.

  (* basic.rs:104-108 *)
  Inductive TRes := TInsn (i : HInsn F) | TVars (l : list nat) | TErr.

  (* hint_normalize.rs:282-292: the loop over the bits *)
  Fixpoint to_bin_loop (bits : list nat) (sum : nat) (c : F) : W nat :=
    match bits with
    | [] => wret sum
    | bit :: bits =>
        do_ assert_bool bit;
        do t <- push (HLin {| lc_terms := [(bit, c)]; lc_const := 0 |});
        do sum <- push_add sum t;
        to_bin_loop bits sum (c + c)
    end.
  (* hint_normalize.rs:88-302; cv is constant_value *)
  Definition transform (cv : nat -> option F) (i : SInsn F) : W TRes :=
    match i with
    | SLin l => wret (TInsn (HLin l))
    | SMul l => wret (TInsn (HMul l))
    | SDiv x y checked =>
        match cv y with
        | Some yv => if is0 F yv then wret TErr
                     else do y <- push_const (finv yv); wret (TInsn (HMul [x; y]))
        | None =>
            if checked then
              do one <- push_const 1;
              do inv <- push (HHint (hint_id HDiv) [one; y] 1);
              do multy <- push_mul y inv;
              do sub1 <- push_sub multy one;
              do_ wassert sub1;
              wret (TInsn (HMul [x; inv]))
            else
              do div_res <- push (HHint (hint_id HDiv) [x; y] 1);
              do multy <- push_mul y div_res;
              do subx <- push_sub multy x;
              do_ wassert subx;
              wret (TVars [div_res])
        end
    | SBool x y op =>
        do_ assert_bool x;
        do_ assert_bool y;
        do x_plus_y <- push_add x y;
        do x_times_y <- push_mul x y;
        do res <- (match op with
                   | BAnd => wret x_times_y
                   | BOr => push_sub x_plus_y x_times_y
                   | BXor => push (lin2 1 x_plus_y (- (1 + 1)) x_times_y)
                   end);
        do_ mark_bool res;
        wret (TVars [res])
    | SIsZero x =>
        match cv x with
        | Some xv => wret (TInsn (HConst (CConst (if is0 F xv then 1 else 0))))
        | None =>
            do one <- push_const 1;
            do inv <- push (HHint (hint_id HDiv) [one; x] 1);
            do prod <- push_mul x inv;
            do m <- push_sub one prod;
            do xm <- push_mul x m;
            do_ wassert xm;
            do_ mark_bool m;
            wret (TVars [m])
        end
    | SCommit _ => wret (TInsn (HConst CRandom))
    | SHint h l n => wret (TInsn (HHint h l n))
    | SConst c => wret (TInsn (HConst c))
    | SCall id l n => wret (TInsn (HCall id l n))
    | SUnOp x y op =>
        match cv x, cv y with
        | Some xv, Some yv =>
            match unop_eval op xv yv with
            | Some v => wret (TInsn (HConst (CConst v)))
            | None => wret TErr
            end
        | _, _ => wret (TInsn (HHint (hint_id (op_hint op)) [x; y] 1))
        end
    | SSelect c t e =>
        match cv c with
        | Some v => if is0 F v then wret (TVars [e]) else wret (TVars [t])
        | None => wret (TInsn (HHint (hint_id HSelect) [c; t; e] 1))
        end
    | SGate gt l => wret (TInsn (HGate gt l))
    | SToBin x n =>
        do bits <- push_multi (HHint (hint_id HToBinary) [x] n);
        do sum <- push_const 0;
        do sum <- to_bin_loop bits sum 1;
        do sum <- push (lin2 (- (1)) sum 1 x);
        do_ wassert sum;
        wret (TVars bits)
    end.
  (* hint_normalize.rs:304-325 *)
  Definition transform_con (c : ConType * nat) : W nat :=
    match fst c with
    | TZero => wret (snd c)
    | TBool => bool_cond (snd c)
    | TNonZero =>
        do one <- push_const 1;
        do inv <- push (HHint (hint_id HDiv) [one; snd c] 1);
        do multy <- push_mul (snd c) inv;
        push_sub multy one
    end.

  Definition do_act (B : Builder) (a : Act) : option Builder :=
    match a with APush i => push_insn B i | AAssert x => b_assert B x | AMark x => b_mark B x end.
  Fixpoint do_acts (B : Builder) (l : list Act) : option Builder :=
    match l with [] => Some B | a :: l => let* B := do_act B a in do_acts B l end.

  (* self.in_to_out[x]; validated circuits only use existing variables (an index out of bounds would panic) *)
  Definition i2o (B : Builder) (x : nat) : nat := nth x (b_i2o B) 0%nat.
  Definition nvars (B : Builder) : nat := length (b_exprs B).
  (* basic.rs:345-370 *)
  Definition process_insn (B : Builder) (i : SInsn F) : Res Builder :=
    if forallb (fun x => x <? length (b_i2o B))%nat (s_inputs F i) then
      let '(acts, _, r) := transform (const_of B) (s_replace F (i2o B) i) (nvars B) in
      match do_acts B acts with
      | None => Panic
      | Some B1 =>
          match r with
          | TInsn o =>
              if Nat.eqb (h_nout F o) (s_nout F i) then
                match push_insn B1 o with
                | None => Panic
                | Some B2 => Ok (set_i2o B2 (b_i2o B2 ++ seq (nvars B1) (s_nout F i)))
                end
              else Panic
          | TVars l => if Nat.eqb (length l) (s_nout F i) then Ok (set_i2o B1 (b_i2o B1 ++ l)) else Panic
          | TErr => Err
          end
      end
    else Panic.
  (* basic.rs:372-377 *)
  Definition process_con (B : Builder) (c : ConType * nat) : Res Builder :=
    if (snd c <? length (b_i2o B))%nat then
      let '(acts, _, x) := transform_con (fst c, i2o B (snd c)) (nvars B) in
      match do_acts B (acts ++ [AAssert x]) with None => Panic | Some B1 => Ok B1 end
    else Panic.
  Definition rbind {A C} (r : Res A) (f : A -> Res C) : Res C :=
    match r with Ok a => f a | Err => Err | Panic => Panic | OutOfFuel => OutOfFuel end.
  Fixpoint rfold {A} (f : Builder -> A -> Res Builder) (B : Builder) (l : list A) : Res Builder :=
    match l with [] => Ok B | a :: l => rbind (f B a) (fun B => rfold f B l) end.
  Definition of_opt {A} (o : option A) : Res A := match o with Some a => Ok a | None => Panic end.

  (* basic.rs:247-253 *)
  Definition add_input (n : nat) : option Builder :=
    let* B := add_out_vars b_new n in Some (set_i2o B (b_i2o B ++ seq 1 n)).
  (* basic.rs:615-628 *)
  Definition final_cons (B : Builder) : option (list nat) :=
    omap (fun e => eget e (b_e2o B))
      (filter (fun e => match eget e (b_cons B) with Some Asserted => true | _ => false end)
              (isort e_leb (map fst (b_cons B)))).
  (* basic.rs:607-628: the builder when all instructions and constraints are processed *)
  Definition process_body (c : Circuit (SrcI F)) : Res Builder :=
    rbind (of_opt (add_input (num_inputs c))) (fun B =>
    rbind (rfold process_insn B (instructions c)) (fun B =>
    rfold process_con B (constraints c))).
  (* basic.rs:592-640 *)
  Definition process_circuit (c : Circuit (SrcI F)) : Res (Circuit (HnI F)) :=
    rbind (process_body c) (fun B =>
    rbind (of_opt (final_cons B)) (fun cons =>
      if forallb (fun x => x <? length (b_i2o B))%nat (outputs c) then
        Ok {| instructions := b_insns B : list (Insn (HnI F)); constraints := cons : list (Con (HnI F)); outputs := map (i2o B) (outputs c); num_inputs := num_inputs c |}
      else Panic)).
  (* basic.rs:642-670; [order] is topo_order in reverse *)
  Fixpoint process_loop (cs : list (nat * Circuit (SrcI F))) (order : list nat) (acc : list (nat * Circuit (HnI F))) : Res (list (nat * Circuit (HnI F))) :=
    match order with
    | [] => Ok acc
    | id :: order =>
        match lookup id cs with
        | None => Panic
        | Some c => rbind (process_circuit c) (fun c' => process_loop cs order ((id, c') :: acc))
        end
    end.
  (* hint_normalize.rs:370-377 *)
  Definition hn_process (rc : RootCircuit (SrcI F)) : Res (RootCircuit (HnI F)) :=
    rbind (of_opt (root_order (SrcI F) rc)) (fun q =>
    rbind (process_loop (circuits rc) (rev q) []) (fun cs =>
      Ok {| num_public_inputs := num_public_inputs rc; expected_num_output_zeroes := expected_num_output_zeroes rc; circuits := cs |})).
End Model.
