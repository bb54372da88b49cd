(* Model of frontend/builder.rs (Builder, RootBuilder), frontend/debug.rs (DebugBuilder) and of the default methods of frontend/api.rs.
   None is a panic (or fuel running out: a function that calls itself).
   Simplifications: a handle that does not exist is Variable::default() and using it panics, also when a function returns it
   (builder.rs only checks the latter in validate); variables of another builder (captured by a closure) are not modelled;
   the hash of a function type and of the number of arguments is a parameter. *)
From Verif Require Import Prelude Field Expr Hints Ir IrInst ApiSpec.
Open Scope nat_scope.

Section Frontend.
  Context {F : Fld}.
  Notation SI := (SrcI F).
  (* <CircuitField as Field>::FIELD_SIZE *)
  Variable fsize : nat.

  (* ------------------------------------------------------------ derived operations: sequences of calls on the same builder.
     H is the number of handles before; the result is the calls and the handles of the results among all handles after them *)
  (* builder.rs:478-482 *)
  Definition num_bits : option nat := if fsize =? 256 then Some 254 else if fsize =? 32 then Some 31 else None.
  Definition v (h : nat) : Arg F := AV h.
  (* builder.rs:495-515: bits i-1 .. 0; one, x0, y0: handles of the constant one and of the bits; H: number of handles *)
  Fixpoint gt_loop (one x0 y0 : nat) (i H result equal : nat) : list (Op (Arg F)) * nat :=
    match i with
    | 0 => ([], result)
    | S i =>
        let (ops, r) := gt_loop one x0 y0 i (H + 7) (H + 3) (H + 6) in
        ([ OBin BSub (v one) (v (y0 + i));                 (* H: not_y_bit *)
           OBin (BBool BAnd) (v (x0 + i)) (v H);           (* H + 1: x_greater_at_bit *)
           OBin (BBool BAnd) (v equal) (v (H + 1));        (* H + 2: should_set_result *)
           OBin (BBool BOr) (v result) (v (H + 2));        (* H + 3: result *)
           OBin (BBool BXor) (v (x0 + i)) (v (y0 + i));    (* H + 4: bits_different *)
           OBin BSub (v one) (v (H + 4));                  (* H + 5: bits_equal *)
           OBin (BBool BAnd) (v equal) (v (H + 5))         (* H + 6: still_equal *)
         ] ++ ops, r)
    end.
  (* builder.rs:466-518 *)
  Definition gt_ops (H : nat) (x y : Arg F) : option (list (Op (Arg F)) * nat) :=
    let* n := num_bits in
    let (ops, r) := gt_loop H (H + 3) (H + 3 + n) n (H + 5 + 2 * n) (H + 3 + 2 * n) (H + 4 + 2 * n) in
    Some ([OConst (AK f1); OConst x; OConst y; OToBin (v (H + 1)) n; OToBin (v (H + 2)) n; OConst (AK f0); OConst (AK f1)] ++ ops, r).
  (* api.rs:92-106; m: the power of two before *)
  Fixpoint from_bin_loop (xs : list (Arg F)) (H res : nat) (m : F) : list (Op (Arg F)) * nat :=
    match xs with
    | [] => ([], res)
    | x :: xs =>
        let m := fadd m m in
        let (ops, r) := from_bin_loop xs (H + 2) (H + 1) m in
        ([OBin BMul (AK m) x; OBin BAdd (v res) (v H)] ++ ops, r)
    end.
  (* xs[0] is copied here to give it a handle; Builder::constant of a variable records nothing and returns it *)
  Definition from_bin_ops (H : nat) (xs : list (Arg F)) : list (Op (Arg F)) * nat :=
    match xs with
    | [] => ([OConst (AK f0)], H)
    | x :: xs => let (ops, r) := from_bin_loop xs (H + 1) H f1 in (OConst x :: ops, r)
    end.
  (* None: not a derived operation *)
  Definition derived (debug : bool) (H : nat) (o : Op (Arg F)) : option (option (list (Op (Arg F)) * list nat)) :=
    match o with
    | OInverse x => Some (Some ([OBin (BDiv true) (AK f1) x], [H]))                                   (* api.rs:38-40 *)
    | OAssertEq x y => Some (Some ([OBin BSub x y; OAssert TZero (v H)], []))                         (* api.rs:65-72 *)
    | OAssertDiff x y => Some (Some ([OBin BSub x y; OAssert TNonZero (v H)], []))                    (* api.rs:73-80 *)
    | OFromBin xs => let (ops, r) := from_bin_ops H xs in Some (Some (ops, [r]))                      (* api.rs:92-106 *)
    | OGt x y => if debug then None else Some (let* p := gt_ops H x y in Some (fst p, [snd p]))
    | OGeq x y => if debug then None else                                                             (* builder.rs:521-530 *)
        Some (let* p := gt_ops H y x in
              match num_bits with
              | None => None
              | Some n => let H' := H + 5 + 2 * n + 7 * n in Some (fst p ++ [OConst (AK f1); OBin BSub (v H') (v (snd p))], [H' + 1])
              end)
    | OUAdd x y => if debug then None else                                                            (* builder.rs:566-574 *)
        Some (Some ([OConst x; OConst y; OBin BAdd (v H) (v (H + 1)); OIdent (v (H + 2))], [H + 3]))
    | OUMul x y => if debug then None else
        Some (Some ([OConst x; OConst y; OBin BMul (v H) (v (H + 1)); OIdent (v (H + 2))], [H + 3]))
    | _ => None
    end.

  (* ------------------------------------------------------------ Builder *)
  (* builder.rs:26-33; const_values[var_const_id[x]] with 0 for "not a constant" is bd_const[x] *)
  Record Bd := { bd_insns : list (SInsn F); bd_cons : list (ConType * nat); bd_const : list (option F); bd_n : nat }.
  (* builder.rs:107-118 *)
  Definition bd_new (n : nat) : Bd := {| bd_insns := []; bd_cons := []; bd_const := repeat None (S n); bd_n := n |}.
  Definition next (b : Bd) : nat := length (bd_const b).
  (* instructions.push and new_var, n times: builder.rs:145-150 *)
  Definition push (b : Bd) (i : SInsn F) (n : nat) : Bd * list nat :=
    ({| bd_insns := bd_insns b ++ [i]; bd_cons := bd_cons b; bd_const := bd_const b ++ repeat None n; bd_n := bd_n b |}, seq (next b) n).
  (* builder.rs:129-143 *)
  Definition convert (b : Bd) (a : Arg F) : Bd * nat :=
    match a with
    | AV x => (b, x)
    | AK c => ({| bd_insns := bd_insns b ++ [SConst (CConst c)]; bd_cons := bd_cons b; bd_const := bd_const b ++ [Some c]; bd_n := bd_n b |}, next b)
    end.
  (* builder.rs:452-462 *)
  Definition const_of (b : Bd) (a : Arg F) : option F := match a with AV x => nth x (bd_const b) None | AK c => Some c end.
  (* builder.rs:381-425 *)
  Definition assert_is (b : Bd) (t : ConType) (a : Arg F) : option Bd :=
    let ok := match const_of b a with
              | Some c => match t with TZero => is0 F c | TNonZero => negb (is0 F c) | TBool => negb (negb (is0 F c) && negb (feqb c f1)) end
              | None => true end in
    if ok then let (b, x) := convert b a in Some {| bd_insns := bd_insns b; bd_cons := bd_cons b ++ [(t, x)]; bd_const := bd_const b; bd_n := bd_n b |}
    else None.
  Definition const1 (b : Bd) (c : F) : option (Bd * list nat) := let (b, x) := convert b (AK c) in Some (b, [x]).
  Definition lin2 (x y : nat) (c : F) : SInsn F := SLin {| lc_terms := [(x, f1); (y, c)]; lc_const := f0 |}.
  Definition bin_insn (o : BinOp) (x y : nat) : SInsn F :=
    match o with
    | BAdd => lin2 x y f1 | BSub => lin2 x y (fopp f1) | BMul => SMul [x; y] | BDiv c => SDiv x y c
    | BBool op => SBool x y op | BUn op => SUnOp x y op
    end.
  (* builder.rs:154-332: both operands constant *)
  Definition bin_const (b : Bd) (o : BinOp) (x y : F) : option (Bd * list nat) :=
    match o with
    | BAdd => const1 b (fadd x y) | BSub => const1 b (fsub x y) | BMul => const1 b (fmul x y)
    | BDiv checked => if is0 F y then if checked || negb (is0 F x) then None else const1 b f0 else const1 b (fmul x (finv y))
    | BBool op =>
        let* b := assert_is b TBool (AK x) in
        let* b := assert_is b TBool (AK y) in
        const1 b (fbool (match op with BXor => negb (feqb x y) | BOr => negb (is0 F x) || negb (is0 F y) | BAnd => negb (is0 F x) && negb (is0 F y) end))
    | BUn _ => None                                          (* not called *)
    end.
  Definition folds (o : BinOp) : bool := match o with BUn _ => false | _ => true end.
  (* builder.rs:154-620 *)
  Definition bd_prim (b : Bd) (o : Op (Arg F)) : option (Bd * list nat) :=
    match o with
    | OBin o x y =>
        match const_of b x, const_of b y with
        | Some xc, Some yc => if folds o then bin_const b o xc yc
                              else let (b, x) := convert b x in let (b, y) := convert b y in Some (push b (bin_insn o x y) 1)
        | _, _ => let (b, x) := convert b x in let (b, y) := convert b y in Some (push b (bin_insn o x y) 1)
        end
    | ONeg x =>
        match const_of b x with
        | Some c => const1 b (fopp c)
        | None => let (b, x) := convert b x in Some (push b (SLin {| lc_terms := [(x, fopp f1)]; lc_const := f0 |}) 1)
        end
    | OIsZero x =>
        match const_of b x with
        | Some c => const1 b (fbool (is0 F c))
        | None => let (b, x) := convert b x in Some (push b (SIsZero x) 1)
        end
    | OToBin x n =>
        match const_of b x with
        | Some c => let* l := to_binary c n in
                    Some (fold_left (fun st c => let (b, x) := convert (fst st) (AK c) in (b, snd st ++ [x])) l (b, []))
        | None => let (b, x) := convert b x in Some (push b (SToBin x n) n)
        end
    | OAssert t x => let* b := assert_is b t x in Some (b, [])
    | ORandom => Some (push b (SConst CRandom) 1)
    | OHint h l n => let* l := omap (fun a => match a with AV x => Some x | AK _ => None end) l in Some (push b (SHint h l n) n)
    | OConst x => let (b, x) := convert b x in Some (b, [x])
    | OIdent x => let (b, x) := convert b x in Some (push b (SHint (builtin_id HIdentity) [x] 1) 1)
    | _ => None                                              (* derived *)
    end.
  (* a handle or a value as a variable of the builder or a value; an unknown handle panics *)
  Definition arg_id (hs : list nat) (a : Arg F) : option (Arg F) := match a with AV h => let* x := nth_error hs h in Some (AV x) | AK c => Some (AK c) end.
  Fixpoint bd_prims (b : Bd) (hs : list nat) (os : list (Op (Arg F))) : option (Bd * list nat) :=
    match os with
    | [] => Some (b, hs)
    | o :: os => let* o := op_map (arg_id hs) o in let* r := bd_prim b o in bd_prims (fst r) (hs ++ snd r) os
    end.
  (* one call *)
  Definition bd_op (b : Bd) (hs : list nat) (o : Op (Arg F)) : option (Bd * list nat) :=
    match derived false (length hs) o with
    | Some d => let* _ := op_map (arg_id hs) o in
                let* d := d in
                let* r := bd_prims b hs (fst d) in
                let* rs := omap (nth_error (snd r)) (snd d) in Some (fst r, rs)
    | None => let* o := op_map (arg_id hs) o in bd_prim b o
    end.

  (* ------------------------------------------------------------ RootBuilder *)
  Section Root.
    Variable fns : nat -> nat -> nat -> Prog F.
    (* the 32-byte hash of function type and number of arguments (builder.rs:695-703), its first 8 bytes (builder.rs:711) *)
    Variable hash : nat -> nat -> N.
    Variable low : N -> nat.
    (* builder.rs:623-630: sub_circuits, full_hash_id; the stack of builders is the stack of the recursion below *)
    Record St := { st_subs : list (nat * Circuit SI); st_ids : list (nat * N) }.
    (* builder.rs:120-127 *)
    Definition bd_build (b : Bd) (outs : list nat) : Circuit SI :=
      {| instructions := bd_insns b : list (Insn SI); constraints := bd_cons b : list (Con SI); outputs := outs; num_inputs := bd_n b |}.
    (* builder.rs:710-720 *)
    Definition sub_id (st : St) (h : N) : option (St * nat) :=
      match lookup (low h) (st_ids st) with
      | Some h' => if (h' =? h)%N then Some (st, low h) else None
      | None => Some ({| st_subs := st_subs st; st_ids := (low h, h) :: st_ids st |}, low h)
      end.
    Section Stmts.
      Variable rec : St -> Prog F -> nat -> option (St * Circuit SI).
      (* builder.rs:688-745, 806-818; sub_circuits.insert cannot meet an entry of the same id: its own construction would not have ended *)
      Definition call_fn (st : St) (b : Bd) (ty cap : nat) (ids : list nat) : option (St * Bd * list nat) :=
        let* p := sub_id st (hash ty (length ids)) in
        let (st, id) := p in
        let* st := match lookup id (st_subs st) with
                  | Some _ => Some st
                  | None => let* r := rec st (fns ty cap (length ids)) (length ids) in
                            match lookup id (st_subs (fst r)) with
                            | Some _ => None
                            | None => Some {| st_subs := st_subs (fst r) ++ [(id, snd r)]; st_ids := st_ids (fst r) |}
                            end
                  end in
        let* c := lookup id (st_subs st) in
        let n := length (outputs c) in
        let (b, rs) := push b (SCall id ids n) n in Some (st, b, rs).
      Fixpoint rb_stmts (st : St) (b : Bd) (hs : list nat) (ss : list (Stmt F)) : option (St * Bd * list nat) :=
        match ss with
        | [] => Some (st, b, hs)
        | SOp o :: ss => let* r := bd_op b hs o in rb_stmts st (fst r) (hs ++ snd r) ss
        | SFn ty cap l :: ss =>
            let* ids := omap (nth_error hs) l in
            let* r := call_fn st b ty cap ids in
            let '(st, b, rs) := r in rb_stmts st b (hs ++ rs) ss
        end.
    End Stmts.
    (* builder.rs:806-818: a function body with n arguments *)
    Fixpoint rb_fn (fuel : nat) (st : St) (p : Prog F) (n : nat) : option (St * Circuit SI) :=
      match fuel with
      | 0 => None
      | S fuel =>
          let* r := rb_stmts (rb_fn fuel) st (bd_new n) (seq 1 n) (p_body p) in
          let '(st, b, hs) := r in
          let* outs := omap (nth_error hs) (p_outs p) in Some (st, bd_build b outs)
      end.
    (* builder.rs:764-804, and the program with set_outputs in between *)
    Definition pub_builder (n npub : nat) : Bd :=
      {| bd_insns := map (fun i => SConst (CPub i)) (seq 0 npub); bd_cons := []; bd_const := repeat None (S (n + npub)); bd_n := n |}.
    Definition record (fuel n npub : nat) (p : Prog F) : option (RootCircuit SI) :=
      let* r := rb_stmts (rb_fn fuel) {| st_subs := []; st_ids := [] |} (pub_builder n npub) (seq 1 (n + npub)) (p_body p) in
      let '(st, b, hs) := r in
      let* outs := omap (nth_error hs) (p_outs p) in
      Some {| num_public_inputs := npub; expected_num_output_zeroes := 0;
              (* circuits.insert(0, root) replaces *)
              circuits := (0, bd_build b outs) :: filter (fun e => negb (fst e =? 0)) (st_subs st) |}.
  End Root.

  (* ------------------------------------------------------------ DebugBuilder *)
  Section Debug.
    Variable fns : nat -> nat -> nat -> Prog F.
    Variable O : Oracle F.
    (* debug.rs:26-32: the values; and the number of random draws so far *)
    Record Db := { db_vals : list F; db_k : nat }.
    (* debug.rs:516-531: convert_to_value, convert_to_id (the latter stores a value first) *)
    Definition db_val (d : Db) (a : Arg F) : option F := match a with AV x => nth_error (db_vals d) x | AK c => Some c end.
    Definition db_id (d : Db) (a : Arg F) : Db * nat :=
      match a with AV x => (d, x) | AK c => ({| db_vals := db_vals d ++ [c]; db_k := db_k d |}, length (db_vals d)) end.
    (* debug.rs:533-537 *)
    Definition db_ret (d : Db) (l : list F) : Db * list nat := ({| db_vals := db_vals d ++ l; db_k := db_k d |}, seq (length (db_vals d)) (length l)).
    (* debug.rs:539-546: eval_unsafe of an instruction that is neither a call nor a hint; values[x] panics out of range *)
    Definition db_insn (d : Db) (i : SInsn F) : option (Db * list nat) :=
      if forallb (inbb (db_vals d)) (s_inputs F i)
      then let* l := s_det F i (o_gate O) (getv (db_vals d)) in Some (db_ret d l) else None.
    Definition guard (b : bool) : option unit := if b then Some tt else None.
    (* debug.rs:35-412 *)
    Definition db_prim (d : Db) (o : Op (Arg F)) : option (Db * list nat) :=
      match o with
      | OBin BAdd x y => let* x := db_val d x in let* y := db_val d y in Some (db_ret d [fadd x y])
      | OBin BSub x y => let* x := db_val d x in let* y := db_val d y in Some (db_ret d [fsub x y])
      | OBin BMul x y => let* x := db_val d x in let* y := db_val d y in Some (db_ret d [fmul x y])
      | OBin o x y => let (d, x) := db_id d x in let (d, y) := db_id d y in db_insn d (bin_insn o x y)
      | ONeg x => let* x := db_val d x in Some (db_ret d [fopp x])
      | OIsZero x => let (d, x) := db_id d x in db_insn d (SIsZero x)
      | OToBin x n => let (d, x) := db_id d x in let* x := nth_error (db_vals d) x in let* l := to_binary x n in Some (db_ret d l)
      | OAssert t x => let* x := db_val d x in
          let* _ := guard (match t with TZero => is0 F x | TNonZero => negb (is0 F x) | TBool => is0 F x || feqb x f1 end) in Some (d, [])
      | ORandom => Some (db_ret {| db_vals := db_vals d; db_k := S (db_k d) |} [o_rnd O (db_k d)])
      | OHint h l n => let* l := omap (db_val d) l in let* outs := hint_eval F O h n l in Some (db_ret d outs)
      | OConst x => let* x := db_val d x in Some (db_ret d [x])
      | OIdent x => let* x := db_val d x in Some (db_ret d [x])
      | OGt x y => let* x := db_val d x in let* y := db_val d y in Some (db_ret d [fbool (toZ y <? toZ x)%Z])
      | OGeq x y => let* x := db_val d x in let* y := db_val d y in Some (db_ret d [fbool (toZ y <=? toZ x)%Z])
      | OUAdd x y => let* x := db_val d x in let* y := db_val d y in Some (db_ret d [fadd x y])
      | OUMul x y => let* x := db_val d x in let* y := db_val d y in Some (db_ret d [fmul x y])
      | _ => None                                            (* derived *)
      end.
    Fixpoint db_prims (d : Db) (hs : list nat) (os : list (Op (Arg F))) : option (Db * list nat) :=
      match os with
      | [] => Some (d, hs)
      | o :: os => let* o := op_map (arg_id hs) o in let* r := db_prim d o in db_prims (fst r) (hs ++ snd r) os
      end.
    Definition db_op (d : Db) (hs : list nat) (o : Op (Arg F)) : option (Db * list nat) :=
      match derived true (length hs) o with
      | Some e => let* _ := op_map (arg_id hs) o in
                  let* e := e in
                  let* r := db_prims d hs (fst e) in
                  let* rs := omap (nth_error (snd r)) (snd e) in Some (fst r, rs)
      | None => let* o := op_map (arg_id hs) o in db_prim d o
      end.
    (* debug.rs:414-457: functions are simply run *)
    Fixpoint db_stmts (rec : Db -> Prog F -> list nat -> option (Db * list nat)) (d : Db) (hs : list nat) (ss : list (Stmt F)) : option (Db * list nat) :=
      match ss with
      | [] => Some (d, hs)
      | SOp o :: ss => let* r := db_op d hs o in db_stmts rec (fst r) (hs ++ snd r) ss
      | SFn ty cap l :: ss =>
          let* ids := omap (nth_error hs) l in
          let* r := rec d (fns ty cap (length ids)) ids in db_stmts rec (fst r) (hs ++ snd r) ss
      end.
    Fixpoint db_fn (fuel : nat) (d : Db) (p : Prog F) (ids : list nat) : option (Db * list nat) :=
      match fuel with
      | 0 => None
      | S fuel =>
          let* r := db_stmts (db_fn fuel) d ids (p_body p) in
          let* outs := omap (nth_error (snd r)) (p_outs p) in Some (fst r, outs)
      end.
    (* debug.rs:489-514, 548-553 *)
    Definition debug_run (fuel npub : nat) (p : Prog F) (ins : list F) : option (list F) :=
      let n := length ins in
      let* r := db_fn fuel {| db_vals := f0 :: ins ++ map (o_pub O) (seq 0 npub); db_k := 0 |} p (seq 1 (n + npub)) in
      omap (nth_error (db_vals (fst r))) (snd r).
  End Debug.
End Frontend.
