(* What the frontend API promises (frontend/api.rs), independently of how the builders do it.
   A program is a sequence of API calls.  Variables are named by the position of the call result that introduced them ("handles");
   a handle that does not exist stands for a variable the user never got from the API (Variable::default()). *)
From Verif Require Import Prelude Field Expr Hints Ir IrInst.
Open Scope nat_scope.

(* api.rs:20-57, 110-134: operations with two operands *)
Inductive BinOp := BAdd | BSub | BMul | BDiv (checked : bool) | BBool (op : BoolOp) | BUn (op : UnOp).
(* api.rs:20-134: every call but sub-circuit calls.  A: operands; hints and from_binary take variables only *)
Inductive Op (A : Type) :=
| OBin (b : BinOp) (x y : A) | ONeg (x : A) | OIsZero (x : A) | OToBin (x : A) (n : nat) | OAssert (t : ConType) (x : A)
| ORandom | OHint (h : N) (l : list A) (n : nat) | OConst (x : A) | OIdent (x : A)
| OGt (x y : A) | OGeq (x y : A) | OInverse (x : A) | OAssertEq (x y : A) | OAssertDiff (x y : A) | OFromBin (l : list A)
| OUAdd (x y : A) | OUMul (x y : A).
Arguments OBin {A}. Arguments ONeg {A}. Arguments OIsZero {A}. Arguments OToBin {A}. Arguments OAssert {A}. Arguments ORandom {A}.
Arguments OHint {A}. Arguments OConst {A}. Arguments OIdent {A}. Arguments OGt {A}. Arguments OGeq {A}. Arguments OInverse {A}.
Arguments OAssertEq {A}. Arguments OAssertDiff {A}. Arguments OFromBin {A}. Arguments OUAdd {A}. Arguments OUMul {A}.
Definition op_map {A B} (f : A -> option B) (o : Op A) : option (Op B) :=
  match o with
  | OBin b x y => let* x := f x in let* y := f y in Some (OBin b x y)
  | ONeg x => let* x := f x in Some (ONeg x)
  | OIsZero x => let* x := f x in Some (OIsZero x)
  | OToBin x n => let* x := f x in Some (OToBin x n)
  | OAssert t x => let* x := f x in Some (OAssert t x)
  | ORandom => Some ORandom
  | OHint h l n => let* l := omap f l in Some (OHint h l n)
  | OConst x => let* x := f x in Some (OConst x)
  | OIdent x => let* x := f x in Some (OIdent x)
  | OGt x y => let* x := f x in let* y := f y in Some (OGt x y)
  | OGeq x y => let* x := f x in let* y := f y in Some (OGeq x y)
  | OInverse x => let* x := f x in Some (OInverse x)
  | OAssertEq x y => let* x := f x in let* y := f y in Some (OAssertEq x y)
  | OAssertDiff x y => let* x := f x in let* y := f y in Some (OAssertDiff x y)
  | OFromBin l => let* l := omap f l in Some (OFromBin l)
  | OUAdd x y => let* x := f x in let* y := f y in Some (OUAdd x y)
  | OUMul x y => let* x := f x in let* y := f y in Some (OUMul x y)
  end.

(* builder.rs:70-104: an operand is a variable or a value *)
Inductive Arg (F : Fld) := AV (x : nat) | AK (c : F).
Arguments AV {F}. Arguments AK {F}.
(* a statement: an operation, or memorized_simple_call of a function on variables.  A Rust closure has a type and, possibly, captured
   values: [ty] and [cap] *)
Inductive Stmt (F : Fld) := SOp (o : Op (Arg F)) | SFn (ty cap : nat) (l : list nat).
Arguments SOp {F}. Arguments SFn {F}.
Record Prog (F : Fld) := { p_body : list (Stmt F); p_outs : list nat }.
Arguments p_body {F}. Arguments p_outs {F}.

Section Spec.
  Context {F : Fld}.
  Local Open Scope fld_scope.

  Definition bool_fun (op : BoolOp) (x y : bool) : bool := match op with BXor => xorb x y | BOr => x || y | BAnd => x && y end.
  (* two operands: None is an error *)
  Definition bin_fun (b : BinOp) (x y : F) : option F :=
    match b with
    | BAdd => Some (x + y) | BSub => Some (x - y) | BMul => Some (x * y)
    | BDiv checked => if is0 F y then if is0 F x && negb checked then Some 0 else None else Some (x * finv y)
    | BBool op => if boolean F x && boolean F y then Some (fbool (bool_fun op (negb (is0 F x)) (negb (is0 F y)))) else None
    | BUn op => unop_eval op x y
    end.
  Definition con_fun (t : ConType) (x : F) : bool := match t with TZero => is0 F x | TNonZero => negb (is0 F x) | TBool => boolean F x end.
  (* the results of a call and whether its assertion holds; None is an error *)
  Definition api_fun (o : Op F) : option (list F * bool) :=
    match o with
    | OBin b x y => let* v := bin_fun b x y in Some ([v], true)
    | ONeg x => Some ([fopp x], true)
    | OIsZero x => Some ([fbool (is0 F x)], true)
    | OToBin x n => if (toZ x <? 2 ^ Z.of_nat n)%Z then Some (map (fun i => fbool (Z.testbit (toZ x) (Z.of_nat i))) (seq 0 n), true) else None
    | OAssert t x => Some ([], con_fun t x)
    | OConst x => Some ([x], true)
    | OIdent x => Some ([x], true)
    | OGt x y => Some ([fbool (toZ y <? toZ x)%Z], true)
    | OGeq x y => Some ([fbool (toZ y <=? toZ x)%Z], true)
    | OInverse x => if is0 F x then None else Some ([finv x], true)
    | OAssertEq x y => Some ([], x =? y)
    | OAssertDiff x y => Some ([], negb (x =? y))
    | OFromBin l => Some ([fsum F (map (fun p => ofZ (2 ^ Z.of_nat (fst p)) * snd p) (combine (seq 0 (length l)) l))], true)
    | OUAdd x y => Some ([x + y], true)
    | OUMul x y => Some ([x * y], true)
    | ORandom | OHint _ _ _ => None
    end.
  (* with any random value and any answer to hints the environment allows *)
  Definition api_sem (E : Env F) (o : Op F) (outs : list F) (b : bool) : Prop :=
    match o with
    | ORandom => exists r, e_rnd E r /\ outs = [r] /\ b = true
    | OHint h l n => hint_sem F E h n l outs /\ b = true
    | _ => api_fun o = Some (outs, b)
    end.
  Definition arg_val (hv : list F) (a : Arg F) : option F := match a with AV h => nth_error hv h | AK c => Some c end.

  (* Running a program on values; [fns ty cap n] is the body of a function called with n arguments.
     [stmts s hv hv' b]: hv are the values of the handles before, hv' after; b: did all assertions hold *)
  Section Run.
    Variable fns : nat -> nat -> nat -> Prog F.
    Variable E : Env F.
    Inductive stmts : list (Stmt F) -> list F -> list F -> bool -> Prop :=
    | StNil hv : stmts [] hv hv true
    | StOp o o' ss hv outs b hv' b' : op_map (arg_val hv) o = Some o' -> api_sem E o' outs b -> stmts ss (hv ++ outs) hv' b' ->
        stmts (SOp o :: ss) hv hv' (b && b')
    | StFn ty cap l ins ss hv outs b hv' b' : omap (nth_error hv) l = Some ins -> prog (fns ty cap (length l)) ins outs b ->
        stmts ss (hv ++ outs) hv' b' -> stmts (SFn ty cap l :: ss) hv hv' (b && b')
    with prog : Prog F -> list F -> list F -> bool -> Prop :=
    | PRun p ins hv b outs : stmts (p_body p) ins hv b -> omap (nth_error hv) (p_outs p) = Some outs -> prog p ins outs b.
    Scheme stmts_mut := Induction for stmts Sort Prop with prog_mut := Induction for prog Sort Prop.
    (* the whole program: its handles start with the inputs and the public inputs *)
    Definition main (npub : nat) (p : Prog F) (ins outs : list F) (b : bool) : Prop := prog p (ins ++ map (e_pub E) (seq 0 npub)) outs b.
  End Run.
End Spec.
