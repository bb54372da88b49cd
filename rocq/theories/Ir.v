(* Model of expander_compiler/src/circuit/ir/common/mod.rs: the generic intermediate representation. *)
From Verif Require Import Prelude Field Expr Topo.

(* layered/mod.rs:21-26 *)
Inductive Coef (F : Fld) := CConst (c : F) | CRandom | CPub (id : nat).
Arguments CConst {F}. Arguments CRandom {F}. Arguments CPub {F}.

(* layered/mod.rs:28-57 *)
Definition coef_sem {F : Fld} (E : Env F) (c : Coef F) (v : F) : Prop :=
  match c with CConst c => v = c | CRandom => e_rnd E v | CPub i => v = e_pub E i end.
(* layered/mod.rs:73-86 *)
Definition coef_validate {F : Fld} (npub : nat) (c : Coef F) : bool :=
  match c with CPub i => i <? npub | _ => true end.

(* What an actual run consults besides its inputs: as [Env], but with functions; the k-th random draw is o_rnd k.
   o_hint returns None when the hint reports an error. *)
Record Oracle (F : Fld) := {
  o_pub : nat -> F;
  o_gate : nat -> list F -> F;
  o_hint : N -> nat -> list F -> option (list F);
  o_rnd : nat -> F
}.
Arguments o_pub {F}. Arguments o_gate {F}. Arguments o_hint {F}. Arguments o_rnd {F}.
Definition env_of {F} (O : Oracle F) : Env F :=
  {| e_pub := o_pub O; e_gate := o_gate O;
     e_hint := fun h n args outs => o_hint O h n args = Some outs;
     e_rnd := fun r => exists k, r = o_rnd O k |}.
Definition coef_eval {F} (O : Oracle F) (k : nat) (c : Coef F) : F * nat :=
  match c with CConst c => (c, k) | CRandom => (o_rnd O k, S k) | CPub i => (o_pub O i, k) end.

(* common/mod.rs:27-61: the traits IrConfig, Instruction, Constraint.  i_sem / i_eval are eval_unsafe of the instructions
   other than sub-circuit calls: i_sem as a relation under an [Env] (no outcome = an error is reported),
   i_eval as a function under an [Oracle] (with the number of random draws so far). *)
Record IRC (F : Fld) := {
  Insn : Type; Con : Type;
  i_inputs : Insn -> list nat;
  i_nout : Insn -> nat;
  i_call : Insn -> option (nat * list nat * nat);
  i_mkcall : nat -> list nat -> nat -> Insn;
  i_replace : (nat -> nat) -> Insn -> Insn;
  i_kxb : nat -> F -> F -> Insn;
  i_validate : nat -> Insn -> bool;
  i_sem : Env F -> Insn -> (nat -> F) -> list F -> Prop;
  i_eval : Oracle F -> nat -> Insn -> (nat -> F) -> option (list F) * nat;
  c_var : Con -> nat;
  c_replace : (nat -> nat) -> Con -> Con;
  c_verify : Con -> F -> bool;
  dup_ins : bool; dup_cons : bool; dup_outs : bool
}.
Arguments Insn {F}. Arguments Con {F}. Arguments i_inputs {F i}. Arguments i_nout {F i}. Arguments i_call {F i}.
Arguments i_mkcall {F}. Arguments i_replace {F i}. Arguments i_kxb {F}. Arguments i_validate {F i}.
Arguments i_sem {F i}. Arguments i_eval {F i}. Arguments c_var {F i}. Arguments c_replace {F i}. Arguments c_verify {F i}.
Arguments dup_ins {F}. Arguments dup_cons {F}. Arguments dup_outs {F}.

(* Facts about the traits that every instance satisfies (proved for each instance in IrInst.v) *)
Record IRC_laws {F : Fld} (I : IRC F) : Prop := {
  l_call : forall (i : Insn I) id l n, i_call i = Some (id, l, n) -> i_inputs i = l /\ i_nout i = n;
  l_mkcall : forall id l n, i_call (i_mkcall I id l n) = Some (id, l, n);
  l_repl_inputs : forall f (i : Insn I), i_inputs (i_replace f i) = map f (i_inputs i);
  l_repl_nout : forall f (i : Insn I), i_nout (i_replace f i) = i_nout i;
  l_repl_call : forall f (i : Insn I), i_call (i_replace f i) =
    match i_call i with Some (id, l, n) => Some (id, map f l, n) | None => None end;
  l_repl_ext : forall f f' (i : Insn I), (forall x, In x (i_inputs i) -> f x = f' x) -> i_replace f i = i_replace f' i;
  l_repl_valid : forall f n (i : Insn I), i_validate n (i_replace f i) = i_validate n i;
  l_sem_len : forall E (i : Insn I) g outs, i_sem E i g outs -> length outs = i_nout i;
  l_sem_repl : forall E f (i : Insn I) g outs, i_sem E (i_replace f i) g outs <-> i_sem E i (fun x => g (f x)) outs;
  l_sem_ext : forall E (i : Insn I) g g' outs, (forall x, In x (i_inputs i) -> g x = g' x) -> i_sem E i g outs -> i_sem E i g' outs;
  l_kxb_sem : forall E x k b g outs, x <> 0 -> (i_sem E (i_kxb I x k b) g outs <-> outs = [fadd (fmul (g x) k) b]);
  l_kxb_call : forall x k b, i_call (i_kxb I x k b) = None /\ i_nout (i_kxb I x k b) = 1 /\ incl (i_inputs (i_kxb I x k b)) [x];
  l_kxb_valid : forall n x k b, i_validate n (i_kxb I x k b) = true;
  l_mkcall_valid : forall n id l m, i_validate n (i_mkcall I id l m) = true;
  l_con_repl : forall f (c : Con I), c_var (c_replace f c) = f (c_var c);
  l_con_verify : forall f (c : Con I) v, c_verify (c_replace f c) v = c_verify c v;
  l_eval_sem : forall O k (i : Insn I) g outs k', i_call i = None -> i_eval O k i g = (Some outs, k') -> i_sem (env_of O) i g outs;
  l_sem_eval : forall O r k (i : Insn I) g outs, (forall j, o_rnd O j = r) -> i_call i = None ->
    i_sem (env_of O) i g outs -> fst (i_eval O k i g) = Some outs;
  l_eval_ext : forall O k (i : Insn I) g g', (forall x, In x (i_inputs i) -> g x = g' x) -> i_eval O k i g = i_eval O k i g'
}.

Section Ir.
  Context {F : Fld} (I : IRC F).
  Open Scope fld_scope.

  (* common/mod.rs:91-97 *)
  Record Circuit := { instructions : list (Insn I); constraints : list (Con I); outputs : list nat; num_inputs : nat }.
  (* common/mod.rs:99-104; the HashMap as an association list *)
  Record RootCircuit := { num_public_inputs : nat; expected_num_output_zeroes : nat; circuits : list (nat * Circuit) }.

  (* common/mod.rs:168-174 *)
  Definition num_variables (c : Circuit) : nat :=
    fold_left (fun a i => (a + i_nout i)%nat) (instructions c) (num_inputs c).

  Fixpoint nodupb (l : list nat) : bool :=
    match l with [] => true | x :: t => negb (memb x t) && nodupb t end.

  (* common/mod.rs:111-132: the loop over instructions; returns the final cur_var_max *)
  Fixpoint validate_insns (npub : nat) (is : list (Insn I)) (cur : nat) : option nat :=
    match is with
    | [] => Some cur
    | i :: is =>
        if forallb (fun x => (x <=? cur)%nat && negb (Nat.eqb x 0)) (i_inputs i) then
          if i_validate npub i then
            if match i_call i with
               | Some (_, l, _) => dup_ins I || nodupb l
               | None => true end
            then validate_insns npub is (cur + i_nout i)
            else None
          else None
        else None
    end.
  (* common/mod.rs:111-166 *)
  Definition validate_variable_references (npub : nat) (c : Circuit) : bool :=
    match validate_insns npub (instructions c) (num_inputs c) with
    | None => false
    | Some m =>
        let ok := fun x => (x <=? m)%nat && negb (Nat.eqb x 0) in
        forallb (fun k => ok (c_var k)) (constraints c)
        && (dup_cons I || nodupb (map c_var (constraints c)))
        && forallb ok (outputs c)
        && (dup_outs I || nodupb (outputs c))
    end.

  Definition calls (c : Circuit) : list nat :=
    flat_map (fun i => match i_call i with Some (id, _, _) => [id] | None => [] end) (instructions c).
  (* common/mod.rs:180-182 *)
  Definition graph_vertices (rc : RootCircuit) : list nat := keys (circuits rc).
  (* common/mod.rs:184-194; each entry is a HashSet *)
  Definition graph_edges (rc : RootCircuit) : list (nat * list nat) :=
    flat_map (fun p => match calls (snd p) with [] => [] | l => [(fst p, nodup Nat.eq_dec l)] end) (circuits rc).

  (* common/mod.rs:208-236 *)
  Definition call_ok (rc : RootCircuit) (i : Insn I) : bool :=
    match i_call i with
    | None => true
    | Some (id, l, n) => match lookup id (circuits rc) with
                         | None => false
                         | Some c => (length l =? num_inputs c)%nat && (n =? length (outputs c))%nat
                         end
    end.
  (* common/mod.rs:244-260: circuits with constraints, or calling one, in reverse topological order *)
  Fixpoint has_constraint (rc : RootCircuit) (rorder : list nat) (acc : list nat) : list nat :=
    match rorder with
    | [] => acc
    | id :: rorder =>
        let acc := match lookup id (circuits rc) with
                   | None => acc                          (* unreachable: order lists existing circuits *)
                   | Some c => match constraints c with
                               | _ :: _ => id :: acc
                               | [] => if existsb (fun o => memb o acc) (calls c) then id :: acc else acc
                               end
                   end in
        has_constraint rc rorder acc
    end.
  (* common/mod.rs:196-273 *)
  Definition validate (rc : RootCircuit) : bool :=
    match lookup 0 (circuits rc) with
    | None => false
    | Some c0 =>
        forallb (fun p => validate_variable_references (num_public_inputs rc) (snd p)) (circuits rc)
        && forallb (fun p => forallb (call_ok rc) (instructions (snd p))) (circuits rc)
        && match topo_order_and_is_dag (graph_vertices rc) (graph_edges rc) with
           | None => false
           | Some (order, is_dag) =>
               is_dag
               && match outputs c0 with
                  | [] => memb 0 (has_constraint rc (rev order) [])
                  | _ => true
                  end
               && (expected_num_output_zeroes rc <=? length (outputs c0))%nat
           end
    end.

  (* ---------------------------------------------------------------- evaluation *)
  Definition getv (vals : list F) (x : nat) : F := nth x vals 0.
  Definition inb (vals : list F) (x : nat) : Prop := (x < length vals)%nat.

  (* common/mod.rs:313-352 as a relation: [run id ins outs cond], with any value of hints and random
     coefficients that the environment allows; a panic or an error is the absence of an outcome *)
  Inductive exec (E : Env F) (cs : list (nat * Circuit)) : list (Insn I) -> list F -> list F -> bool -> Prop :=
  | ENil vals : exec E cs [] vals vals true
  | ESem i is vals outs vals' b : i_call i = None -> Forall (inb vals) (i_inputs i) ->
      i_sem E i (getv vals) outs -> exec E cs is (vals ++ outs) vals' b -> exec E cs (i :: is) vals vals' b
  | ECall i is id l n vals outs b1 vals' b2 : i_call i = Some (id, l, n) -> Forall (inb vals) l ->
      run E cs id (map (getv vals) l) outs b1 -> exec E cs is (vals ++ outs) vals' b2 ->
      exec E cs (i :: is) vals vals' (b1 && b2)
  with run (E : Env F) (cs : list (nat * Circuit)) : nat -> list F -> list F -> bool -> Prop :=
  | Run id c ins vals b : lookup id cs = Some c -> exec E cs (instructions c) (0 :: ins) vals b ->
      Forall (fun k => inb vals (c_var k)) (constraints c) -> Forall (inb vals) (outputs c) ->
      run E cs id ins (map (getv vals) (outputs c))
          (b && forallb (fun k => c_verify k (getv vals (c_var k))) (constraints c)).
  Scheme exec_mut := Induction for exec Sort Prop with run_mut := Induction for run Sort Prop.

  (* common/mod.rs:287-300 *)
  Definition root_run (E : Env F) (rc : RootCircuit) (ins outs : list F) (cond : bool) : Prop :=
    exists c all b, lookup 0 (circuits rc) = Some c /\ length ins = num_inputs c /\
      run E (circuits rc) 0 ins all b /\ (expected_num_output_zeroes rc <= length all)%nat /\
      outs = skipn (expected_num_output_zeroes rc) all /\
      cond = b && forallb (is0 F) (firstn (expected_num_output_zeroes rc) all).

  (* ---------- the evaluator itself ---------- *)
  Inductive Res (A : Type) := Ok (a : A) | Err | Panic | OutOfFuel.
  Global Arguments Ok {A}. Global Arguments Err {A}. Global Arguments Panic {A}. Global Arguments OutOfFuel {A}.
  Definition inbb (vals : list F) (x : nat) : bool := (x <? length vals)%nat.
  (* common/mod.rs:313-352; [k] counts random draws, [fuel] bounds the call depth *)
  Fixpoint eval_insns (sub : nat -> nat -> list F -> Res (list F * bool * nat)) (O : Oracle F)
      (k : nat) (is : list (Insn I)) (vals : list F) (cond : bool) : Res (list F * bool * nat) :=
    match is with
    | [] => Ok (vals, cond, k)
    | i :: is =>
        if forallb (inbb vals) (i_inputs i) then
          match i_call i with
          | None => match i_eval O k i (getv vals) with
                    | (Some outs, k) => eval_insns sub O k is (vals ++ outs) cond
                    | (None, _) => Err
                    end
          | Some (id, l, _) => match sub k id (map (getv vals) l) with
                               | Ok (outs, b, k) => eval_insns sub O k is (vals ++ outs) (cond && b)
                               | Err => Err | Panic => Panic | OutOfFuel => OutOfFuel
                               end
          end
        else Panic
    end.
  Fixpoint eval_sub (fuel : nat) (O : Oracle F) (cs : list (nat * Circuit)) (k id : nat) (ins : list F)
      : Res (list F * bool * nat) :=
    match fuel with
    | 0%nat => OutOfFuel
    | S fuel =>
        match lookup id cs with
        | None => Panic
        | Some c =>
            match eval_insns (eval_sub fuel O cs) O k (instructions c) (0 :: ins) true with
            | Ok (vals, cond, k) =>
                if forallb (fun q => inbb vals (c_var q)) (constraints c) && forallb (inbb vals) (outputs c)
                then Ok (map (getv vals) (outputs c),
                         cond && forallb (fun q => c_verify q (getv vals (c_var q))) (constraints c), k)
                else Panic
            | Err => Err | Panic => Panic | OutOfFuel => OutOfFuel
            end
        end
    end.
  (* common/mod.rs:287-311 *)
  Definition eval_root (O : Oracle F) (rc : RootCircuit) (ins : list F) : Res (list F * bool) :=
    match lookup 0 (circuits rc) with
    | None => Panic
    | Some c =>
        if (length ins =? num_inputs c)%nat then
          match eval_sub (length (circuits rc)) O (circuits rc) 0 0 ins with
          | Ok (res, cond, _) =>
              if (expected_num_output_zeroes rc <=? length res)%nat
              then Ok (skipn (expected_num_output_zeroes rc) res,
                       cond && forallb (is0 F) (firstn (expected_num_output_zeroes rc) res))
              else Panic
          | Err => Err | Panic => Panic | OutOfFuel => OutOfFuel
          end
        else Panic
    end.
End Ir.
Arguments instructions {F I}. Arguments constraints {F I}. Arguments outputs {F I}. Arguments num_inputs {F I}.
Arguments num_public_inputs {F I}. Arguments expected_num_output_zeroes {F I}. Arguments circuits {F I}.
Arguments calls {F I}. Arguments num_variables {F I}.
