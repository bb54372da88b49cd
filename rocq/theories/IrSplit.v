(* Model of layering/ir_split.rs: cutting sub-circuits at layer boundaries and folding constraints into random sums.
   None is a panic (or fuel running out; the fuel bounds only the nesting of sub-circuits).
   Simplifications that hold throughout:
   - the memo tables output_layers, cc_occured_layers and splitted_circuits (ir_split.rs:20-22) are left out: what they hold depends on the
     key only (splitting again finds every segment in the pool), so it is computed again; reading a key that was never computed panics in
     the code and cannot happen here;
   - the pool of new circuits is a list without the dummy entry 0 (ir_split.rs:473-478), so the id of the circuit at position k is k + 1;
   - sorting by layer and scanning layer by layer (ir_split.rs:240-268) is filtering by layer (the sort is stable);
   - reads of the per-variable tables are total (default 0) where the indices are known to be in range for valid circuits. *)
From Verif Require Import Prelude Field Sorting Expr Topo Ir IrFacts IrInst Builder Layering.
Open Scope nat_scope.

Section Split.
  Context {F : Fld}.
  Notation DI := (DestI F false).
  Variable random : bool.   (* C::ENABLE_RANDOM_COMBINATION *)

  (* ------------------------------------------------------------ derived Eq of circuits, utils/pool.rs *)
  Definition coef_eqb (a b : Coef F) : bool :=
    match a, b with CConst x, CConst y => feqb x y | CRandom, CRandom => true | CPub i, CPub j => i =? j | _, _ => false end.
  Fixpoint list_eqb {A} (eqb : A -> A -> bool) (a b : list A) : bool :=
    match a, b with [], [] => true | x :: a, y :: b => eqb x y && list_eqb eqb a b | _, _ => false end.
  Definition dinsn_eqb (a b : DInsn F) : bool :=
    match a, b with
    | DVar e, DVar e' => e_eqb e e'
    | DConst c, DConst c' => coef_eqb c c'
    | DCall id l n, DCall id' l' n' => (id =? id') && list_eqb Nat.eqb l l' && (n =? n')
    | _, _ => false
    end.
  Definition circuit_eqb (a b : Circuit DI) : bool :=
    list_eqb dinsn_eqb (instructions a) (instructions b) && list_eqb Nat.eqb (constraints a) (constraints b)
    && list_eqb Nat.eqb (outputs a) (outputs b) && (num_inputs a =? num_inputs b).
  Definition CPool := list (Circuit DI).
  (* utils/pool.rs:28-38 *)
  Fixpoint pool_find (p : CPool) (c : Circuit DI) (k : nat) : option nat :=
    match p with [] => None | d :: p => if circuit_eqb d c then Some k else pool_find p c (S k) end.
  Definition cpool_add (p : CPool) (c : Circuit DI) : nat * CPool :=
    match pool_find p c 1 with Some k => (k, p) | None => (S (length p), p ++ [c]) end.
  Definition cpool_get (p : CPool) (id : nat) : option (Circuit DI) := match id with 0 => None | S k => nth_error p k end.

  (* ------------------------------------------------------------ layers, ir_split.rs:47-94 *)
  Definition expr_layer (ml : list nat) (e : Expression F) : nat := S (maxl (map (getn ml) (e_vars F e))).
  Section OneLayers.
    Variable rec : nat -> list nat -> option (list nat * list nat).
    (* the loop over the instructions: the layers of the variables and the layers in which constraints of sub-circuits show up *)
    Fixpoint layer_insns (is : list (DInsn F)) (ml cc : list nat) : option (list nat * list nat) :=
      match is with
      | [] => Some (ml, cc)
      | DConst _ :: is => layer_insns is (ml ++ [1]) cc
      | DVar e :: is => layer_insns is (ml ++ [expr_layer ml e]) cc
      | DCall id l n :: is =>
          let* r := rec id (map (getn ml) l) in
          let* _ := guard (length (fst r) =? n) in
          layer_insns is (ml ++ fst r) (cc ++ map S (snd r))
      end.
  End OneLayers.
  (* the layers of the outputs; those of the combined constraints (as a list, duplicates and order do not matter) *)
  Fixpoint output_layers (fuel : nat) (cs : list (nat * Circuit DI)) (id : nat) (ins : list nat) : option (list nat * list nat) :=
    match fuel with
    | 0 => None
    | S fuel =>
        let* c := lookup id cs in
        let* r := layer_insns (output_layers fuel cs) (instructions c) (0 :: ins) [] in
        Some (map (getn (fst r)) (outputs c), snd r ++ map (fun x => S (getn (fst r) x)) (constraints c))
    end.

  (* ------------------------------------------------------------ ir_split.rs:26-44 *)
  Inductive SRef := RIn (i : nat) | RInt (i : nat) | RUnknown.
  Record Seg := { sg_start : nat; sg_end : nat; sg_id : nat; sg_ins : list SRef }.
  Record Spl := { sp_segs : list Seg; sp_outs : list SRef }.

  (* ------------------------------------------------------------ expand_sub_circuit_calls_phase1, ir_split.rs:96-214 *)
  (* ir_split.rs:159-163, 181-185 *)
  Definition deref (vnew inputs : list nat) (pre : nat) (r : SRef) : option nat :=
    match r with
    | RIn i => let* x := nth_error inputs i in nth_error vnew x
    | RInt i => Some (pre + i + 1)
    | RUnknown => None
    end.
  (* the state of the loop: var_new_id, new_insns, sub_combined_constraints, new_var_layers (var_max + 1 of them), sc_layers, the pool *)
  Record P1 := { p_vnew : list nat; p_insns : list (DInsn F); p_sub : list nat; p_ml : list nat; p_sc : list nat; p_pool : CPool }.
  (* ir_split.rs:152-174 *)
  Fixpoint call_segs (pool : CPool) (vnew inputs : list nat) (pre : nat) (segs : list Seg) (insns : list (DInsn F)) (ml sc : list nat)
    : option (list (DInsn F) * list nat * list nat) :=
    match segs with
    | [] => Some (insns, ml, sc)
    | s :: segs =>
        let* c := cpool_get pool (sg_id s) in
        let no := length (outputs c) in
        let ml := ml ++ repeat (sg_end s) no in
        let* ci := omap (deref vnew inputs pre) (sg_ins s) in
        let* _ := guard (forallb (fun x => getn ml x <=? sg_start s) ci) in
        call_segs pool vnew inputs pre segs (insns ++ [DCall (sg_id s) ci no]) ml (sc ++ [sg_start s])
    end.
  (* ir_split.rs:191-196 *)
  Definition deref_cc (pre : nat) (r : SRef) : option nat := match r with RInt i => Some (pre + i + 1) | _ => None end.
  Section Expand.
    Variable layers : nat -> list nat -> option (list nat * list nat).      (* output_layers *)
    Variable rec : nat -> list nat -> CPool -> option (Spl * CPool).        (* split_circuit at the present split_at *)
    Definition expand1 (i : DInsn F) (P : P1) : option P1 :=
      let nv := length (p_ml P) in
      match i with
      | DConst c => Some {| p_vnew := p_vnew P ++ [nv]; p_insns := p_insns P ++ [DConst c]; p_sub := p_sub P;
                            p_ml := p_ml P ++ [1]; p_sc := p_sc P; p_pool := p_pool P |}
      | DVar e => let e' := e_replace F (fun x => getn (p_vnew P) x) e in
                  Some {| p_vnew := p_vnew P ++ [nv]; p_insns := p_insns P ++ [DVar e']; p_sub := p_sub P;
                          p_ml := p_ml P ++ [expr_layer (p_ml P) e']; p_sc := p_sc P; p_pool := p_pool P |}
      | DCall id l n =>
          let il := map (fun x => getn (p_ml P) (getn (p_vnew P) x)) l in
          let* sp := rec id il (p_pool P) in
          let* ol := layers id il in
          let pre := nv - 1 in
          let* r := call_segs (snd sp) (p_vnew P) l pre (sp_segs (fst sp)) (p_insns P) (p_ml P) (p_sc P) in
          let '(insns, ml, sc) := r in
          let* outs := omap (deref (p_vnew P) l pre) (firstn n (sp_outs (fst sp))) in
          let* _ := guard (forallb (fun p => getn ml (fst p) =? snd p) (combine outs (fst ol))) in
          let* ccs := omap (deref_cc pre) (skipn n (sp_outs (fst sp))) in
          Some {| p_vnew := p_vnew P ++ outs; p_insns := insns; p_sub := p_sub P ++ ccs; p_ml := ml; p_sc := sc; p_pool := snd sp |}
      end.
    Definition expand (c : Circuit DI) (il : list nat) (pool : CPool) : option P1 :=
      ofold (fun P i => expand1 i P) (instructions c)
        {| p_vnew := seq 0 (S (num_inputs c)); p_insns := []; p_sub := []; p_ml := 0 :: il; p_sc := []; p_pool := pool |}.
  End Expand.

  (* ------------------------------------------------------------ the random sums, ir_split.rs:238-289 *)
  Definition comb_terms (root : bool) (ml0 sub cns add : list nat) (i : nat) : list (Term F) :=
    map (fun x => t_linear F f1 x) (filter (fun x => getn ml0 x =? i) sub ++ (if root then rev add else []))
    ++ map (t_random F) (filter (fun x => getn ml0 x =? i) cns).
  (* ir_split.rs:270-279 *)
  Definition comb_again (lst : option (nat * list (Term F))) (ts : list (Term F)) : list (Term F) :=
    match ts, lst with
    | [t], Some (x, old) => if feqb (coef t) f1 && vs_eqb (vars t) (VLinear x) then old else ts
    | _, _ => ts
    end.
  (* from layer i on, n layers; returns the instructions, the layers and add_outputs *)
  Fixpoint comb (root : bool) (ml0 sub cns : list nat) (n i : nat) (insns : list (DInsn F)) (ml add : list nat) (lst : option (nat * list (Term F)))
    : list (DInsn F) * list nat * list nat :=
    match n with
    | 0 => (insns, ml, add)
    | S n =>
        match comb_terms root ml0 sub cns add i with
        | [] => comb root ml0 sub cns n (S i) insns ml (if root then [] else add) lst
        | ts => let ts := comb_again lst ts in
                comb root ml0 sub cns n (S i) (insns ++ [DVar (from_terms F ts)]) (ml ++ [S i])
                  ((if root then [] else add) ++ [length ml]) (Some (length ml, ts))
        end
    end.

  (* ------------------------------------------------------------ cutting into segments, ir_split.rs:298-461 *)
  (* ir_split.rs:306-326 *)
  Definition raise (mx : list nat) (xs : list nat) (l : nat) : list nat := fold_left (fun mx x => upd mx x (Nat.max (getn mx x) l)) xs mx.
  Fixpoint max_layers (is : list (DInsn F)) (ml : list nat) (cur : nat) (sc mx : list nat) : option (list nat) :=
    match is with
    | [] => match sc with [] => Some mx | _ => None end
    | DConst _ :: is => max_layers is ml (S cur) sc mx
    | DVar e :: is => max_layers is ml (S cur) sc (raise mx (e_vars F e) (getn ml (S cur) - 1))
    | DCall _ l n :: is => match sc with s :: sc => max_layers is ml (cur + n) sc (raise mx l s) | [] => None end
    end.
  (* the loop over instructions for one segment, ir_split.rs:362-421; cur is cur_var_max, loc is var_local_id, lmax is local_var_max *)
  Definition in_seg (start stop l : nat) : bool := (start <? l) && (l <=? stop).
  Definition all_local (loc : list nat) (xs : list nat) : bool := forallb (fun x => negb (getn loc x =? 0)) xs.
  Fixpoint seg_insns (ml : list nat) (start stop : nat) (is : list (DInsn F)) (cur lmax : nat) (loc : list nat) : option (list (DInsn F) * list nat) :=
    match is with
    | [] => Some ([], loc)
    | DConst c :: is =>
        if start =? 0 then
          let* r := seg_insns ml start stop is (S cur) (S lmax) (upd loc (S cur) (S lmax)) in
          Some (DConst c :: fst r, snd r)
        else seg_insns ml start stop is (S cur) lmax loc
    | DVar e :: is =>
        if in_seg start stop (getn ml (S cur)) then
          let* _ := guard (all_local loc (e_vars F e)) in
          let* r := seg_insns ml start stop is (S cur) (S lmax) (upd loc (S cur) (S lmax)) in
          Some (DVar (e_replace F (getn loc) e) :: fst r, snd r)
        else seg_insns ml start stop is (S cur) lmax loc
    | DCall id l n :: is =>
        if (0 <? n) && in_seg start stop (getn ml (S cur)) then
          let* _ := guard (all_local loc l) in
          let* r := seg_insns ml start stop is (cur + n) (lmax + n)
                      (fold_left (fun loc k => upd loc (S cur + k) (S lmax + k)) (seq 0 n) loc) in
          Some (DCall id (map (getn loc) l) n :: fst r, snd r)
        else seg_insns ml start stop is (cur + n) lmax loc
    end.
  (* ir_split.rs:345-361: the inputs of a segment, as variables of the circuit *)
  Definition seg_inputs (ninputs nv start : nat) (ml mx : list nat) : list nat :=
    filter (fun j => getn ml j =? start) (seq 1 ninputs)
    ++ filter (fun j => ((getn ml j <? start) || ((getn ml j =? start) && (ninputs <? j))) && (start <=? getn mx j)) (seq 1 (nv - 2)).
  (* ir_split.rs:346-361: later writes to a slot win *)
  Definition set_locals (nv : nat) (js : list nat) : list nat :=
    fold_left (fun loc p => upd loc (fst p) (snd p)) (combine js (seq 1 (length js))) (repeat 0 nv).
  (* var_new_id, is_output, fin_outputs, internal_count *)
  Record SegSt := { g_new : list SRef; g_isout : list bool; g_fin : list (option SRef); g_count : nat }.
  Definition upd_ref (l : list SRef) (j : nat) (r : SRef) : list SRef := upd l j r.
  (* ir_split.rs:422-435 *)
  Definition seg_out1 (ml mx loc : list nat) (stop : nat) (st : list nat * SegSt) (j : nat) : list nat * SegSt :=
    let '(outs, G) := st in
    let o := nth j (g_isout G) false in
    if (o || ((getn ml j <=? stop) && (stop <=? getn mx j))) && negb (getn loc j =? 0) then
      (outs ++ [getn loc j],
       {| g_new := upd_ref (g_new G) j (RInt (g_count G));
          g_isout := if o then upd (g_isout G) j false else g_isout G;
          g_fin := if o then upd (g_fin G) j (Some (RInt (g_count G))) else g_fin G;
          g_count := S (g_count G) |})
    else st.
  (* one segment, ir_split.rs:343-449; nv is cur_var_max + 1 *)
  Definition seg1 (ninputs nv : nat) (is : list (DInsn F)) (ml mx : list nat) (start stop : nat) (G : SegSt) (pool : CPool) : option (Seg * SegSt * CPool) :=
    let js := seg_inputs ninputs nv start ml mx in
    let refs := map (fun j => if (getn ml j =? start) && (j <=? ninputs) then RIn (j - 1) else nth j (g_new G) RUnknown) js in
    let* r := seg_insns ml start stop is ninputs (length js) (set_locals nv js) in
    let '(outs, G) := fold_left (seg_out1 ml mx (snd r) stop) (seq 1 (nv - 1)) ([], G) in
    let '(id, pool) := cpool_add pool {| num_inputs := length js; instructions := fst r : list (Insn DI); constraints := []; outputs := outs |} in
    Some ({| sg_start := start; sg_end := stop; sg_id := id; sg_ins := refs |}, G, pool).
  Fixpoint segments (ninputs nv : nat) (is : list (DInsn F)) (ml mx at_ : list nat) (G : SegSt) (pool : CPool) : option (list Seg * SegSt * CPool) :=
    match at_ with
    | start :: ((stop :: _) as rest) =>
        let* r := seg1 ninputs nv is ml mx start stop G pool in
        let '(s, G, pool) := r in
        let* r := segments ninputs nv is ml mx rest G pool in
        let '(ss, G, pool) := r in
        Some (s :: ss, G, pool)
    | _ => Some ([], G, pool)
    end.
  (* ir_split.rs:298-304, 306-461: a circuit whose constraints have been dealt with, with outputs outs *)
  Definition cut (ninputs : nat) (is : list (DInsn F)) (outs ml sc at_ : list nat) (pool : CPool) : option (Spl * CPool) :=
    let* _ := guard (forallb (fun l => memb l at_) (firstn (S ninputs) ml)) in
    let* _ := guard (forallb (fun o => memb (getn ml o) at_) outs) in
    let* h := hd_error at_ in
    let* _ := guard (h =? 0) in
    let* mx := max_layers is ml ninputs sc ml in
    let nv := S (ninputs + nouts DI is) in
    let G := {| g_new := RUnknown :: map RIn (seq 0 ninputs) ++ repeat RUnknown (nv - 1 - ninputs);
                g_isout := map (fun j => memb j outs && negb ((1 <=? j) && (j <=? ninputs))) (seq 0 nv);
                g_fin := None :: map (fun i => Some (RIn i)) (seq 0 ninputs) ++ repeat None (nv - 1 - ninputs);
                g_count := 0 |} in
    let* r := segments ninputs nv is ml mx at_ G pool in
    let '(ss, G, pool) := r in
    let* fo := omap (fun x => nth x (g_fin G) None) outs in
    Some ({| sp_segs := ss; sp_outs := fo |}, pool).

  (* ------------------------------------------------------------ split_circuit, ir_split.rs:216-296 *)
  Definition sort_layers (l : list nat) : list nat := isort Nat.leb (nodup Nat.eq_dec l).
  (* ir_split.rs:216-289: the expanded circuit (without outputs), its outputs, add_outputs, layers, sc_layers, split_at, pool *)
  Section One.
    Variable layers : nat -> list nat -> option (list nat * list nat).
    Variable rec : list nat -> nat -> list nat -> CPool -> option (Spl * CPool).
    Definition expanded (cs : list (nat * Circuit DI)) (id : nat) (il at0 : list nat) (pool : CPool)
      : option (Circuit DI * list nat * list nat * list nat * list nat * CPool) :=
      let* ol := layers id il in
      let at_ := sort_layers (at0 ++ il ++ fst ol ++ snd ol) in
      let* c := lookup id cs in
      let* P := expand layers (rec at_) c il pool in
      let* cns := omap (nth_error (p_vnew P)) (constraints c) in
      let* outs := omap (nth_error (p_vnew P)) (outputs c) in
      let '(insns, ml, add) :=
        if random then comb (id =? 0) (p_ml P) (p_sub P) cns (maxl (p_ml P) + 10) 0 (p_insns P) (p_ml P) [] None
        else (p_insns P, p_ml P, []) in
      Some ({| num_inputs := num_inputs c; instructions := insns : list (Insn DI); constraints := if random then [] else cns; outputs := outs |},
            add, ml, p_sc P, at_, p_pool P).
  End One.
  (* ir_split.rs:216-461 for a circuit other than the root (the root is not inserted into splitted_circuits, ir_split.rs:290-296, so a call of
     it panics) *)
  Fixpoint split_circuit (fuel : nat) (cs : list (nat * Circuit DI)) (at0 : list nat) (id : nat) (il : list nat) (pool : CPool) : option (Spl * CPool) :=
    match fuel with
    | 0 => None
    | S fuel =>
        let* _ := guard (negb (id =? 0)) in
        let* r := expanded (output_layers (S fuel) cs) (split_circuit fuel cs) cs id il at0 pool in
        let '(c, add, ml, sc, at_, pool) := r in
        cut (num_inputs c) (instructions c) (outputs c ++ add) ml sc at_ pool
    end.
  (* ir_split.rs:464-493 *)
  Definition split_to_single_layer (rc : RootCircuit DI) : option (RootCircuit DI) :=
    let fuel := S (length (circuits rc)) in
    let* c0 := lookup 0 (circuits rc) in
    let* r := expanded (output_layers fuel (circuits rc)) (split_circuit fuel (circuits rc)) (circuits rc) 0 (repeat 0 (num_inputs c0)) [0] [] in
    let '(c, add, ml, sc, at_, pool) := r in
    let* _ := guard (length (constraints c) =? 0) in
    let root := {| num_inputs := num_inputs c; instructions := instructions c; constraints := []; outputs := add ++ outputs c |} in
    Some {| num_public_inputs := num_public_inputs rc;
            expected_num_output_zeroes := expected_num_output_zeroes rc + (if random then 1 else 0);
            circuits := (0, root) :: combine (seq 1 (length pool)) pool |}.
End Split.
