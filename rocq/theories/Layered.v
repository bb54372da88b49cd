(* Model of circuit/layered/mod.rs: layered circuits, their validation and evaluation. *)
From Verif Require Import Prelude Field Zp Expr Topo Ir.

(* ------------------------------------------------------------ data *)
(* layered/mod.rs:127-191: an input wire; for NormalInputType the layer is always 0 *)
Record Inp := mkInp { il : nat; io : nat }.
(* the input part of the four gate vectors, layered/mod.rs:279-361 *)
Inductive Kind := KMul (a b : Inp) | KAdd (a : Inp) | KConst | KCustom (ty : nat) (l : list Inp).
Definition k_ins (k : Kind) : list Inp := match k with KMul a b => [a; b] | KAdd a => [a] | KConst => [] | KCustom _ l => l end.
Definition k_map (f : Inp -> Inp) (k : Kind) : Kind :=
  match k with KMul a b => KMul (f a) (f b) | KAdd a => KAdd (f a) | KConst => KConst | KCustom t l => KCustom t (map f l) end.
(* layered/mod.rs:363-369; NormalInputUsize is the one-element list *)
Record Alloc := { a_in : list nat; a_out : nat }.

Section Layered.
  Context {F : Fld}.
  Open Scope nat_scope.
  (* layered/mod.rs:279-284 and 354-360; A is the type of the inputs field: a pair, one wire, nothing, or gate type and wires *)
  Record Gate (A : Type) := { g_in : A; g_out : nat; g_coef : Coef F }.
  Global Arguments g_in {A}. Global Arguments g_out {A}. Global Arguments g_coef {A}.
  Definition GMul := Gate (Inp * Inp). Definition GAdd := Gate Inp. Definition GConst := Gate unit. Definition GCustom := Gate (nat * list Inp).
  (* layered/opt.rs:185-191: UniGate *)
  Definition UG := Gate Kind.
  Definition uni {A} (k : A -> Kind) (g : Gate A) : UG := {| g_in := k (g_in g); g_out := g_out g; g_coef := g_coef g |}.
  Definition k_mul (p : Inp * Inp) := KMul (fst p) (snd p).
  Definition k_const (u : unit) := KConst.
  Definition k_custom (p : nat * list Inp) := KCustom (fst p) (snd p).

  (* layered/mod.rs:373-382 *)
  Record Segment := { s_ins : list nat; s_outs : nat; s_children : list (nat * list Alloc);
    s_muls : list GMul; s_adds : list GAdd; s_consts : list GConst; s_customs : list GCustom }.
  (* layered/mod.rs:384-391 *)
  Record LCircuit := { l_pub : nat; l_actual : nat; l_zeroes : nat; l_segs : list Segment; l_layers : list nat }.

  (* all gates of one segment, in evaluation order *)
  Definition seg_gates (s : Segment) : list UG :=
    map (uni k_mul) (s_muls s) ++ map (uni KAdd) (s_adds s) ++ map (uni k_const) (s_consts s) ++ map (uni k_custom) (s_customs s).

  (* ------------------------------------------------------------ validation *)
  (* x != 0 and x & (x - 1) = 0 *)
  Definition pow2b (x : nat) : bool := negb (x =? 0) && (Nat.land x (x - 1) =? 0).
  (* layered/mod.rs:411-477: one gate; `seg.num_inputs.get(layer)` panics when the segment has no such layer, which is
     no success either *)
  Definition gate_ok (nl : nat) (s : Segment) (g : UG) : bool :=
    forallb (fun i => (il i <? nl) && match nth_error (s_ins s) (il i) with Some n => io i <? n | None => false end) (k_ins (g_in g))
    && (g_out g <? s_outs s).
  (* layered/mod.rs:479-530 *)
  Definition zip3_ok (x y z : list nat) : bool :=
    forallb (fun p => let '((x, y), z) := p in (x mod y =? 0) && (x + y <=? z)) (combine (combine x y) z).
  Definition child_ok (segs : list Segment) (i : nat) (s : Segment) (ch : nat * list Alloc) : bool :=
    (fst ch <? i) &&
    match nth_error segs (fst ch) with
    | None => false
    | Some sub =>
        (length (s_ins sub) <=? length (s_ins s)) &&
        forallb (fun a => (length (a_in a) =? length (s_ins sub)) && zip3_ok (a_in a) (s_ins sub) (s_ins s)
                          && (a_out a mod s_outs sub =? 0) && (a_out a + s_outs sub <=? s_outs s)) (snd ch)
    end.
  Definition seg_ok (nl : nat) (segs : list Segment) (i : nat) (s : Segment) : bool :=
    forallb pow2b (s_ins s) && negb (length (s_ins s) =? 0) && pow2b (s_outs s)
    && forallb (gate_ok nl s) (seg_gates s) && forallb (child_ok segs i s) (s_children s).

  (* layered/mod.rs:607-655: compute_masks; the masks of one segment as predicates on wires *)
  Fixpoint in_mask (fuel : nat) (segs : list Segment) (id : nat) (w : Inp) : bool :=
    match fuel with
    | 0 => false
    | S fuel =>
        match nth_error segs id with
        | None => false
        | Some s =>
            existsb (fun g => existsb (fun i => (il i =? il w) && (io i =? io w)) (k_ins (g_in g))) (seg_gates s)
            || existsb (fun ch => match nth_error segs (fst ch) with
                 | None => false
                 | Some sub => existsb (fun a =>
                     match nth_error (a_in a) (il w), nth_error (s_ins sub) (il w) with
                     | Some off, Some len => (off <=? io w) && (io w <? off + len) && in_mask fuel segs (fst ch) (mkInp (il w) (io w - off))
                     | _, _ => false end) (snd ch)
                 end) (s_children s)
        end
    end.
  Fixpoint out_mask (fuel : nat) (segs : list Segment) (id : nat) (o : nat) : bool :=
    match fuel with
    | 0 => false
    | S fuel =>
        match nth_error segs id with
        | None => false
        | Some s =>
            existsb (fun g => g_out g =? o) (seg_gates s)
            || existsb (fun ch => match nth_error segs (fst ch) with
                 | None => false
                 | Some sub => existsb (fun a => (a_out a <=? o) && (o <? a_out a + s_outs sub) && out_mask fuel segs (fst ch) (o - a_out a)) (snd ch)
                 end) (s_children s)
        end
    end.
  (* layered/mod.rs:541-545: the sizes of the inputs of the layers, the latest first *)
  Definition seg_of (c : LCircuit) (id : nat) : option Segment := nth_error (l_segs c) id.
  (* layered/mod.rs:546-571; sizes holds the layer sizes so far, latest first *)
  Fixpoint sizes_ok (c : LCircuit) (ids : list nat) (sizes : list nat) : bool :=
    match ids with
    | [] => true
    | id :: ids =>
        match seg_of c id with
        | None => false
        | Some s => (length (s_ins s) <=? length sizes)
                    && forallb (fun p => fst p =? snd p) (combine (s_ins s) sizes)
                    && sizes_ok c ids (s_outs s :: sizes)
        end
    end.
  (* layered/mod.rs:572-604: every wire read is written by the layer it comes from, or is a circuit input *)
  Fixpoint masks_ok (c : LCircuit) (ids : list nat) (done : list nat) : bool :=
    match ids with
    | [] => true
    | id :: ids =>
        match seg_of c id with
        | None => false
        | Some s =>
            forallb (fun p => let '(l, len) := p in
              match nth_error done l with
              | None => true
              | Some src => forallb (fun j => negb (in_mask (length (l_segs c)) (l_segs c) id (mkInp l j)) || out_mask (length (l_segs c)) (l_segs c) src j) (seq 0 len)
              end) (combine (seq 0 (length (s_ins s))) (s_ins s))
            && masks_ok c ids (id :: done)
        end
    end.
  (* layered/mod.rs:394-606 *)
  Fixpoint segs_ok (nl : nat) (all : list Segment) (i : nat) (l : list Segment) : bool :=
    match l with [] => true | s :: l => seg_ok nl all i s && segs_ok nl all (S i) l end.
  Definition l_validate (c : LCircuit) : bool :=
    segs_ok (length (l_layers c)) (l_segs c) 0 (l_segs c)
    && forallb (fun x => x <? length (l_segs c)) (l_layers c)
    && match l_layers c with
       | [] => false
       | id :: _ => match seg_of c id with
                    | Some s => match s_ins s with
                                | [] => false
                                | n :: _ => sizes_ok c (l_layers c) [n] && masks_ok c (l_layers c) []
                                end
                    | None => false end
       end.

  (* ------------------------------------------------------------ evaluation *)
  (* The three evaluators of layered/mod.rs (eval_unsafe 661-741, eval_with_public_inputs 743-829,
     eval_with_public_inputs_simd 831-935) are one program over different values; [Alg] is what they compute with.
     al_coef: the value of a coefficient; None is the panic on a public input out of range; the counter numbers the random draws *)
  Record Alg := { al : Type; al0 : al; al_add : al -> al -> al; al_mul : al -> al -> al;
    al_coef : nat -> Coef F -> option (al * nat); al_gate : nat -> list al -> al }.

  Section Eval.
    Variable A : Alg.
    Definition wire (cur : list (list (al A))) (i : Inp) : option (al A) := let* l := nth_error cur (il i) in nth_error l (io i).
    Definition k_val (cur : list (list (al A))) (k : Kind) (c : al A) : option (al A) :=
      match k with
      | KMul a b => let* x := wire cur a in let* y := wire cur b in Some (al_mul A (al_mul A x y) c)
      | KAdd a => let* x := wire cur a in Some (al_mul A x c)
      | KConst => Some c
      | KCustom t l => let* xs := omap (wire cur) l in Some (al_mul A (al_gate A t xs) c)
      end.
    (* nxt[out] += v; None is an index out of bounds *)
    Definition acc (nxt : list (al A)) (o : nat) (v : al A) : option (list (al A)) :=
      let* x := nth_error nxt o in Some (upd nxt o (al_add A x v)).
    (* the gate loops of apply_segment; a custom gate has one output (stub_impl(.., 1)) *)
    Fixpoint apply_gates (gs : list UG) (cur : list (list (al A))) (nxt : list (al A)) (k : nat) : option (list (al A) * nat) :=
      match gs with
      | [] => Some (nxt, k)
      | g :: gs =>
          let* ck := al_coef A k (g_coef g) in
          let* v := k_val cur (g_in g) (fst ck) in
          let* nxt := acc nxt (g_out g) v in
          apply_gates gs cur nxt (snd ck)
      end.
    (* &v[off..off + len] *)
    Definition slice (l : list (al A)) (off len : nat) : option (list (al A)) :=
      if off + len <=? length l then Some (firstn len (skipn off l)) else None.
    Fixpoint slices (cur : list (list (al A))) (offs lens : list nat) : option (list (list (al A))) :=
      match offs, lens with
      | off :: offs, len :: lens =>
          match cur with
          | [] => None
          | l :: cur => let* x := slice l off len in let* r := slices cur offs lens in Some (x :: r)
          end
      | _, _ => Some []
      end.
    Section Children.
      Variable rec : Segment -> list (list (al A)) -> list (al A) -> nat -> option (list (al A) * nat).
      Variable sub : Segment.
      Fixpoint apply_allocs (als : list Alloc) (cur : list (list (al A))) (nxt : list (al A)) (k : nat) : option (list (al A) * nat) :=
        match als with
        | [] => Some (nxt, k)
        | a :: als =>
            let* ins := slices cur (a_in a) (s_ins sub) in
            let* out := slice nxt (a_out a) (s_outs sub) in
            let* r := rec sub ins out k in
            apply_allocs als cur (firstn (a_out a) nxt ++ fst r ++ skipn (a_out a + s_outs sub) nxt) (snd r)
        end.
    End Children.
    Fixpoint apply_children (rec : Segment -> list (list (al A)) -> list (al A) -> nat -> option (list (al A) * nat)) (segs : list Segment)
        (chs : list (nat * list Alloc)) (cur : list (list (al A))) (nxt : list (al A)) (k : nat) : option (list (al A) * nat) :=
      match chs with
      | [] => Some (nxt, k)
      | ch :: chs =>
          let* sub := nth_error segs (fst ch) in
          let* r := apply_allocs rec sub (snd ch) cur nxt k in
          apply_children rec segs chs cur (fst r) (snd r)
      end.
    (* layered/mod.rs:691-741; [fuel] bounds the depth of nesting *)
    Fixpoint apply_segment (fuel : nat) (segs : list Segment) (s : Segment) (cur : list (list (al A))) (nxt : list (al A)) (k : nat)
        : option (list (al A) * nat) :=
      match fuel with
      | 0 => None
      | S fuel =>
          let* r := apply_gates (seg_gates s) cur nxt k in
          apply_children (apply_segment fuel segs) segs (s_children s) cur (fst r) (snd r)
      end.
    (* layered/mod.rs:665-673: the layer loop; cur holds the layers so far, latest first *)
    Fixpoint eval_layers (c : LCircuit) (ids : list nat) (cur : list (list (al A))) (k : nat) : option (list (list (al A))) :=
      match ids with
      | [] => Some cur
      | id :: ids =>
          let* s := seg_of c id in
          if length (s_ins s) <=? length cur then
            let* r := apply_segment (S (length (l_segs c))) (l_segs c) s (firstn (length (s_ins s)) cur) (repeat (al0 A) (s_outs s)) k in
            eval_layers c ids (fst r :: cur) (snd r)
          else None
      end.
    (* layered/mod.rs:657-659 *)
    Definition input_size (c : LCircuit) : option nat :=
      match l_layers c with [] => None | id :: _ => let* s := seg_of c id in nth_error (s_ins s) 0 end.
    (* layered/mod.rs:661-689: the last layer; the leading outputs that must be zero, and the declared outputs *)
    Definition eval_layered (c : LCircuit) (ins : list (al A)) : option (list (al A) * list (al A)) :=
      let* n := input_size c in
      if length ins =? n then
        let* cur := eval_layers c (l_layers c) [ins] 0 in
        let* out := hd_error cur in
        (* &cur[zeroes..actual] panics unless zeroes <= actual <= len *)
        if (l_zeroes c <=? l_actual c) && (l_actual c <=? length out) then
          Some (firstn (l_zeroes c) out, firstn (l_actual c - l_zeroes c) (skipn (l_zeroes c) out))
        else None
      else None.
  End Eval.

  (* eval_unsafe / eval_with_public_inputs: pub is the value of a public input, None the panic of get_value_with_public_inputs *)
  Definition scalar_alg (pub : nat -> option F) (gate : nat -> list F -> F) (rnd : nat -> F) : Alg :=
    {| al := F; al0 := f0; al_add := fadd; al_mul := fmul; al_gate := gate;
       al_coef := fun k c => match c with CConst c => Some (c, k) | CRandom => Some (rnd k, S k) | CPub i => let* v := pub i in Some (v, k) end |}.
  Definition eval_scalar pub gate rnd (c : LCircuit) (ins : list F) : option (list F * bool) :=
    let* r := eval_layered (scalar_alg pub gate rnd) c ins in Some (snd r, forallb (is0 F) (fst r)).
  (* layered/mod.rs:831-935: values are packs of P field elements; rnd k is the k-th random pack *)
  Definition zipw (f : F -> F -> F) (a b : list F) : list F := map (fun p => f (fst p) (snd p)) (combine a b).
  Definition simd_alg (P : nat) (pub : nat -> option (list F)) (gate : nat -> list F -> F) (rnd : nat -> list F) : Alg :=
    {| al := list F; al0 := repeat f0 P; al_add := zipw fadd; al_mul := zipw fmul;
       (* unpack, one stub_impl per lane, pack *)
       al_gate := fun t args => map (fun j => gate t (map (fun v => nth j v f0) args)) (seq 0 P);
       al_coef := fun k c => match c with CConst c => Some (repeat c P, k) | CRandom => Some (rnd k, S k) | CPub i => let* v := pub i in Some (v, k) end |}.
  Definition eval_simd P pub gate rnd (c : LCircuit) (ins : list (list F)) : option (list (list F) * list bool) :=
    let* r := eval_layered (simd_alg P pub gate rnd) c ins in
    Some (snd r, map (fun j => forallb (fun v => is0 F (nth j v f0)) (fst r)) (seq 0 P)).

  (* ------------------------------------------------------------ what a layered circuit means *)
  Definition shift (offs : list nat) (i : Inp) : Inp := mkInp (il i) (nth (il i) offs 0 + io i).
  Definition ushift (a : Alloc) (g : UG) : UG := {| g_in := k_map (shift (a_in a)) (g_in g); g_out := a_out a + g_out g; g_coef := g_coef g |}.
  (* all gates of a segment and of its children, at their places *)
  Fixpoint flat (fuel : nat) (segs : list Segment) (id : nat) : list UG :=
    match fuel with
    | 0 => []
    | S fuel =>
        match nth_error segs id with
        | None => []
        | Some s => seg_gates s ++ flat_map (fun ch => flat_map (fun a => map (ushift a) (flat fuel segs (fst ch))) (snd ch)) (s_children s)
        end
    end.
  Definition wireF (cur : list (list F)) (i : Inp) : F := nth (io i) (nth (il i) cur []) f0.
  Definition kindv (E : Env F) (cur : list (list F)) (k : Kind) : F :=
    match k with
    | KMul a b => fmul (wireF cur a) (wireF cur b) | KAdd a => wireF cur a | KConst => f1
    | KCustom t l => e_gate E t (map (wireF cur) l)
    end.
  (* what one gate adds, and to which output *)
  Definition contrib (E : Env F) (cur : list (list F)) (g : UG) (ov : nat * F) : Prop :=
    fst ov = g_out g /\ exists c, coef_sem E (g_coef g) c /\ snd ov = fmul (kindv E cur (g_in g)) c.
  Definition at_out (o : nat) (cs : list (nat * F)) : F := fsum F (map snd (filter (fun p => fst p =? o) cs)).
  (* one layer: every output is the sum of what the gates at it add *)
  Definition layer_sem (E : Env F) (segs : list Segment) (id : nat) (cur : list (list F)) (nxt : list F) : Prop :=
    exists s cs, nth_error segs id = Some s /\ Forall2 (contrib E cur) (flat (length segs) segs id) cs /\
      nxt = map (fun o => at_out o cs) (seq 0 (s_outs s)).
  Inductive layers_sem (E : Env F) (segs : list Segment) : list nat -> list (list F) -> list (list F) -> Prop :=
  | LSNil cur : layers_sem E segs [] cur cur
  | LSCons id ids cur nxt cur' : layer_sem E segs id cur nxt -> layers_sem E segs ids (nxt :: cur) cur' -> layers_sem E segs (id :: ids) cur cur'.
  Definition lrun (E : Env F) (c : LCircuit) (ins outs : list F) (sat : bool) : Prop :=
    exists cur out, input_size c = Some (length ins) /\ layers_sem E (l_segs c) (l_layers c) [ins] cur /\ hd_error cur = Some out /\
      l_zeroes c <= l_actual c <= length out /\ outs = firstn (l_actual c - l_zeroes c) (skipn (l_zeroes c) out) /\
      sat = forallb (is0 F) (firstn (l_zeroes c) out).
End Layered.
Arguments Segment F : clear implicits. Arguments LCircuit F : clear implicits. Arguments UG F : clear implicits. Arguments Gate F A : clear implicits.
Arguments Alg F : clear implicits.
