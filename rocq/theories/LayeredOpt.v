(* Model of circuit/layered/opt.rs: dedup_gates, expand_small_segments, find_common_parts; and of sort_everything
   (circuit/layered/mod.rs:918-926). *)
From Verif Require Import Prelude Field Zp Expr Topo Ir UnionFind Sorting Layered.

Section LOpt.
  Context {F : Fld}.
  Open Scope nat_scope.
  Notation UG := (UG F). Notation Segment := (Segment F). Notation LCircuit := (LCircuit F). Notation Gate := (Gate F). Notation GMul := (@GMul F). Notation GAdd := (@GAdd F). Notation GConst := (@GConst F). Notation GCustom := (@GCustom F).

  (* ------------------------------------------------------------ ordering of gates (opt.rs:18-95) *)
  (* compared in this order: inputs (layer, offset), output, coefficient; custom gates compare the gate type and the number of
     inputs first.  The leading tag only separates the kinds, which are never compared with each other. *)
  Definition inp_key (l : list Inp) : list nat := flat_map (fun i => [il i; io i]) l.
  Definition kind_key (k : Kind) : list nat :=
    match k with
    | KMul a b => 0 :: inp_key [a; b] | KAdd a => 1 :: inp_key [a] | KConst => [2]
    | KCustom t l => 3 :: t :: length l :: inp_key l
    end.
  (* derived Ord on Coef, layered/mod.rs:19-24: Constant < Random < PublicInput *)
  Definition coef_key (c : Coef F) : list nat := match c with CConst _ => [0; 0] | CRandom => [1; 0] | CPub i => [2; i] end.
  Definition coef_valZ (c : Coef F) : Z := match c with CConst v => toZ v | _ => 0%Z end.
  Definition ug_key (g : UG) : list nat := kind_key (g_in g) ++ g_out g :: coef_key (g_coef g).
  (* field elements are compared by their canonical representative; only that the order is total matters *)
  Definition ug_leb (g h : UG) : bool :=
    match lexc (ug_key g) (ug_key h) with Lt => true | Gt => false | Eq => (coef_valZ (g_coef g) <=? coef_valZ (g_coef h))%Z end.
  Definition ug_eqb (g h : UG) : bool :=
    match lexc (ug_key g) (ug_key h) with Eq => (coef_valZ (g_coef g) =? coef_valZ (g_coef h))%Z | _ => false end.
  Definition is_const (c : Coef F) : bool := match c with CConst _ => true | _ => false end.
  Definition kind_eqb (a b : Kind) : bool := match lexc (kind_key a) (kind_key b) with Eq => true | _ => false end.

  (* ------------------------------------------------------------ dedup_gates (opt.rs:160-190), for one of the four gate vectors *)
  Section Dedup.
    Context {A : Type} (k : A -> Kind).
    Definition gsort (l : list (Gate A)) : list (Gate A) := isort (fun g h => ug_leb (uni k g) (uni k h)) l.
    (* opt.rs:105-110, 133-139 *)
    Definition can_merge (g h : Gate A) : bool :=
      kind_eqb (k (g_in g)) (k (g_in h)) && (g_out g =? g_out h) && is_const (g_coef g) && is_const (g_coef h).
    (* opt.rs:102-104: add_constant; only called on constants *)
    Definition coef_plus (c d : Coef F) : Coef F := match c, d with CConst x, CConst y => CConst (fadd x y) | _, _ => c end.
    (* the loop over 1..gates.len(); cur is gates[lst] *)
    Fixpoint merge (cur : Gate A) (l : list (Gate A)) : list (Gate A) :=
      match l with
      | [] => [cur]
      | g :: l => if can_merge cur g then merge {| g_in := g_in cur; g_out := g_out cur; g_coef := coef_plus (g_coef cur) (g_coef g) |} l
                  else cur :: merge g l
      end.
    Definition zero_gate (g : Gate A) : bool := match g_coef g with CConst c => is0 F c | _ => false end.
    Definition dedup (trim : bool) (l : list (Gate A)) : list (Gate A) :=
      let m := match gsort l with [] => [] | g :: l => merge g l end in
      if trim then filter (fun g => negb (zero_gate g)) m else m.
  End Dedup.

  (* opt.rs:201-245: Segment::dedup_gates; occured_outputs[gate.output] is in range in a validated circuit *)
  Definition seg_set (s : Segment) chs muls adds consts customs : Segment :=
    {| s_ins := s_ins s; s_outs := s_outs s; s_children := chs; s_muls := muls; s_adds := adds; s_consts := consts; s_customs := customs |}.
  Definition zconst (o : nat) : GConst := {| g_in := tt; g_out := o; g_coef := CConst f0 |}.
  Definition outs_of (s : Segment) : list nat := map (fun g => g_out g) (seg_gates s).
  Definition seg_dedup (s : Segment) : Segment :=
    let s1 := seg_set s (s_children s) (dedup k_mul true (s_muls s)) (dedup KAdd true (s_adds s))
                (dedup k_const false (s_consts s)) (dedup k_custom true (s_customs s)) in
    let need := filter (fun o => memb o (outs_of s) && negb (memb o (outs_of s1))) (seq 0 (s_outs s)) in
    seg_set s1 (s_children s1) (s_muls s1) (s_adds s1) (gsort k_const (s_consts s1 ++ map zconst need)) (s_customs s1).
  Definition with_segs (c : LCircuit) (segs : list Segment) (layers : list nat) : LCircuit :=
    {| l_pub := l_pub c; l_actual := l_actual c; l_zeroes := l_zeroes c; l_segs := segs; l_layers := layers |}.
  (* opt.rs:399-404 *)
  Definition l_dedup (c : LCircuit) : LCircuit := with_segs c (map seg_dedup (l_segs c)) (l_layers c).

  (* ------------------------------------------------------------ expand_small_segments (opt.rs:406-576) *)
  (* add_offset, opt.rs:115-130, 144-157; m maps a function over the inputs of a gate *)
  Definition off_gate {A} (m : (Inp -> Inp) -> A -> A) (a : Alloc) (g : Gate A) : Gate A :=
    {| g_in := m (shift (a_in a)) (g_in g); g_out := g_out g + a_out a; g_coef := g_coef g |}.
  Definition m_mul (f : Inp -> Inp) (p : Inp * Inp) : Inp * Inp := (f (fst p), f (snd p)).
  Definition m_const (f : Inp -> Inp) (u : unit) : unit := u.
  Definition m_custom (f : Inp -> Inp) (p : nat * list Inp) : nat * list Inp := (fst p, map f (snd p)).
  Definition nil_seg : Segment := {| s_ins := []; s_outs := 0; s_children := []; s_muls := []; s_adds := []; s_consts := []; s_customs := [] |}.
  Definition nth_seg (l : list Segment) (i : nat) : Segment := nth i l nil_seg.
  (* opt.rs:406-428 *)
  Definition expand_gates {A} (m : (Inp -> Inp) -> A -> A) (get : Segment -> list (Gate A)) (exp : nat -> bool) (prev : list Segment) (s : Segment) : list (Gate A) :=
    get s ++ flat_map (fun ch => if exp (fst ch) then flat_map (fun a => map (off_gate m a) (get (nth_seg prev (fst ch)))) (snd ch) else []) (s_children s).
  (* child_segs_map, opt.rs:447-485: a HashMap from segment ids to allocations; the model keeps it in order of insertion *)
  Fixpoint child_add (m : list (nat * list Alloc)) (id : nat) (als : list Alloc) : list (nat * list Alloc) :=
    match m with
    | [] => [(id, als)]
    | (j, l) :: m => if j =? id then (j, l ++ als) :: m else (j, l) :: child_add m id als
    end.
  Definition add_offs (a b : list nat) : list nat := map (fun p => fst p + snd p) (combine a b).
  Definition alloc_comp (a sa : Alloc) : Alloc := {| a_in := add_offs (a_in sa) (a_in a); a_out := a_out sa + a_out a |}.
  Definition expand_children (exp : nat -> bool) (prev : list Segment) (s : Segment) : list (nat * list Alloc) :=
    fold_left (fun m ch =>
      if exp (fst ch)
      then fold_left (fun m sch => child_add m (fst sch) (flat_map (fun sa => map (fun a => alloc_comp a sa) (snd ch)) (snd sch)))
             (s_children (nth_seg prev (fst ch))) m
      else child_add m (fst ch) (snd ch)) (s_children s) [].
  (* derived Ord on Allocation *)
  Definition alloc_leb (a b : Alloc) : bool :=
    match lexc (a_in a) (a_in b) with Lt => true | Gt => false | Eq => a_out a <=? a_out b end.
  (* opt.rs:430-496 *)
  Definition expand_segment (exp : nat -> bool) (prev : list Segment) (s : Segment) : Segment :=
    seg_set s (map (fun ch => (fst ch, isort alloc_leb (snd ch))) (expand_children exp prev s))
      (expand_gates m_mul s_muls exp prev s) (expand_gates (fun f i => f i) s_adds exp prev s)
      (expand_gates m_const s_consts exp prev s) (expand_gates m_custom s_customs exp prev s).
  (* opt.rs:501-517: EXPAND_USE_COUNT_LIMIT + 1 for every layer, then children of used segments, last segment first *)
  Definition bump (cnt : list nat) (i n : nat) : list nat := upd cnt i (nth i cnt 0 + n).
  Definition layer_counts (c : LCircuit) : list nat := fold_left (fun cnt id => bump cnt id 2) (l_layers c) (repeat 0 (length (l_segs c))).
  Fixpoint use_loop (segs : list Segment) (i : nat) (cnt : list nat) : list nat :=
    match i with
    | 0 => cnt
    | S j => use_loop segs j (if 0 <? nth j cnt 0 then fold_left (fun cnt ch => bump cnt (fst ch) (length (snd ch))) (s_children (nth_seg segs j)) cnt else cnt)
    end.
  Definition used_count (c : LCircuit) : list nat := use_loop (l_segs c) (length (l_segs c)) (layer_counts c).
  Definition gate_count (s : Segment) : nat :=
    length (s_muls s) + length (s_adds s) + length (s_consts s) + length (s_customs s) + list_sum (map (fun ch => length (snd ch)) (s_children s)).
  (* opt.rs:518-543 *)
  Definition to_expand (c : LCircuit) (id : nat) : bool :=
    let used := nth id (used_count c) 0 in
    (0 <? used) && negb (memb id (l_layers c)) && ((used <=? 1) || (gate_count (nth_seg (l_segs c) id) <=? 4)).
  Definition keep_seg (c : LCircuit) (id : nat) : bool := (0 <? nth id (used_count c) 0) && negb (to_expand c id).
  (* opt.rs:549-559 *)
  Definition expand_all (used exp : nat -> bool) (segs : list Segment) : list Segment :=
    fold_left (fun prev s => prev ++ [if used (length prev) then expand_segment exp prev s else s]) segs [].
  (* opt.rs:560-585; new_id is !0 for a segment that is not kept, and such an id in the new circuit is an invalid circuit: None *)
  Definition new_id (keep : nat -> bool) (id : nat) : nat := length (filter keep (seq 0 id)).
  Definition rename_children (keep : nat -> bool) (chs : list (nat * list Alloc)) : option (list (nat * list Alloc)) :=
    omap (fun ch => if keep (fst ch) then Some (new_id keep (fst ch), snd ch) else None) chs.
  Definition expand_small_segments (c : LCircuit) : option LCircuit :=
    let n := length (l_segs c) in
    let used := fun id => 0 <? nth id (used_count c) 0 in
    let exp := to_expand c in
    let keep := keep_seg c in
    if forallb keep (seq 0 n) then Some c
    else
      let ex := expand_all used exp (l_segs c) in
      let* segs := omap (fun id => let s := nth_seg ex id in
                         let* chs := rename_children keep (s_children s) in
                         Some (seg_dedup (seg_set s chs (s_muls s) (s_adds s) (s_consts s) (s_customs s)))) (filter keep (seq 0 n)) in
      let* layers := omap (fun id => if keep id then Some (new_id keep id) else None) (l_layers c) in
      Some (with_segs c segs layers).

  (* ------------------------------------------------------------ find_common_parts (opt.rs:587-705) *)
  Definition ug_mem (g : UG) (l : list UG) : bool := existsb (ug_eqb g) l.
  (* opt.rs:278-293: all_gates; a set without repetitions *)
  Definition ug_set (l : list UG) : list UG := fold_right (fun g r => if ug_mem g r then r else g :: r) [] l.
  (* opt.rs:327-397: from_uni_gates; num_inputs holds, per layer read, the least power of two above the greatest offset *)
  Definition get_mul (g : UG) : list GMul := match g_in g with KMul a b => [ {| g_in := (a, b); g_out := g_out g; g_coef := g_coef g |} ] | _ => [] end.
  Definition get_add (g : UG) : list GAdd := match g_in g with KAdd a => [ {| g_in := a; g_out := g_out g; g_coef := g_coef g |} ] | _ => [] end.
  Definition get_const (g : UG) : list GConst := match g_in g with KConst => [ {| g_in := tt; g_out := g_out g; g_coef := g_coef g |} ] | _ => [] end.
  Definition get_custom (g : UG) : list GCustom := match g_in g with KCustom t l => [ {| g_in := (t, l); g_out := g_out g; g_coef := g_coef g |} ] | _ => [] end.
  Definition all_ins (l : list UG) : list Inp := flat_map (fun g => k_ins (g_in g)) l.
  Definition max_layers (l : list UG) : nat := Nat.max 1 (list_max (map (fun i => S (il i)) (all_ins l))).
  Definition max_offset (l : list UG) (layer : nat) : nat := list_max (map io (filter (fun i => il i =? layer) (all_ins l))).
  Definition from_uni_gates (l : list UG) : Segment :=
    {| s_ins := map (fun ly => next_power_of_two (max_offset l ly + 1)) (seq 0 (max_layers l));
       s_outs := next_power_of_two (list_max (map (fun g => g_out g) l) + 1); s_children := [];
       s_muls := gsort k_mul (flat_map get_mul l); s_adds := gsort KAdd (flat_map get_add l);
       s_consts := gsort k_const (flat_map get_const l); s_customs := gsort k_custom (flat_map get_custom l) |}.
  (* opt.rs:302-325 *)
  Definition remove_gates (s : Segment) (l : list UG) : Segment :=
    seg_set s (s_children s) (filter (fun g => negb (ug_mem (uni k_mul g) l)) (s_muls s)) (filter (fun g => negb (ug_mem (uni KAdd g) l)) (s_adds s))
      (filter (fun g => negb (ug_mem (uni k_const g) l)) (s_consts s)) (filter (fun g => negb (ug_mem (uni k_custom g) l)) (s_customs s)).
  (* opt.rs:625-656: the edges loop.  The edges come from sampling the gates of the segments at random (opt.rs:594-624):
     the model takes them as an argument, so that what is proved holds for every sample *)
  Definition inter (a b : list UG) : list UG := filter (fun g => ug_mem g b) a.
  Fixpoint merge_groups (edges : list (nat * nat)) (par : list nat) (groups : list (list UG)) : option (list nat * list (list UG)) :=
    match edges with
    | [] => Some (par, groups)
    | (i, j) :: edges =>
        let* (x0, par) := uf_find par i in
        let* (y0, par) := uf_find par j in
        if x0 =? y0 then merge_groups edges par groups
        else
          let* gx0 := nth_error groups x0 in
          let* gy0 := nth_error groups y0 in
          let '(x, y, gx, gy) := if length gx0 <? length gy0 then (y0, x0, gy0, gx0) else (x0, y0, gx0, gy0) in
          if length (filter (fun g => ug_mem g gx) gy) <? 10 then merge_groups edges par groups
          else
            let* par := uf_union par x y in
            let* (r, par) := uf_find par x in
            merge_groups edges par (upd groups r (inter gx gy))
    end.
  (* finding the root of every segment in turn, opt.rs:657-660 *)
  Fixpoint uf_roots (par : list nat) (ids : list nat) : option (list nat) :=
    match ids with [] => Some [] | i :: ids => let* (r, par) := uf_find par i in let* rs := uf_roots par ids in Some (r :: rs) end.
  (* opt.rs:661-705: commons lists the groups that become segments of their own; common segments come first in the new circuit *)
  Definition find_index (r : nat) (l : list nat) : option nat :=
    (fix go (i : nat) (l : list nat) := match l with [] => None | x :: l => if x =? r then Some i else go (S i) l end) 0 l.
  Definition find_common_parts (edges : list (nat * nat)) (c : LCircuit) : option LCircuit :=
    let n := length (l_segs c) in
    let* (par, groups) := merge_groups edges (uf_new n) (map (fun s => ug_set (seg_gates s)) (l_segs c)) in
    let* roots := uf_roots par (seq 0 n) in
    let commons := filter (fun i => (nth i roots 0 =? i) && (1 <? length (filter (Nat.eqb i) roots)) && (10 <=? length (nth i groups []))) (seq 0 n) in
    let base := length commons in
    let csegs := map (fun i => from_uni_gates (nth i groups [])) commons in
    let segs := map (fun p => let '(id, s) := p in
      let s1 := seg_set s (map (fun ch => (base + fst ch, snd ch)) (s_children s)) (s_muls s) (s_adds s) (s_consts s) (s_customs s) in
      let r := nth id roots 0 in
      let s2 := match find_index r commons with
        | None => s1
        | Some ci => let s2 := remove_gates s1 (nth r groups []) in
            seg_set s2 (s_children s2 ++ [(ci, [ {| a_in := repeat 0 (length (s_ins (nth_seg csegs ci))); a_out := 0 |} ])]) (s_muls s2) (s_adds s2) (s_consts s2) (s_customs s2)
        end in
      seg_dedup s2) (combine (seq 0 n) (l_segs c)) in
    Some (with_segs c (csegs ++ segs) (map (fun id => base + id) (l_layers c))).

  (* ------------------------------------------------------------ sort_everything, layered/mod.rs:918-926 *)
  Fixpoint allocs_leb (a b : list Alloc) : bool :=
    match a, b with
    | [], _ => true | _ :: _, [] => false
    | x :: a, y :: b => if alloc_leb x y then (if alloc_leb y x then allocs_leb a b else true) else false
    end.
  Definition child_leb (a b : nat * list Alloc) : bool := (fst a <? fst b) || ((fst a =? fst b) && allocs_leb (snd a) (snd b)).
  Definition seg_sort (s : Segment) : Segment :=
    seg_set s (isort child_leb (s_children s)) (gsort k_mul (s_muls s)) (gsort KAdd (s_adds s)) (gsort k_const (s_consts s)) (gsort k_custom (s_customs s)).
  Definition sort_everything (c : LCircuit) : LCircuit := with_segs c (map seg_sort (l_segs c)) (l_layers c).

  (* ------------------------------------------------------------ compile/mod.rs:258-286: compile_step_3.  [Step3 lvl c c']: from c the
     program may return c'; the loop of level 3 is left at any point (the program leaves it when nothing changes) and each
     find_common_parts may use any sample; after the loop the circuit is validated and sorted *)
  Inductive Step3Loop : LCircuit -> LCircuit -> Prop :=
  | S3Stop c : Step3Loop c c
  | S3Iter c c1 c2 c3 edges : expand_small_segments c = Some c1 -> Forall (fun e => fst e < length (l_segs c1) /\ snd e < length (l_segs c1)) edges ->
      (if length (l_segs c1) <=? 100 then find_common_parts edges c1 else Some c1) = Some c2 -> Step3Loop c2 c3 -> Step3Loop c c3.
  Definition Step3 (lvl : nat) (c c' : LCircuit) : Prop :=
    l_validate c = true /\ exists c1, (if 3 <=? lvl then Step3Loop (l_dedup c) c1 else c1 = if 1 <=? lvl then l_dedup c else c) /\
      l_validate c1 = true /\ c' = sort_everything c1.
End LOpt.
