(* Model of layering/: compile.rs, layer_layout.rs, wire.rs, input.rs, mod.rs (from the dest IR to a layered circuit).
   None is a panic (or fuel running out; the fuel bounds only the nesting of sub-circuits).
   Simplifications that hold throughout:
   - the pool of layouts is an interning table and the table of connected wires (compile.rs:38) is read but never filled, so layout ids are
     replaced by the layouts themselves and nothing is cached;
   - a sub-circuit call is named by its position among the calls of its circuit instead of by its instruction index;
   - sets of edges are lists; duplicates and order do not matter to the maxima taken over them;
   - reads of per-variable tables are total (default 0): the tables are as long as the variables are many. *)
From Verif Require Import Prelude Field Zp Sorting Expr Topo Ir IrInst InputMapping Layered.
Open Scope nat_scope.

Section Layering.
  Context {F : Fld}.
  Notation DI := (DestI F true).
  Variable cross : bool.   (* I::CROSS_LAYER_RELAY *)

  (* ------------------------------------------------------------ the instructions of one circuit, compile.rs:225-282 *)
  Inductive VK := OIn | OExpr (e : Expression F) | OCoef (c : Coef F) | OSub (k : nat).
  (* compile.rs:93-97: SubCircuitInsn *)
  Record Call := { cl_sub : nat; cl_ins : list nat; cl_outs : list nat }.
  (* what every variable from the first instruction on is *)
  Fixpoint kinds_from (is : list (DInsn F)) (k : nat) : list VK :=
    match is with
    | [] => []
    | DVar e :: is => OExpr e :: kinds_from is k
    | DConst c :: is => OCoef c :: kinds_from is k
    | DCall _ _ n :: is => repeat (OSub k) n ++ kinds_from is (S k)
    end.
  Definition kinds (c : Circuit DI) : list VK := repeat OIn (S (num_inputs c)) ++ kinds_from (instructions c) 0.
  Fixpoint calls_from (is : list (DInsn F)) (cur : nat) : list Call :=
    match is with
    | [] => []
    | DCall id l n :: is => {| cl_sub := id; cl_ins := l; cl_outs := seq cur n |} :: calls_from is (cur + n)
    | _ :: is => calls_from is (S cur)
    end.
  Definition calls_of (c : Circuit DI) : list Call := calls_from (instructions c) (S (num_inputs c)).
  (* compile.rs:220-260: variables of instructions in order, with nv + k standing for the k-th call *)
  Fixpoint q1_from (nv : nat) (is : list (DInsn F)) (cur k : nat) : list nat :=
    match is with
    | [] => []
    | DVar _ :: is => cur :: q1_from nv is (S cur) k
    | DConst _ :: is => q1_from nv is (S cur) k
    | DCall _ _ n :: is => (nv + k) :: seq cur n ++ q1_from nv is (cur + n) (S k)
    end.
  Fixpoint consts_from (is : list (DInsn F)) (cur : nat) : list nat :=
    match is with
    | [] => []
    | DVar _ :: is => consts_from is (S cur)
    | DConst _ :: is => cur :: consts_from is (S cur)
    | DCall _ _ n :: is => consts_from is (cur + n)
    end.
  Definition queue (nv : nat) (c : Circuit DI) : list nat :=
    seq 1 (num_inputs c) ++ consts_from (instructions c) (S (num_inputs c)) ++ q1_from nv (instructions c) (S (num_inputs c)) 0.
  Fixpoint edges_from (nv : nat) (is : list (DInsn F)) (cur k : nat) : list (nat * nat) :=
    match is with
    | [] => []
    | DVar e :: is => map (fun x => (x, cur)) (e_vars F e) ++ edges_from nv is (S cur) k
    | DConst _ :: is => edges_from nv is (S cur) k
    | DCall _ l n :: is => map (fun x => (x, nv + k)) l ++ map (fun y => (nv + k, y)) (seq cur n) ++ edges_from nv is (cur + n) (S k)
    end.
  Definition outs_of (edges : list (nat * nat)) (x : nat) : list nat := map snd (filter (fun e => fst e =? x) edges).

  (* ------------------------------------------------------------ layers, compile.rs:186-513 *)
  (* compile.rs:81-91 *)
  Record CC := { cc_id : nat; cc_vars : list nat; cc_subs : list nat }.
  (* layer_layout.rs:10-21 *)
  Record LC := { lc_vars : list nat; lc_prev : list nat; lc_placement : list (nat * nat); lc_parent : list nat; lc_mid : list nat }.
  (* compile.rs:46-79 *)
  Record Ctx := { x_c : Circuit DI; x_kinds : list VK; x_calls : list Call; x_starts : list nat; x_deps : list nat;
    x_min : list nat; x_max : list nat; x_occ : list (list nat); x_out : nat; x_used : list nat; x_cc : list (option CC); x_lcs : list LC }.
  Definition x_nv (X : Ctx) : nat := length (x_kinds X).

  Definition getn (l : list nat) (x : nat) : nat := nth x l 0.
  (* compile.rs:287-291 *)
  Definition relax1 (edges : list (nat * nat)) (adv ml : list nat) (x : nat) : list nat :=
    fold_left (fun ml y => upd ml y (Nat.max (getn ml y) (getn ml x + getn adv y))) (outs_of edges x) ml.
  Definition relax (edges : list (nat * nat)) (adv q ml : list nat) : list nat := fold_left (relax1 edges adv) q ml.
  Definition kind_min (k : VK) : nat := match k with OExpr _ | OCoef _ => 1 | _ => 0 end.
  Definition kind_adv (k : VK) : nat := match k with OExpr _ | OSub _ => 1 | _ => 0 end.
  Definition maxl (l : list nat) : nat := fold_left Nat.max l 0.

  (* compile.rs:319-335: constraints of layer i, and the calls that have a combined constraint one layer before *)
  Definition is_some {A} (o : option A) : bool := match o with Some _ => true | None => false end.
  Definition cc_at {A} (cc : list (option A)) (j : nat) : bool := match nth_error cc j with Some (Some _) => true | _ => false end.
  Definition cc_raw (cons ml starts : list nat) (subccs : list (list (option CC))) (i : nat) : list nat * list nat :=
    (filter (fun x => S (getn ml x) =? i) cons,
     filter (fun k => match nth_error starts k, nth_error subccs k with
                      | Some st, Some cc => (st <? i) && cc_at cc (i - 1 - st)
                      | _, _ => false end) (seq 0 (length starts))).
  Definition cc_nonempty (p : list nat * list nat) : bool := negb (length (fst p) =? 0) || negb (length (snd p) =? 0).
  Fixpoint find_first {A} (f : A -> bool) (l : list A) : option nat :=
    match l with [] => None | x :: l => if f x then Some 0 else option_map S (find_first f l) end.
  (* compile.rs:337-353: in the root circuit every layer also takes over the combined constraint of the layer before *)
  Definition cc_merge (root : bool) (n mo : nat) (raw : list (list nat * list nat)) : list (list nat * list nat) * bool :=
    if root then
      match find_first cc_nonempty raw with
      | None => (raw, false)
      | Some first =>
          (map (fun i => let p := nth i raw ([], []) in (if first <? i then fst p ++ [i - 1 - first + n] else fst p, snd p)) (seq 0 (mo + 2)), true)
      end
    else (raw, false).
  (* compile.rs:354-372: number them *)
  Fixpoint cc_number (l : list (list nat * list nat)) (n : nat) : list (option CC) :=
    match l with
    | [] => []
    | p :: l => if cc_nonempty p then Some {| cc_id := n; cc_vars := fst p; cc_subs := snd p |} :: cc_number l (S n) else None :: cc_number l n
    end.
  Fixpoint cc_layers {A} (l : list (option A)) (i : nat) : list nat :=
    match l with [] => [] | Some _ :: l => i :: cc_layers l (S i) | None :: l => cc_layers l (S i) end.
  Definition cc_edges (l : list (option CC)) : list (nat * nat) :=
    flat_map (fun o => match o with Some c => map (fun v => (v, cc_id c)) (cc_vars c) | None => [] end) l.
  (* compile.rs:359-361 *)
  Definition cc_out (root : bool) (out : nat) (layers : list nat) : nat :=
    fold_left (fun out i => if out <? i + 1 then (if root then i else i + 1) else out) layers out.
  (* compile.rs:373-375; the list is reversed *)
  Fixpoint cc_pop {A} (r : list (option A)) (out : nat) : list (option A) :=
    match r with None :: r' => if out <? length r' then cc_pop r' out else r | _ => r end.

  (* sorted, without repetitions: compile.rs:475-482 *)
  Fixpoint dedup (l : list nat) : list nat :=
    match l with
    | x :: (y :: _) as t => if x =? y then dedup t else x :: dedup t
    | _ => l
    end.
  Fixpoint pairs (l : list nat) : list (nat * nat) := match l with x :: (y :: _) as t => (x, y) :: pairs t | _ => [] end.
  (* compile.rs:464-489 *)
  Definition occured (edges : list (nat * nat)) (adv ml mx outs : list nat) (out x : nat) : option (list nat) :=
    let t := dedup (isort Nat.leb (getn ml x :: map (fun y => getn ml y - getn adv y) (outs_of edges x) ++ (if memb x outs then [out] else []))) in
    if (hd 0 t =? getn ml x) && (last t 0 =? getn mx x) then Some t else None.

  Definition guard (b : bool) : option unit := if b then Some tt else None.

  (* compile.rs:186-513; [ctxs] are the contexts of the sub-circuits, which come first in the order *)
  Definition compute_layers (ctxs : list (nat * Ctx)) (root : bool) (c : Circuit DI) : option (Ctx * bool) :=
    let kd := kinds c in
    let nv := length kd in
    let cl := calls_of c in
    let* subs := omap (fun l => lookup (cl_sub l) ctxs) cl in
    let ns := length cl in
    let n := nv + ns in
    let deps := map x_out subs in
    let adv := map kind_adv kd ++ map (fun d => d - 1) deps in
    let edges := edges_from nv (instructions c) (S (num_inputs c)) 0 in
    let q := queue nv c in
    let ml := relax edges adv q (map kind_min kd ++ repeat 0 ns) in
    (* compile.rs:293-298; an underflow when a sub-circuit has no inputs *)
    let* starts := omap (fun k => let* _ := guard (getn adv (nv + k) <=? getn ml (nv + k)) in Some (getn ml (nv + k) - getn adv (nv + k))) (seq 0 ns) in
    (* compile.rs:300-309, 324-327 *)
    let mo := maxl ml in
    let out1 := maxl (map (fun p => fst p + snd p) (combine starts deps) ++ firstn (nv - 1) (skipn 1 ml)) in
    let (raws, has) := cc_merge root n mo (map (cc_raw (constraints c) ml starts (map x_cc subs)) (seq 0 (mo + 3))) in
    let cc0 := cc_number raws n in
    let cl0 := cc_layers cc0 0 in
    let out2 := cc_out root out1 cl0 in
    let ml2 := ml ++ cl0 in
    let adv2 := adv ++ repeat 1 (length cl0) in
    let edges2 := edges ++ cc_edges cc0 in
    let q2 := q ++ seq n (length cl0) in
    let cc1 := rev (cc_pop (rev cc0) out2) in
    (* compile.rs:376-382 *)
    let* out3 := if root then (if out2 <? length cc1 then Some (length cc1 - 1) else None) else Some out2 in
    (* compile.rs:386-394 *)
    let mx := map (fun x => fold_left Nat.max (map (fun y => getn ml2 y - getn adv2 y) (outs_of edges2 x)) (getn ml2 x)) (seq 0 (length ml2)) in
    let* _ := guard (forallb (fun k => getn ml2 (nv + k) =? getn mx (nv + k)) (seq 0 ns)) in
    (* compile.rs:404-407 *)
    let out4 := Nat.max 1 out3 in
    (* compile.rs:409-439 *)
    let partial k :=
      let ys := outs_of edges2 (nv + k) in
      let count := length (filter (fun y => memb y (outputs c)) ys) in
      let anyc := match nth_error subs k with Some X => existsb is_some (x_cc X) | None => false end in
      forallb (fun y => getn ml2 y =? out4) ys && (negb (count =? 0) || anyc) && negb (count =? length ys) in
    let out := if existsb partial (seq 0 ns) then S out4 else out4 in
    (* compile.rs:441-443 *)
    let cc := if out =? length cc1 then cc1 ++ [None] else cc1 in
    (* compile.rs:445-448 *)
    let mx2 := map (fun x => if memb x (outputs c) then out else getn mx x) (seq 0 (length ml2)) in
    (* compile.rs:450-459 *)
    let ml3 := map (fun x => match nth_error kd x with
                             | Some (OCoef _) => if getn mx2 x =? out then getn ml2 x
                                 else fold_left Nat.min (map (fun y => getn ml2 y - getn adv2 y) (outs_of edges2 x)) (Nat.min out (getn mx2 x))
                             | _ => getn ml2 x end) (seq 0 (length ml2)) in
    (* compile.rs:461-490 *)
    let* occ := if cross then omap (fun x => if x =? 0 then Some [] else occured edges2 adv2 ml3 mx2 (outputs c) out x) (seq 0 (length ml2)) else Some [] in
    (* compile.rs:492-510 *)
    let used0 := fold_left (fun u p => let '(st, X) := p in
                   fold_left (fun u j => upd u (j + st) (Nat.min (getn u (j + st)) (getn (x_used X) j + st))) (seq 0 (S (x_out X))) u)
                 (combine starts subs) (0 :: seq 0 out) in
    let used := fold_left (fun u p => upd u (snd p) (Nat.min (getn u (snd p)) (fst p))) (flat_map pairs occ) used0 in
    Some ({| x_c := c; x_kinds := kd; x_calls := cl; x_starts := starts; x_deps := deps; x_min := ml3; x_max := mx2; x_occ := occ; x_out := out;
             x_used := used; x_cc := cc; x_lcs := [] |}, has).

  (* ------------------------------------------------------------ layout contexts, layer_layout.rs:88-202 *)
  (* utils/pool.rs: values in the order of their first insertion *)
  Fixpoint undup (l acc : list nat) : list nat :=
    match l with [] => rev acc | x :: l => if memb x acc then undup l acc else undup l (x :: acc) end.
  Definition start_of (X : Ctx) (k : nat) : nat := getn (x_starts X) k.
  Definition end_of (X : Ctx) (k : nat) : nat := getn (x_starts X) k + getn (x_deps X) k.
  Definition in_layer (X : Ctx) (x i : nat) : bool :=
    if cross then memb i (nth x (x_occ X) []) else (getn (x_min X) x <=? i) && (i <=? getn (x_max X) x).
  (* layer_layout.rs:92-112 *)
  Definition vars_at (X : Ctx) (i : nat) : option (list nat) :=
    let* o := nth_error (x_cc X) i in
    Some (undup (match o with Some c => [cc_id c] | None => [] end ++ (if i =? x_out X then outputs (x_c X) else [])
                 ++ filter (fun x => in_layer X x i) (seq 1 (x_nv X - 1))) []).
  Definition count (f : nat -> bool) (l : list nat) : nat := length (filter f l).
  (* layer_layout.rs:149-198: greedy placement groups; state: group of each variable, parent of each group *)
  Definition place_req (X : Ctx) (prev : list nat) (st : list (nat * nat) * list nat) (k : nat) : option (list (nat * nat) * list nat) :=
    let* l := nth_error (x_calls X) k in
    let* gs := omap (fun x => lookup x (fst st)) (cl_ins l) in
    match gs with
    | [] => Some st
    | g :: _ =>
        if forallb (Nat.eqb g) gs &&
           forallb (fun k' => match nth_error (x_calls X) k' with
                              | Some l' => let n := count (fun x => memb x (cl_outs l')) (cl_ins l) in (n =? 0) || (n =? length (cl_outs l'))
                              | None => true end) prev
        then let np := length (snd st) in
             Some (fold_left (fun m x => (x, np) :: m) (cl_ins l) (fst st), snd st ++ [g])
        else Some st
    end.
  Fixpoint ofold {A B} (f : A -> B -> option A) (l : list B) (a : A) : option A :=
    match l with [] => Some a | x :: l => let* a := f a x in ofold f l a end.
  Definition lc_at (X : Ctx) (i : nat) : option LC :=
    let ks := seq 0 (length (x_calls X)) in
    let* vs := vars_at X i in
    let prev := filter (fun k => end_of X k =? i) ks in
    let* p := ofold (place_req X prev) (filter (fun k => start_of X k =? i) ks) (map (fun x => (x, 0)) vs, [0]) in
    Some {| lc_vars := vs; lc_prev := prev; lc_placement := fst p; lc_parent := snd p;
            lc_mid := filter (fun k => (start_of X k <? i) && (i <? end_of X k)) ks |}.
  Definition with_lcs (X : Ctx) (l : list LC) : Ctx :=
    {| x_c := x_c X; x_kinds := x_kinds X; x_calls := x_calls X; x_starts := x_starts X; x_deps := x_deps X; x_min := x_min X; x_max := x_max X;
       x_occ := x_occ X; x_out := x_out X; x_used := x_used X; x_cc := x_cc X; x_lcs := l |}.
  Definition prepare (X : Ctx) : option Ctx := let* l := omap (lc_at X) (seq 0 (S (x_out X))) in Some (with_lcs X l).

  (* ------------------------------------------------------------ layouts, layer_layout.rs:28-80, 204-415 *)
  Inductive Layout := LDense (circ layer : nat) (placement : list (option nat))
                    | LSparse (circ layer size : nat) (placement : list (nat * nat)) (subs : list (Layout * nat * nat)).   (* layout, offset, call *)
  Definition ly_circ (L : Layout) : nat := match L with LDense c _ _ => c | LSparse c _ _ _ _ => c end.
  Definition ly_layer (L : Layout) : nat := match L with LDense _ l _ => l | LSparse _ l _ _ _ => l end.
  Definition ly_size (L : Layout) : nat := match L with LDense _ _ p => length p | LSparse _ _ s _ _ => s end.

  (* layer_layout.rs:417-495: merge_layouts *)
  Definition fits (res pg : list (option nat)) (i : nat) : bool :=
    forallb (fun p => match p with (Some _, Some _) => false | _ => true end) (combine (firstn (length pg) (skipn i res)) pg).
  Definition overlay (res pg : list (option nat)) (i : nat) : list (option nat) :=
    firstn i res ++ map (fun p => match snd p with Some x => Some x | None => fst p end) (combine (firstn (length pg) (skipn i res)) pg) ++ skipn (i + length pg) res.
  Definition place1 (res pg : list (option nat)) : option (list (option nat)) :=
    let* _ := guard (length res mod length pg =? 0) in
    match find_first (fits res pg) (map (fun j => j * length pg) (seq 0 (length res / length pg))) with
    | Some j => Some (overlay res pg (j * length pg))
    | None => Some (res ++ pg)
    end.
  (* the first empty slot at or after [slot] *)
  Fixpoint fill (res : list (option nat)) (add : list nat) : list (option nat) :=
    match res with
    | [] => map Some add
    | Some y :: res => Some y :: fill res add
    | None :: res => match add with [] => None :: res | x :: add => Some x :: fill res add end
    end.
  Definition merge_layouts (s : list (list (option nat))) (add : list nat) : option (list (option nat)) :=
    let* _ := guard (forallb (fun x => pow2b (length x)) s) in
    let order := isort (fun a b => (length (snd b) <? length (snd a)) || ((length (snd b) =? length (snd a)) && (fst a <=? fst b))) (combine (seq 0 (length s)) s) in
    let* res := ofold (fun r p => place1 r (snd p)) order [] in
    let res := fill res add in
    Some (res ++ repeat None (next_power_of_two (length res) - length res)).

  Fixpoint index_of (x : nat) (l : list nat) : option nat :=
    match l with [] => None | y :: l => if y =? x then Some 0 else option_map S (index_of x l) end.
  (* compile.rs:305: the last position wins *)
  Definition output_order (c : Circuit DI) (x : nat) : option nat := option_map (fun j => length (outputs c) - 1 - j) (index_of x (rev (outputs c))).

  Section Solve.
    Variable ctxs : list (nat * Ctx).
    Variable rec : nat -> nat -> option Layout.
    (* layer_layout.rs:247-278: the output layout of call k in terms of this layer's variables *)
    Definition prev_layout (X : Ctx) (C : LC) (k : nat) : option (list (option nat)) :=
      let* l := nth_error (x_calls X) k in
      let* Xs := lookup (cl_sub l) ctxs in
      let* Cs := nth_error (x_lcs Xs) (x_out Xs) in
      let* L := rec (cl_sub l) (x_out Xs) in
      match L with
      | LSparse _ _ _ _ _ => None
      | LDense _ _ p => omap (fun o => match o with
          | None => Some None
          | Some i => let* v := nth_error (lc_vars Cs) i in
                      match output_order (x_c Xs) v with
                      | None => Some None
                      | Some j => let* y := nth_error (cl_outs l) j in Some (index_of y (lc_vars C))
                      end
          end) p
      end.
    (* layer_layout.rs:280-317: one placement group; groups are done from the last to the first *)
    Definition group1 (X : Ctx) (C : LC) (lays : list (nat * list (option nat))) (done : list (nat * list (option nat))) (g : nat) : option (list (nat * list (option nat))) :=
      let sub := flat_map (fun j => match nth_error (lc_parent C) j with
                                    | Some p => if (p =? g) && negb (j =? 0) then match lookup j done with Some r => [r] | None => [] end else []
                                    | None => [] end) (seq 0 (length (lc_parent C))) in
      let* prev := omap (fun p => let* l := nth_error (x_calls X) (fst p) in
                                  match cl_outs l with
                                  | [] => Some []
                                  | y :: _ => let* gy := lookup y (lc_placement C) in Some (if gy =? g then [snd p] else [])
                                  end) lays in
      let inprev x := existsb (fun k => match nth_error (x_calls X) k with Some l => memb x (cl_outs l) | None => false end) (lc_prev C) in
      let own := flat_map (fun p => if inprev (snd p) then []
                                    else match lookup (snd p) (lc_placement C) with Some gx => if gx =? g then [fst p] else [] | None => [] end)
                          (combine (seq 0 (length (lc_vars C))) (lc_vars C)) in
      let* r := merge_layouts (sub ++ concat prev) own in
      Some ((g, r) :: done).
    (* layer_layout.rs:334-393: the pieces in order of size; [cur] is the next free slot *)
    Fixpoint pieces (X : Ctx) (dense : list (option nat)) (mids : list (nat * Layout)) (order : list (nat * nat)) (cur : nat)
        (pl : list (nat * nat)) (subs : list (Layout * nat * nat)) : option (list (nat * nat) * list (Layout * nat * nat) * nat) :=
      match order with
      | [] => Some (pl, subs, cur)
      | (0, sz) :: order =>
          let new := flat_map (fun p => match snd p with Some x => [(cur + fst p, x)] | None => [] end) (combine (seq 0 (length dense)) dense) in
          match new with
          | [] => pieces X dense mids order cur pl subs
          | _ => pieces X dense mids order (cur + sz) (pl ++ new) subs
          end
      | (S i, sz) :: order =>
          let* m := nth_error mids i in
          pieces X dense mids order (cur + sz) pl (subs ++ [(snd m, cur, fst m)])
      end.
    (* layer_layout.rs:240-413 *)
    Definition solve_normal (id layer : nat) : option Layout :=
      let* X := lookup id ctxs in
      let* C := nth_error (x_lcs X) layer in
      let* lays := omap (fun k => let* p := prev_layout X C k in Some (k, p)) (lc_prev C) in
      let* groups := ofold (group1 X C lays) (rev (seq 0 (length (lc_parent C)))) [] in
      let* dense := lookup 0 groups in
      match lc_mid C with
      | [] => Some (LDense id layer dense)
      | _ =>
          let* mids := omap (fun k => let* l := nth_error (x_calls X) k in let* L := rec (cl_sub l) (layer - start_of X k) in Some (k, L)) (lc_mid C) in
          let sizes := length dense :: map (fun m => ly_size (snd m)) mids in
          let order := isort (fun a b => (snd b <? snd a) || ((snd b =? snd a) && (fst a <=? fst b))) (combine (seq 0 (length sizes)) sizes) in
          let* r := pieces X dense mids order 0 [] [] in
          let '(pl, subs, cur) := r in
          Some (LSparse id layer (next_power_of_two cur) pl subs)
      end.
    (* layer_layout.rs:225-238 *)
    Definition solve_fixed (id layer : nat) : option Layout :=
      let* X := lookup id ctxs in
      let* C := nth_error (x_lcs X) layer in
      let* p := merge_layouts [] (seq 0 (length (lc_vars C))) in
      Some (LDense id layer p).
  End Solve.
  (* layer_layout.rs:204-223 *)
  Fixpoint solve (fuel : nat) (reorder : bool) (ctxs : list (nat * Ctx)) (id layer : nat) : option Layout :=
    match fuel with
    | 0 => None
    | S fuel =>
        let* X := lookup id ctxs in
        if (id =? 0) && (((layer =? 0) && negb reorder) || (layer =? x_out X)) then solve_fixed ctxs id layer
        else solve_normal ctxs (solve fuel reorder ctxs) id layer
    end.

  (* ------------------------------------------------------------ wires, wire.rs *)
  (* wire.rs:99-125: the slots of the variables *)
  Definition layout_slots (L : Layout) : list (nat * nat) :=   (* slot, index of variable *)
    match L with
    | LDense _ _ p => flat_map (fun q => match snd q with Some v => [(fst q, v)] | None => [] end) (combine (seq 0 (length p)) p)
    | LSparse _ _ _ p _ => p
    end.
  Definition layout_query (L : Layout) (vs : list nat) : option (list (nat * nat)) :=   (* variable, slot *)
    let* l := omap (fun p => let* v := nth_error vs (snd p) in Some (v, fst p)) (layout_slots L) in
    let* _ := guard (nodupb (map fst l)) in Some l.
  (* wire.rs:58-84: the smallest aligned block that holds all positions: its offset and size *)
  (* the code's shifts, on 64-bit numbers *)
  Definition smear64 (x : nat) : nat :=
    let x := Nat.lor x (Nat.shiftr x 1) in let x := Nat.lor x (Nat.shiftr x 2) in let x := Nat.lor x (Nat.shiftr x 4) in
    let x := Nat.lor x (Nat.shiftr x 8) in let x := Nat.lor x (Nat.shiftr x 16) in Nat.lor x (Nat.shiftr x 32).
  (* the same without the bound of 64 bits: all bits below the highest one set; LayBlock.v: smear64 x = smear x for x < 2^64 *)
  Definition smear (x : nat) : nat := if x =? 0 then 0 else Nat.ones (S (Nat.log2 x)).
  Definition block (ps : list nat) : nat * nat :=
    match ps with
    | [] => (0, 1)
    | p :: t =>
        let l := fold_left Nat.min t p in
        let r := fold_left Nat.max t p in
        let x := smear (Nat.lxor l r) in
        let x := Nat.lxor x (Nat.shiftr x 1) in
        let n := if x =? 0 then 1 else 2 * x in
        (Nat.ldiff l (n - 1), n)
    end.
  (* wire.rs:29-96: the layout a sub-circuit sees in a layer of its parent; vs: variables of the parent, fs: what they are in the sub-circuit *)
  Definition query (pos : list (nat * nat)) (vs fs : list nat) (svars : list nat) (cid lid : nat) : option (Layout * nat) :=
    match vs with
    | [] => Some (LDense cid lid [None], 0)
    | _ =>
        let ps := map (fun x => lookup x pos) vs in
        let '(off, n) := block (flat_map (fun o => match o with Some p => [p] | None => [] end) ps) in
        let* pl := ofold (fun pl p => match p with
                      | (Some p, f) => let* _ := guard (off <=? p) in vset pl (p - off) (Some f)
                      | (None, _) => Some pl end) (combine ps fs) (repeat None n) in
        Some (LDense cid lid (map (fun o => match o with Some f => index_of f svars | None => None end) pl), off)
    end.

  Section Connect.
    Variable ctxs : list (nat * Ctx).
    (* wire.rs:163-205: the layout of call k in layer j, and where it starts; layouts already part of a sparse layout take precedence *)
    Definition sub_layout (X : Ctx) (layouts : list Layout) (lqs : list (list (nat * nat))) (k j : nat) : option (Layout * nat) :=
      let* l := nth_error (x_calls X) k in
      let* Xs := lookup (cl_sub l) ctxs in
      let* L := nth_error layouts j in
      let q := if j =? end_of X k then
                 let* pos := nth_error lqs j in let* Cs := nth_error (x_lcs Xs) (x_out Xs) in
                 query pos (cl_outs l) (outputs (x_c Xs)) (lc_vars Cs) (cl_sub l) (x_out Xs)
               else if j =? start_of X k then
                 let* pos := nth_error lqs j in let* Cs := nth_error (x_lcs Xs) 0 in
                 query pos (cl_ins l) (seq 1 (length (cl_ins l))) (lc_vars Cs) (cl_sub l) 0
               else None in
      match L with
      | LDense _ _ _ => q
      | LSparse _ _ _ _ subs => match find (fun s => snd s =? k) (rev subs) with Some (Ls, off, _) => Some (Ls, off) | None => q end
      end.

    (* wire.rs:233-274: one child segment *)
    Fixpoint add_child (chs : list (nat * list Alloc)) (sid : nat) (a : Alloc) : list (nat * list Alloc) :=
      match chs with
      | [] => [(sid, [a])]
      | (s, al) :: chs => if s =? sid then (s, al ++ [a]) :: chs else (s, al) :: add_child chs sid a
      end.
    (* a call with its segments and its place in every layer *)
    Record Sub := { sb_k : nat; sb_ids : list nat; sb_offs : list nat }.
    (* InputUsize::from_vec: only one layer unless wires cross layers *)
    Definition from_vec (l : list nat) : option (list nat) := if cross || (length l =? 1) then Some l else None.
    Definition child_alloc (X : Ctx) (Xs : Ctx) (s : Sub) (i : nat) : option (nat * Alloc) :=   (* i: output layer in the parent *)
      let st := start_of X (sb_k s) in
      let* sid := nth_error (sb_ids s) (i - st - 1) in
      let* u := nth_error (x_used Xs) (i - st) in
      let* offs := omap (nth_error (sb_offs s)) (rev (seq u (i - st - u))) in
      let* offs := from_vec offs in
      let* o := nth_error (sb_offs s) (i - st) in
      Some (sid, {| a_in := offs; a_out := o |}).
    Definition children_at (X : Ctx) (sbs : list Sub) (i : nat) : option (list (nat * list Alloc)) :=
      ofold (fun chs s =>
        if (start_of X (sb_k s) <? i) && (i <=? end_of X (sb_k s)) then
          let* l := nth_error (x_calls X) (sb_k s) in
          let* Xs := lookup (cl_sub l) ctxs in
          let* p := child_alloc X Xs s i in Some (add_child chs (fst p) (snd p))
        else Some chs) sbs [].

    (* gates, tagged by the vector they go to *)
    Definition mkg (k : Kind) (o : nat) (c : Coef F) : UG F := {| g_in := k; g_out := o; g_coef := c |}.
    (* wire.rs:296-350: the gate of a term *)
    Definition term_gate (aq : list (nat * nat)) (o : nat) (t : Term F) : option (UG F) :=
      match vars t with
      | VConst => Some (mkg KConst o (CConst (coef t)))
      | VLinear v => let* p := lookup v aq in Some (mkg (KAdd (mkInp 0 p)) o (CConst (coef t)))
      | VQuad v0 v1 => let* x := lookup v0 aq in let* y := lookup v1 aq in
          Some (if x <? y then mkg (KMul (mkInp 0 x) (mkInp 0 y)) o (CConst (coef t)) else mkg (KMul (mkInp 0 y) (mkInp 0 x)) o (CConst (coef t)))
      | VCustom ty l => let* ps := omap (fun v => let* p := lookup v aq in Some (mkInp 0 p)) l in Some (mkg (KCustom ty ps) o (CConst (coef t)))
      | VRandom v => let* p := lookup v aq in Some (mkg (KAdd (mkInp 0 p)) o CRandom)
      end.
    (* wire.rs:279-352: the gates of layer i of a variable whose first layer is i; unplaced variables are skipped, in the last layer only *)
    Definition first_gates (X : Ctx) (lqs : list (list (nat * nat))) (i x : nat) : option (list (UG F)) :=
      if getn (x_min X) x =? i then
        let* aq := nth_error lqs (i - 1) in let* bq := nth_error lqs i in
        match lookup x bq with
        | None => if i =? x_out X then Some [] else None
        | Some o => match nth_error (x_kinds X) x with
                    | Some (OCoef c) => Some [mkg KConst o c]
                    | Some (OExpr e) => omap (term_gate aq o) e
                    | _ => Some []
                    end
        end
      else Some [].
    (* wire.rs:353-399: relays into layer i *)
    Definition relay_gate (X : Ctx) (lqs : list (list (nat * nat))) (x cur next : nat) : option (list (UG F)) :=
      let* aq := nth_error lqs cur in let* bq := nth_error lqs next in
      match lookup x bq with
      | None => if next =? x_out X then Some [] else None
      | Some o => let* p := lookup x aq in Some [mkg (KAdd (mkInp (next - cur - 1) p)) o (CConst f1)]
      end.
    Definition relay_gates (X : Ctx) (lqs : list (list (nat * nat))) (i x : nat) : option (list (UG F)) :=
      if cross then
        let* l := omap (fun p => if snd p =? i then relay_gate X lqs x (fst p) (snd p) else Some []) (pairs (nth x (x_occ X) [])) in Some (concat l)
      else if (getn (x_min X) x <? i) && (i <=? getn (x_max X) x) then relay_gate X lqs x (i - 1) i else Some [].
    (* wire.rs:402-456: the combined constraint of layer i *)
    Definition cc_gates (X : Ctx) (layouts : list Layout) (lqs : list (list (nat * nat))) (i : nat) : option (list (UG F)) :=
      match nth_error (x_cc X) i with
      | Some (Some c) =>
          let* aq := nth_error lqs (i - 1) in let* bq := nth_error lqs i in
          let* o := lookup (cc_id c) bq in
          let* g1 := omap (fun v => let* p := lookup v aq in Some (mkg (KAdd (mkInp 0 p)) o (if x_nv X <=? v then CConst f1 else CRandom))) (cc_vars c) in
          let* g2 := omap (fun k =>
                       let* l := nth_error (x_calls X) k in
                       let* Xs := lookup (cl_sub l) ctxs in
                       let j := i - 1 - start_of X k in
                       let* cs := nth_error (x_cc Xs) j in
                       let* cs := cs in
                       let* Cs := nth_error (x_lcs Xs) j in
                       let* v := index_of (cc_id cs) (lc_vars Cs) in
                       let* L := sub_layout X layouts lqs k (i - 1) in
                       let* sp := find (fun p => snd p =? v) (layout_slots (fst L)) in
                       Some (mkg (KAdd (mkInp 0 (snd L + fst sp))) o (CConst f1))) (cc_subs c) in
          Some (g1 ++ g2)
      | _ => Some []
      end.
    Definition own_gates (X : Ctx) (layouts : list Layout) (lqs : list (list (nat * nat))) (i : nat) : option (list (UG F)) :=
      let* gs := omap (fun x => let* a := first_gates X lqs i x in let* b := relay_gates X lqs i x in Some (a ++ b)) (seq 0 (x_nv X)) in
      let* cs := cc_gates X layouts lqs i in
      Some (concat gs ++ cs).
    (* the four gate vectors of a segment *)
    Definition sel_mul (g : UG F) : list (Gate F (Inp * Inp)) := match g_in g with KMul a b => [{| g_in := (a, b); g_out := g_out g; g_coef := g_coef g |}] | _ => [] end.
    Definition sel_add (g : UG F) : list (Gate F Inp) := match g_in g with KAdd a => [{| g_in := a; g_out := g_out g; g_coef := g_coef g |}] | _ => [] end.
    Definition sel_const (g : UG F) : list (Gate F unit) := match g_in g with KConst => [{| g_in := tt; g_out := g_out g; g_coef := g_coef g |}] | _ => [] end.
    Definition sel_custom (g : UG F) : list (Gate F (nat * list Inp)) := match g_in g with KCustom t l => [{| g_in := (t, l); g_out := g_out g; g_coef := g_coef g |}] | _ => [] end.
    Definition make_segment (X : Ctx) (layouts : list Layout) (lqs : list (list (nat * nat))) (sbs : list Sub) (i : nat) : option (Segment F) :=
      let* u := nth_error (x_used X) i in
      let* ins := omap (fun j => let* L := nth_error layouts j in Some (ly_size L)) (rev (seq u (i - u))) in
      let* ins := from_vec ins in
      let* L := nth_error layouts i in
      let* chs := children_at X sbs i in
      let* gs := own_gates X layouts lqs i in
      Some {| s_ins := ins; s_outs := ly_size L; s_children := chs; s_muls := flat_map sel_mul gs; s_adds := flat_map sel_add gs;
              s_consts := flat_map sel_const gs; s_customs := flat_map sel_custom gs |}.
  End Connect.

  (* wire.rs:233-247: the calls one after the other; [segs] grows *)
  Fixpoint connect_subs (rec : list Layout -> list (Segment F) -> option (list (Segment F) * list nat)) (ctxs : list (nat * Ctx)) (X : Ctx)
      (layouts : list Layout) (lqs : list (list (nat * nat))) (ks : list nat) (segs : list (Segment F)) : option (list (Segment F) * list Sub) :=
    match ks with
    | [] => Some (segs, [])
    | k :: ks =>
        let* ls := omap (sub_layout ctxs X layouts lqs k) (seq (start_of X k) (S (end_of X k - start_of X k))) in
        let* r := rec (map fst ls) segs in
        let* r' := connect_subs rec ctxs X layouts lqs ks (fst r) in
        Some (fst r', {| sb_k := k; sb_ids := snd r; sb_offs := map snd ls |} :: snd r')
    end.
  (* wire.rs:127-471 *)
  Fixpoint connect (fuel : nat) (ctxs : list (nat * Ctx)) (layouts : list Layout) (segs : list (Segment F)) : option (list (Segment F) * list nat) :=
    match fuel with
    | 0 => None
    | S fuel =>
        let* L0 := hd_error layouts in
        let id := ly_circ L0 in
        let* _ := guard (forallb (fun p => (ly_circ (snd p) =? id) && (ly_layer (snd p) =? fst p)) (combine (seq 0 (length layouts)) layouts)) in
        let* X := lookup id ctxs in
        let* _ := guard (length layouts =? S (x_out X)) in
        let* lqs := omap (fun L => let* C := nth_error (x_lcs X) (ly_layer L) in layout_query L (lc_vars C)) layouts in
        let* _ := guard (forallb (fun p => forallb (fun x => is_some (lookup x (snd p))) (lc_vars (fst p))) (firstn (x_out X) (combine (x_lcs X) lqs))) in
        let* r := connect_subs (connect fuel ctxs) ctxs X layouts lqs (seq 0 (length (x_calls X))) segs in
        let* new := omap (make_segment ctxs X layouts lqs (snd r)) (seq 1 (x_out X)) in
        Some (fst r ++ new, seq (length (fst r)) (length new))
    end.

  (* ------------------------------------------------------------ all of it, compile.rs:102-146, mod.rs:26-59, input.rs *)
  (* compile.rs:148-184: sub-circuits first *)
  Fixpoint topo (fuel : nat) (cs : list (nat * Circuit DI)) (id : nat) (order : list nat) : option (list nat) :=
    match fuel with
    | 0 => None
    | S fuel =>
        if memb id order then Some order else
        let* c := lookup id cs in
        let* o := ofold (fun o l => topo fuel cs (cl_sub l) o) (calls_of c) order in
        Some (o ++ [id])
    end.
  Definition all_layers (cs : list (nat * Circuit DI)) (order : list nat) : option (list (nat * Ctx) * bool) :=
    ofold (fun st id => let* c := lookup id cs in
                        let* r := compute_layers (fst st) (id =? 0) c in
                        Some (fst st ++ [(id, fst r)], snd st || snd r)) order ([], false).
  (* input.rs *)
  Definition input_order (EMPTY : nat) (X : Ctx) (C : LC) (L : Layout) : option (list nat) :=
    match L with
    | LSparse _ _ _ _ _ => None
    | LDense _ _ _ =>
        let* l := omap (fun p => let* v := nth_error (lc_vars C) (snd p) in Some (v, fst p)) (layout_slots L) in
        Some (map (fun x => match lookup x (rev l) with Some s => s | None => EMPTY end) (seq 1 (num_inputs (x_c X))))
    end.
  Definition layer_compile (EMPTY : nat) (reorder : bool) (rc : RootCircuit DI) : option (LCircuit F * InputMapping) :=
    let fuel := S (length (circuits rc)) in
    let* order := topo fuel (circuits rc) 0 [] in
    let* r := all_layers (circuits rc) order in
    let* ctxs := omap (fun p => let* X := prepare (snd p) in Some (fst p, X)) (fst r) in
    let has := snd r in
    let* X := lookup 0 ctxs in
    let* layouts := omap (solve fuel reorder ctxs 0) (seq 0 (S (x_out X))) in
    let* sl := connect fuel ctxs layouts [] in
    let* C := nth_error (x_lcs X) 0 in
    let* L0 := nth_error layouts 0 in
    let* io := input_order EMPTY X C L0 in
    let* sid := nth_error (snd sl) 0 in
    let* s0 := nth_error (fst sl) sid in
    let* l0 := nth_error (s_ins s0) 0 in
    let h := if has then 1 else 0 in
    Some ({| l_pub := num_public_inputs rc; l_actual := length (outputs (x_c X)) + h; l_zeroes := expected_num_output_zeroes rc + h;
             l_segs := fst sl; l_layers := snd sl |},
          {| next_size := l0; mapping := io |}).
End Layering.
