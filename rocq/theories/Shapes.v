(* Model of zkcuda/shape.rs: histories of reshapes and transposes, padding to powers of two, bit orders.
   None is a panic.  usize is unbounded. *)
From Verif Require Import Prelude Topo InputMapping.
From Coq Require Import Permutation.
Open Scope nat_scope.

(* ------------------------------------------------------------ model *)
(* shape.rs:143-145 *)
Definition prod (s : list nat) : nat := fold_right Nat.mul 1 s.
(* shape.rs:147-149 *)
Definition padded_len (s : list nat) : nat := prod (map next_power_of_two s).
(* shape.rs:151-160 *)
Fixpoint prefix_from (p : nat) (s : list nat) : list nat := match s with [] => [] | d :: s => p * d :: prefix_from (p * d) s end.
Definition prefix_products (s : list nat) : list nat := 1 :: prefix_from 1 s.
(* the loops at shape.rs:222-225 and 406-409: cur, then cur moved by each multiple of step *)
Definition grow (cur : list nat) (len step : nat) : list nat := cur ++ flat_map (fun i => map (fun y => y + i * step) cur) (seq 1 (len - 1)).
(* shape.rs:218-230; dimensions from the last to the first *)
Definition spm_step (st : list nat * nat) (len : nat) : list nat * nat := (grow (fst st) len (snd st), snd st * next_power_of_two len).
Definition shape_padded_mapping (shape : list nat) : InputMapping :=
  let st := fold_left spm_step (rev shape) ([0], 1) in {| next_size := snd st; mapping := fst st |}.

(* shape.rs:232-290 *)
Section Padding.
  Context {T : Type} (d : T).
  Definition guard (b : bool) : option unit := if b then Some tt else None.
  (* shape.rs:239-247; data[data.len() - 1] is only read when there is something to fill in *)
  Definition pad1 (n : nat) (data : list T) : option (list T) :=
    let* _ := guard (length data =? n) in
    let k := next_power_of_two n - n in
    if k =? 0 then Some data else let* l := nth_error data (length data - 1) in Some (data ++ repeat l k).
  (* data.chunks_exact(k): k = 0 panics *)
  Fixpoint chunks (fuel k : nat) (data : list T) : list (list T) :=
    match fuel with
    | 0 => []
    | S fuel => if k <=? length data then firstn k data :: chunks fuel k (skipn k data) else []
    end.
  (* rows already padded: the last one is repeated *)
  Definition pad_rows (n : nat) (rows : list (list T)) : option (list T) :=
    let k := next_power_of_two n - n in
    if k =? 0 then Some (concat rows) else let* l := nth_error rows (length rows - 1) in Some (concat (rows ++ repeat l k)).
  (* shape.rs:248-273; src[n_cols - 1] is read for every row *)
  Definition pad2 (n m : nat) (data : list T) : option (list T) :=
    let* _ := guard (length data =? n * m) in
    let* rows := omap (fun i => let r := firstn m (skipn (i * m) data) in
                                let* l := nth_error r (m - 1) in Some (r ++ repeat l (next_power_of_two m - m))) (seq 0 n) in
    let* _ := guard ((next_power_of_two n <=? n) || (0 <? n)) in
    pad_rows n rows.
  Fixpoint padding (shape : list nat) (data : list T) : option (list T) :=
    match shape with
    | [] => let* _ := guard (length data =? 1) in Some data
    | [n] => pad1 n data
    | [n; m] => pad2 n m data
    | n :: shape =>
        let* _ := guard (negb (n =? 0) && (length data mod n =? 0)) in
        let k := length data / n in
        let* _ := guard (0 <? k) in
        let* rows := omap (padding shape) (chunks (length data) k data) in
        pad_rows n rows
    end.
End Padding.

(* shape.rs:20-30 *)
Record Entry := { e_shape : list nat; e_axes : option (list nat) }.
Record History := { h_len : nat; h_entries : list Entry }.
(* shape.rs:292-301 *)
Definition h_new (s : list nat) : History := {| h_len := prod s; h_entries := [{| e_shape := s; e_axes := None |}] |}.
(* the last entry and those before it *)
Definition split_last {A} (l : list A) : option (list A * A) := match rev l with [] => None | x :: r => Some (rev r, x) end.
(* shape.rs:424-440 *)
Definition h_reshape (h : History) (s : list nat) : option History :=
  let* _ := guard (prod s =? h_len h) in
  let* p := split_last (h_entries h) in
  let new := {| e_shape := s; e_axes := None |} in
  Some {| h_len := h_len h; h_entries := match e_axes (snd p) with None => fst p ++ [new] | Some _ => h_entries h ++ [new] end |}.
(* shape.rs:442-463 *)
Definition h_transpose (h : History) (axes : list nat) : option History :=
  let* p := split_last (h_entries h) in
  let e := snd p in
  let* _ := guard (length axes =? length (e_shape e)) in
  let* new := match e_axes e with None => Some axes | Some cur => omap (nth_error cur) axes end in
  Some {| h_len := h_len h; h_entries := fst p ++ [{| e_shape := e_shape e; e_axes := Some new |}] |}.
(* shape.rs:78-83 *)
Definition transposed_shape (e : Entry) : option (list nat) := match e_axes e with None => Some (e_shape e) | Some a => omap (nth_error (e_shape e)) a end.
(* shape.rs:378-384 *)
Definition h_shape (h : History) : option (list nat) := let* p := split_last (h_entries h) in transposed_shape (snd p).
(* shape.rs:387-389 *)
Definition is_identity (h : History) : bool := forallb (fun e => match e_axes e with None => true | Some _ => false end) (h_entries h).
(* shape.rs:397-410: the source index of every position of one transposed entry *)
Definition entry_idx (shape axes : list nat) : option (list nat) :=
  let ts := rev shape in
  let mul := prefix_products ts in
  fold_left (fun cur x => let* cur := cur in
    let* _ := guard (x <? length ts) in
    let* len := nth_error ts (length ts - x - 1) in
    let* step := nth_error mul (length ts - x - 1) in
    Some (grow cur len step)) (rev axes) (Some [0]).
(* shape.rs:391-421 *)
Fixpoint all_idx (es : list Entry) (idx : option (list nat)) : option (option (list nat)) :=
  match es with
  | [] => Some idx
  | e :: es =>
      match e_axes e with
      | None => Some idx                            (* break *)
      | Some axes =>
          let* cur := entry_idx (e_shape e) axes in
          match idx with
          | None => all_idx es (Some cur)
          | Some t => let* _ := guard (length t =? length cur) in let* c := omap (nth_error t) cur in all_idx es (Some c)
          end
      end
  end.
Definition permute_vec {T} (h : History) (s : list T) : option (list T) :=
  let* idx := all_idx (h_entries h) None in
  match idx with None => Some s | Some idx => omap (nth_error s) idx end.

(* shape.rs:84-110: the dimensions (with their names) grouped by the dimensions of the entry; [seg] is the open group *)
Fixpoint segments (shape : list (nat * nat)) (self : list nat) (cur target : nat) (seg : list (nat * nat)) : option (list (list (nat * nat))) :=
  match shape with
  | [] => let* _ := guard ((cur =? target) && (length self =? 0)) in Some [seg]
  | x :: shape =>
      if cur =? target then
        match self with [] => None | t :: self => let* r := segments shape self (fst x) t [x] in Some (seg :: r) end
      else segments shape self (cur * fst x) target (seg ++ [x])
  end.
Definition transpose_shape (e : Entry) (shape : list (nat * nat)) : option (list (nat * nat)) :=
  match e_axes e with
  | None => Some shape
  | Some axes =>
      (* there is no group before the first dimension *)
      let* segs := segments shape (e_shape e) 1 1 [] in
      let* r := omap (nth_error (tl segs)) axes in Some (concat r)
  end.
(* trailing_zeros of a power of two *)
Definition bits_of (x : nat) : nat := Nat.log2 (next_power_of_two x).
(* shape.rs:328-376 *)
Definition named (shape : list nat) : list (nat * nat) := combine shape (seq 0 (length shape)).
Fixpoint ofold {A B} (f : A -> B -> option A) (l : list B) (a : A) : option A :=
  match l with [] => Some a | x :: l => let* a := f a x in ofold f l a end.
Fixpoint sums_from (p : nat) (s : list nat) : list nat := match s with [] => [] | d :: s => p + d :: sums_from (p + d) s end.
Definition bit_order (h : History) (shape : list nat) : option (list nat * list nat) :=
  let* cur := ofold (fun cur e => transpose_shape e cur) (h_entries h) (named shape) in
  let len := map bits_of shape in
  let start := 0 :: sums_from 0 (rev len) in
  let* order := omap (fun x => let* n := nth_error len (snd x) in
                               let* _ := guard (snd x <? length len) in
                               let* k := nth_error start (length len - snd x - 1) in Some (seq k n)) (rev cur) in
  Some (map fst cur, concat order).
