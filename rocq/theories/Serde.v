(* Model of serialisation: circuit/layered/serde.rs, circuit/ir/{common,source,hint_normalized}/serde.rs, expr.rs:470-500,
   layered/witness.rs:296-345, input_mapping.rs:5-9.
   The primitive layouts (usize: 8 bytes little endian, u8 and bool: one byte, U256: 32 bytes, field element: the canonical
   representative on w bytes, non-canonical bytes rejected; Vec: length then elements; HashMap: length then pairs in any
   order; derive(ExpSerde): the fields in order) are those of the external crates serdes and arith and are assumed, not
   read in /repo. *)
From Verif Require Import Prelude Field Expr Topo Hints Ir IrInst Layered InputMapping Witness.
Local Open Scope nat_scope.

Definition bytes := list N.
Definition Rd (A : Type) := bytes -> option (A * bytes).
Definition ret {A} (a : A) : Rd A := fun l => Some (a, l).
Definition rfail {A} : Rd A := fun _ => None.
Definition rbind {A B} (p : Rd A) (k : A -> Rd B) : Rd B := fun l => match p l with Some (a, r) => k a r | None => None end.
Notation "x <- p ;; q" := (rbind p (fun x => q)) (at level 61, p at next level, right associativity).

(* ------------------------------------------------------------ primitives (assumed layouts, see the header) *)
Fixpoint enc (k : nat) (n : N) : bytes := match k with 0 => [] | S k => (n mod 256)%N :: enc k (n / 256)%N end.
Fixpoint dec (k : nat) : Rd N :=
  match k with
  | 0 => ret 0%N
  | S k => fun l => match l with [] => None | b :: l => (v <- dec k ;; ret (b + 256 * v)%N) l end
  end.
Definition ser_u8 (n : N) : bytes := enc 1 n.
Definition de_u8 : Rd N := dec 1.
Definition ser_u64 (n : N) : bytes := enc 8 n.
Definition de_u64 : Rd N := dec 8.
Definition ser_usize (n : nat) : bytes := ser_u64 (N.of_nat n).
Definition de_usize : Rd nat := n <- de_u64 ;; ret (N.to_nat n).
Definition ser_bool (b : bool) : bytes := ser_u8 (if b then 1 else 0)%N.
Definition de_bool : Rd bool := b <- de_u8 ;; if (b =? 0)%N then ret false else if (b =? 1)%N then ret true else rfail.
Definition ser_u256 (z : Z) : bytes := enc 32 (Z.to_N z).
Definition de_u256 : Rd Z := n <- dec 32 ;; ret (Z.of_N n).
Fixpoint de_n {A} (n : nat) (p : Rd A) : Rd (list A) :=
  match n with 0 => ret [] | S n => a <- p ;; t <- de_n n p ;; ret (a :: t) end.
Definition ser_vec {A} (f : A -> bytes) (l : list A) : bytes := ser_usize (length l) ++ flat_map f l.
Definition de_vec {A} (p : Rd A) : Rd (list A) := n <- de_usize ;; de_n n p.
Definition ser_pair {A B} (f : A -> bytes) (g : B -> bytes) (p : A * B) : bytes := f (fst p) ++ g (snd p).
Definition de_pair {A B} (p : Rd A) (q : Rd B) : Rd (A * B) := a <- p ;; b <- q ;; ret (a, b).
(* a HashMap as an association list: inserting a key again replaces its value *)
Fixpoint map_insert {B} (k : nat) (v : B) (m : list (nat * B)) : list (nat * B) :=
  match m with [] => [(k, v)] | (k', v') :: m => if k =? k' then (k, v) :: m else (k', v') :: map_insert k v m end.
Definition de_map {B} (q : Rd B) : Rd (list (nat * B)) :=
  l <- de_vec (de_pair de_usize q) ;; ret (fold_left (fun m p => map_insert (fst p) (snd p) m) l []).

Section Serde.
  Context {F : Fld}.
  Variable w : nat.                 (* bytes of one field element *)
  Definition ser_f (x : F) : bytes := enc w (Z.to_N (toZ x)).
  Definition de_f : Rd F := n <- dec w ;; if (Z.of_N n <? fmod F)%Z then ret (ofZ (Z.of_N n)) else rfail.

  (* ------------------------------------------------------------ layered circuits *)
  (* layered/serde.rs:13-49 *)
  Definition ser_coef (c : Coef F) : bytes :=
    match c with CConst c => ser_u8 1 ++ ser_f c | CRandom => ser_u8 2 | CPub i => ser_u8 3 ++ ser_usize i end.
  Definition de_coef : Rd (Coef F) :=
    t <- de_u8 ;;
    if (t =? 1)%N then c <- de_f ;; ret (CConst c)
    else if (t =? 2)%N then ret CRandom
    else if (t =? 3)%N then i <- de_usize ;; ret (CPub i)
    else rfail.
  Section Cross.
    Variable cross : bool.          (* CrossLayerInputType or NormalInputType *)
    (* derive on layered/mod.rs:130-140 *)
    Definition ser_inp (i : Inp) : bytes := if cross then ser_usize (il i) ++ ser_usize (io i) else ser_usize (io i).
    Definition de_inp : Rd Inp :=
      if cross then l <- de_usize ;; o <- de_usize ;; ret (mkInp l o) else o <- de_usize ;; ret (mkInp 0 o).
    (* derive on layered/mod.rs:194-202 *)
    Definition ser_iu (l : list nat) : bytes := if cross then ser_vec ser_usize l else ser_usize (hd 0 l).
    Definition de_iu : Rd (list nat) := if cross then de_vec de_usize else x <- de_usize ;; ret [x].
    (* layered/serde.rs:51-73, for two, one and no inputs *)
    Definition ser_gate {A} (f : A -> bytes) (g : @Gate F A) : bytes := f (g_in g) ++ ser_usize (g_out g) ++ ser_coef (g_coef g).
    Definition de_gate {A} (p : Rd A) : Rd (@Gate F A) :=
      i <- p ;; o <- de_usize ;; c <- de_coef ;; ret {| g_in := i; g_out := o; g_coef := c |}.
    Definition ser_mul_in (p : Inp * Inp) : bytes := ser_inp (fst p) ++ ser_inp (snd p).
    Definition de_mul_in : Rd (Inp * Inp) := a <- de_inp ;; b <- de_inp ;; ret (a, b).
    Definition ser_const_in (u : unit) : bytes := [].
    Definition de_const_in : Rd unit := ret tt.
    (* layered/serde.rs:75-95 *)
    Definition ser_custom_in (p : nat * list Inp) : bytes := ser_usize (fst p) ++ ser_vec ser_inp (snd p).
    Definition de_custom_in : Rd (nat * list Inp) := t <- de_usize ;; l <- de_vec de_inp ;; ret (t, l).
    (* derive on layered/mod.rs:348-352; ChildSpec = (usize, Vec<Allocation>) *)
    Definition ser_alloc (a : Alloc) : bytes := ser_iu (a_in a) ++ ser_usize (a_out a).
    Definition de_alloc : Rd Alloc := i <- de_iu ;; o <- de_usize ;; ret {| a_in := i; a_out := o |}.
    Definition ser_child : nat * list Alloc -> bytes := ser_pair ser_usize (ser_vec ser_alloc).
    Definition de_child : Rd (nat * list Alloc) := de_pair de_usize (de_vec de_alloc).
    (* layered/serde.rs:97-127 *)
    Definition ser_seg (s : @Segment F) : bytes :=
      ser_iu (s_ins s) ++ ser_usize (s_outs s) ++ ser_vec ser_child (s_children s)
      ++ ser_vec (ser_gate ser_mul_in) (s_muls s) ++ ser_vec (ser_gate ser_inp) (s_adds s)
      ++ ser_vec (ser_gate ser_const_in) (s_consts s) ++ ser_vec (ser_gate ser_custom_in) (s_customs s).
    Definition de_seg : Rd (@Segment F) :=
      i <- de_iu ;; o <- de_usize ;; ch <- de_vec de_child ;;
      m <- de_vec (de_gate de_mul_in) ;; a <- de_vec (de_gate de_inp) ;;
      c <- de_vec (de_gate de_const_in) ;; u <- de_vec (de_gate de_custom_in) ;;
      ret {| s_ins := i; s_outs := o; s_children := ch; s_muls := m; s_adds := a; s_consts := c; s_customs := u |}.
    (* layered/serde.rs:129 *)
    Definition MAGIC : N := 3914834606642317635.
    (* layered/serde.rs:131-170 *)
    Definition ser_layered (c : @LCircuit F) : bytes :=
      ser_u64 MAGIC ++ ser_u256 (fmod F) ++ ser_usize (l_pub c) ++ ser_usize (l_actual c) ++ ser_usize (l_zeroes c)
      ++ ser_vec ser_seg (l_segs c) ++ ser_vec ser_usize (l_layers c).
    Definition de_layered : Rd (@LCircuit F) :=
      magic <- de_u64 ;;
      if negb (magic =? MAGIC)%N then rfail else
      modulus <- de_u256 ;;
      if negb (modulus =? fmod F)%Z then rfail else
      p <- de_usize ;; a <- de_usize ;; z <- de_usize ;; s <- de_vec de_seg ;; l <- de_vec de_usize ;;
      ret {| l_pub := p; l_actual := a; l_zeroes := z; l_segs := s; l_layers := l |}.
  End Cross.

  (* ------------------------------------------------------------ intermediate representation *)
  (* expr.rs:470-500 *)
  Definition ser_lc (l : LinComb F) : bytes :=
    ser_usize (length (lc_terms l)) ++ flat_map ser_usize (map fst (lc_terms l)) ++ flat_map ser_f (map snd (lc_terms l)) ++ ser_f (lc_const l).
  Definition de_lc : Rd (LinComb F) :=
    n <- de_usize ;; vs <- de_n n de_usize ;; cs <- de_n n de_f ;; c <- de_f ;; ret {| lc_terms := combine vs cs; lc_const := c |}.
  (* hint_normalized/serde.rs:10-52; a hint id is a usize *)
  Definition ser_hinsn (i : HInsn F) : bytes :=
    match i with
    | HLin l => ser_u8 1 ++ ser_lc l
    | HMul l => ser_u8 2 ++ ser_vec ser_usize l
    | HHint h l n => ser_u8 3 ++ ser_u64 h ++ ser_vec ser_usize l ++ ser_usize n
    | HConst c => ser_u8 4 ++ ser_coef c
    | HCall id l n => ser_u8 5 ++ ser_usize id ++ ser_vec ser_usize l ++ ser_usize n
    | HGate t l => ser_u8 6 ++ ser_usize t ++ ser_vec ser_usize l
    end.
  (* hint_normalized/serde.rs:53-87 *)
  Definition de_hinsn : Rd (HInsn F) :=
    t <- de_u8 ;;
    if (t =? 1)%N then l <- de_lc ;; ret (HLin l)
    else if (t =? 2)%N then l <- de_vec de_usize ;; ret (HMul l)
    else if (t =? 3)%N then h <- de_u64 ;; l <- de_vec de_usize ;; n <- de_usize ;; ret (HHint h l n)
    else if (t =? 4)%N then c <- de_coef ;; ret (HConst c)
    else if (t =? 5)%N then id <- de_usize ;; l <- de_vec de_usize ;; n <- de_usize ;; ret (HCall id l n)
    else if (t =? 6)%N then g <- de_usize ;; l <- de_vec de_usize ;; ret (HGate g l)
    else rfail.
  (* the discriminants of source/mod.rs:69-95 *)
  Definition boolop_tag (op : BoolOp) : N := match op with BXor => 1 | BOr => 2 | BAnd => 3 end%N.
  Definition unop_tag (op : UnOp) : N :=
    match op with UDiv => 1 | UPow => 2 | UIntDiv => 3 | UMod => 4 | UShiftL => 5 | UShiftR => 6 | ULesserEq => 7 | UGreaterEq => 8
    | ULesser => 9 | UGreater => 10 | UEq => 11 | UNotEq => 12 | UBoolOr => 13 | UBoolAnd => 14 | UBitOr => 15 | UBitAnd => 16 | UBitXor => 17 end%N.
  (* source/serde.rs:111-122 *)
  Definition de_boolop : Rd BoolOp :=
    t <- de_u8 ;; if (t =? 1)%N then ret BXor else if (t =? 2)%N then ret BOr else if (t =? 3)%N then ret BAnd else rfail.
  (* source/serde.rs:141-166 *)
  Definition de_unop : Rd UnOp :=
    t <- de_u8 ;;
    match t with
    | 1 => ret UDiv | 2 => ret UPow | 3 => ret UIntDiv | 4 => ret UMod | 5 => ret UShiftL | 6 => ret UShiftR
    | 7 => ret ULesserEq | 8 => ret UGreaterEq | 9 => ret ULesser | 10 => ret UGreater | 11 => ret UEq | 12 => ret UNotEq
    | 13 => ret UBoolOr | 14 => ret UBoolAnd | 15 => ret UBitOr | 16 => ret UBitAnd | 17 => ret UBitXor
    | _ => rfail
    end%N.
  (* source/serde.rs:10-91 *)
  Definition ser_sinsn (i : SInsn F) : bytes :=
    match i with
    | SLin l => ser_u8 1 ++ ser_lc l
    | SMul l => ser_u8 2 ++ ser_vec ser_usize l
    | SDiv x y c => ser_u8 3 ++ ser_usize x ++ ser_usize y ++ ser_bool c
    | SBool x y op => ser_u8 4 ++ ser_usize x ++ ser_usize y ++ ser_u8 (boolop_tag op)
    | SIsZero x => ser_u8 5 ++ ser_usize x
    | SCommit l => ser_u8 6 ++ ser_vec ser_usize l
    | SHint h l n => ser_u8 7 ++ ser_u64 h ++ ser_vec ser_usize l ++ ser_usize n
    | SConst c => ser_u8 8 ++ ser_coef c
    | SCall id l n => ser_u8 9 ++ ser_usize id ++ ser_vec ser_usize l ++ ser_usize n
    | SUnOp x y op => ser_u8 10 ++ ser_usize x ++ ser_usize y ++ ser_u8 (unop_tag op)
    | SSelect c t e => ser_u8 11 ++ ser_usize c ++ ser_usize t ++ ser_usize e
    | SGate t l => ser_u8 12 ++ ser_usize t ++ ser_vec ser_usize l
    | SToBin x n => ser_u8 13 ++ ser_usize x ++ ser_usize n
    end.
  (* source/serde.rs:93-184 *)
  Definition de_sinsn : Rd (SInsn F) :=
    t <- de_u8 ;;
    if (t =? 1)%N then l <- de_lc ;; ret (SLin l)
    else if (t =? 2)%N then l <- de_vec de_usize ;; ret (SMul l)
    else if (t =? 3)%N then x <- de_usize ;; y <- de_usize ;; c <- de_bool ;; ret (SDiv x y c)
    else if (t =? 4)%N then x <- de_usize ;; y <- de_usize ;; op <- de_boolop ;; ret (SBool x y op)
    else if (t =? 5)%N then x <- de_usize ;; ret (SIsZero x)
    else if (t =? 6)%N then l <- de_vec de_usize ;; ret (SCommit l)
    else if (t =? 7)%N then h <- de_u64 ;; l <- de_vec de_usize ;; n <- de_usize ;; ret (SHint h l n)
    else if (t =? 8)%N then c <- de_coef ;; ret (SConst c)
    else if (t =? 9)%N then id <- de_usize ;; l <- de_vec de_usize ;; n <- de_usize ;; ret (SCall id l n)
    else if (t =? 10)%N then x <- de_usize ;; y <- de_usize ;; op <- de_unop ;; ret (SUnOp x y op)
    else if (t =? 11)%N then c <- de_usize ;; t <- de_usize ;; e <- de_usize ;; ret (SSelect c t e)
    else if (t =? 12)%N then g <- de_usize ;; l <- de_vec de_usize ;; ret (SGate g l)
    else if (t =? 13)%N then x <- de_usize ;; n <- de_usize ;; ret (SToBin x n)
    else rfail.
  (* source/mod.rs:103-107 *)
  Definition con_tag (t : ConType) : N := match t with TZero => 1 | TNonZero => 2 | TBool => 3 end%N.
  (* source/serde.rs:187-209 *)
  Definition ser_scon (c : ConType * nat) : bytes := ser_u8 (con_tag (fst c)) ++ ser_usize (snd c).
  Definition de_scon : Rd (ConType * nat) :=
    t <- (t <- de_u8 ;; if (t =? 1)%N then ret TZero else if (t =? 2)%N then ret TNonZero else if (t =? 3)%N then ret TBool else rfail) ;;
    v <- de_usize ;; ret (t, v).

  Section Root.
    Variable I : IRC F.
    Variable si : Insn I -> bytes. Variable di : Rd (Insn I).
    Variable sc : Con I -> bytes. Variable dc : Rd (Con I).
    (* common/serde.rs:11-35 *)
    Definition ser_circuit (c : Circuit I) : bytes :=
      ser_vec si (instructions c) ++ ser_vec sc (constraints c) ++ ser_vec ser_usize (outputs c) ++ ser_usize (num_inputs c).
    Definition de_circuit : Rd (Circuit I) :=
      i <- de_vec di ;; k <- de_vec dc ;; o <- de_vec de_usize ;; n <- de_usize ;;
      ret {| instructions := i; constraints := k; outputs := o; num_inputs := n |}.
    (* common/serde.rs:37-70; [entries] is the order in which the HashMap is iterated *)
    Definition ser_root (config : nat) (entries : list (nat * Circuit I)) (rc : RootCircuit I) : bytes :=
      ser_usize config ++ ser_usize (num_public_inputs rc) ++ ser_usize (expected_num_output_zeroes rc)
      ++ ser_vec (ser_pair ser_usize ser_circuit) entries.
    Definition de_root (config : nat) : Rd (RootCircuit I) :=
      id <- de_usize ;;
      if negb (id =? config) then rfail else
      p <- de_usize ;; z <- de_usize ;; m <- de_map de_circuit ;;
      ret {| num_public_inputs := p; expected_num_output_zeroes := z; circuits := m |}.
  End Root.

  (* ------------------------------------------------------------ witnesses, input mappings *)
  Section Wit.
    Variable P : nat.                   (* PACK_SIZE *)
    (* witness.rs:322-344; None = panic of the iterator *)
    Definition ser_witness (x : @Witness F) : option bytes :=
      let* vs := match values x with
                 | Scalar vs => Some vs
                 | SimdV _ => let* it := iter_scalar P x in Some (flat_map (fun p => fst p ++ snd p) it)
                 end in
      Some (ser_usize (num_witnesses x) ++ ser_usize (nin x) ++ ser_usize (npub x) ++ ser_u256 (fmod F) ++ flat_map ser_f vs).
    (* witness.rs:83-85 *)
    Definition use_simd (n : nat) : bool := (1 <? n) && (1 <? P).
    (* witness.rs:297-320; convert_to_simd may panic, which is no success either *)
    Definition de_witness : Rd (@Witness F) :=
      n <- de_usize ;; a <- de_usize ;; b <- de_usize ;; modulus <- de_u256 ;;
      if negb (modulus =? fmod F)%Z then rfail else
      vs <- de_n (n * (a + b)) de_f ;;
      let x := {| num_witnesses := n; nin := a; npub := b; values := Scalar vs |} in
      if use_simd n then match convert_to_simd P x with Some x => ret x | None => rfail end else ret x.
  End Wit.
  (* input_mapping.rs:5-9 (derive) *)
  Definition ser_mapping (m : InputMapping) : bytes := ser_usize (next_size m) ++ ser_vec ser_usize (mapping m).
  Definition de_mapping : Rd InputMapping := n <- de_usize ;; l <- de_vec de_usize ;; ret {| next_size := n; mapping := l |}.
End Serde.
