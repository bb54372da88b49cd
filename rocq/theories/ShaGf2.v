(* Model of circuit-std-rs/src/sha256/gf2_utils.rs and gf2.rs: SHA-256 over GF(2).  A word ([Variable; 32], gf2_utils.rs:3) is the list of
   its 32 handles, most significant bit first.  [api.constant(0); n] makes one call and copies the handle. *)
From Verif Require Import Prelude Field Expr Hints Ir IrInst ApiSpec Gadget ShaSpec.
Open Scope nat_scope.

Section Model.
  Context {F : Fld}.
  Notation G := (G F).
  Definition word := list nat.
  (* gf2_utils.rs:6-12, 14-20 *)
  Definition to_bits (n : nat) (value : Z) : G (list nat) := gmap (fun i => a_const (Z.land (Z.shiftr value (Z.of_nat (n - 1 - i))) 1)) (seq 0 n).
  Definition u32_to_bit (value : Z) : G word := to_bits 32 value.
  Definition u64_to_bit (value : Z) : G (list nat) := to_bits 64 value.
  (* gf2_utils.rs:22-29; the assertion holds for 32 bits *)
  Definition rotate_right {A} (bits : list A) (k : nat) : list A := let s := length bits - k in skipn s bits ++ firstn s bits.
  (* gf2_utils.rs:31-42 *)
  Definition shift_right (bits : word) (k : nat) : G word :=
    let s := length bits - k in z <-- a_const 0;; gret (repeat z k ++ firstn s bits).
  (* gf2_utils.rs:294-324 *)
  Definition w_xor (a b : word) : G word := _ <-- a_const 0;; gmap (fun p => a_add (fst p) (snd p)) (combine a b).
  Definition w_and (a b : word) : G word := _ <-- a_const 0;; gmap (fun p => a_mul (fst p) (snd p)) (combine a b).
  Definition w_not (a : word) : G word := _ <-- a_const 0;; gmap (fun x => a_bin BSub (k 1) (AV x)) a.
  (* gf2_utils.rs:45-56 *)
  Definition ch (x y z : word) : G word := xy <-- w_and x y;; not_x <-- w_not x;; not_xz <-- w_and not_x z;; w_xor xy not_xz.
  (* gf2_utils.rs:59-71 *)
  Definition maj (x y z : word) : G word := xy <-- w_and x y;; xz <-- w_and x z;; yz <-- w_and y z;; tmp <-- w_xor xy xz;; w_xor tmp yz.
  (* gf2_utils.rs:74-96 *)
  Definition lower_case_sigma0 (w : word) : G word :=
    let rot7 := rotate_right w 7 in let rot18 := rotate_right w 18 in shft3 <-- shift_right w 3;; tmp <-- w_xor rot7 rot18;; w_xor tmp shft3.
  Definition lower_case_sigma1 (w : word) : G word :=
    let rot17 := rotate_right w 17 in let rot19 := rotate_right w 19 in shft10 <-- shift_right w 10;; tmp <-- w_xor rot17 rot19;; w_xor tmp shft10.
  (* gf2_utils.rs:99-122 *)
  Definition capital_sigma0 (x : word) : G word := tmp <-- w_xor (rotate_right x 2) (rotate_right x 13);; w_xor tmp (rotate_right x 22).
  Definition capital_sigma1 (x : word) : G word := tmp <-- w_xor (rotate_right x 6) (rotate_right x 11);; w_xor tmp (rotate_right x 25).
  (* gf2_utils.rs:124-145: the loop runs from the least significant bit; [a] is given in that order, j is 31 - i *)
  Fixpoint add_const_loop (a : list nat) (b : Z) (j : Z) (ci : nat) : G (list nat) :=
    match a with
    | [] => gret []
    | x :: a =>
        if (Z.land (Z.shiftr b j) 1 =? 1)%Z then
          p <-- a_bin BAdd (AV x) (k 1);; c <-- a_add p ci;; ci <-- a_mul ci p;; ci <-- a_add ci x;;
          cs <-- add_const_loop a b (j + 1) ci;; gret (c :: cs)
        else
          c <-- a_add x ci;; ci <-- a_mul ci x;; cs <-- add_const_loop a b (j + 1) ci;; gret (c :: cs)
    end.
  Definition add_const (a : word) (b : Z) : G word := ci <-- a_const 0;; c <-- add_const_loop (rev a) b 0 ci;; gret (rev c).
  (* gf2_utils.rs:177-224: four bits, least significant first; the arrays that are filled with constant(0) first are written out *)
  Definition brent_kung_adder_4_bits (a0 a1 a2 a3 b0 b1 b2 b3 carry_in : nat) : G (list nat * nat) :=
    _ <-- a_const 0;; _ <-- a_const 0;;
    g0 <-- a_mul a0 b0;; p0 <-- a_add a0 b0;; g1 <-- a_mul a1 b1;; p1 <-- a_add a1 b1;;
    g2 <-- a_mul a2 b2;; p2 <-- a_add a2 b2;; g3 <-- a_mul a3 b3;; p3 <-- a_add a3 b3;;
    p1g0 <-- a_mul p1 g0;; p0p1 <-- a_mul p0 p1;; p2p3 <-- a_mul p2 p3;;
    g10 <-- a_add g1 p1g0;; g20 <-- a_mul p2 g10;; g20 <-- a_add g2 g20;; g30 <-- a_mul p3 g20;; g30 <-- a_add g3 g30;;
    _ <-- a_const 0;;
    let c0 := carry_in in
    tmp <-- a_mul p0 c0;; c1 <-- a_add g0 tmp;; tmp <-- a_mul p0p1 c0;; c2 <-- a_add g10 tmp;;
    tmp <-- a_mul p2 c0;; tmp <-- a_mul p0p1 tmp;; c3 <-- a_add g20 tmp;;
    tmp <-- a_mul p0p1 p2p3;; tmp <-- a_mul tmp c0;; c4 <-- a_add g30 tmp;;
    _ <-- a_const 0;;
    s0 <-- a_add p0 c0;; s1 <-- a_add p1 c1;; s2 <-- a_add p2 c2;; s3 <-- a_add p3 c3;;
    gret ([s0; s1; s2; s3], c4).
  (* gf2_utils.rs:148-175: eight blocks of four bits, least significant first *)
  Fixpoint brentkung_loop (a b : list nat) (ci : nat) : G (list nat) :=
    match a, b with
    | a0 :: a1 :: a2 :: a3 :: a, b0 :: b1 :: b2 :: b3 :: b =>
        r <-- brent_kung_adder_4_bits a0 a1 a2 a3 b0 b1 b2 b3 ci;; c <-- brentkung_loop a b (snd r);; gret (fst r ++ c)
    | _, _ => gret []
    end.
  Definition add_brentkung (a b : word) : G word := _ <-- a_const 0;; ci <-- a_const 0;; c <-- brentkung_loop (rev a) (rev b) ci;; gret (rev c).
  (* gf2_utils.rs:226-232 *)
  Definition w_add (a b : word) : G word := add_brentkung a b.
  (* gf2_utils.rs:234-253: vvs is cut to the n_values_to_sum values that are read again; fuel: number of values *)
  Fixpoint sum_all_loop (fuel : nat) (vvs : list word) : G word :=
    let n := length vvs in
    match fuel with
    | 0 => gpanic
    | S fuel =>
        if 1 <? n then
          let half := n / 2 in
          s <-- gmap (fun p => w_add (fst p) (snd p)) (combine (firstn half vvs) (firstn half (skipn half vvs)));;
          sum_all_loop fuel (s ++ (if Nat.odd n then [nth (n - 1) vvs []] else []))
        else match vvs with v :: _ => gret v | [] => gpanic end
    end.
  Definition sum_all (vs : list word) : G word := sum_all_loop (S (length vs)) vs.
  (* gf2_utils.rs:255-277 *)
  Definition bit_add_with_carry (a b carry : nat) : G (nat * nat) :=
    sum <-- a_add a b;; sum <-- a_add sum carry;;
    ab <-- a_mul a b;; ac <-- a_mul a carry;; bc <-- a_mul b carry;; abc <-- a_mul ab carry;;
    cn <-- a_add ab abc;; cn <-- a_add cn abc;; cn <-- a_add cn ac;; cn <-- a_add cn bc;; gret (sum, cn).
  (* gf2_utils.rs:280-292, least significant bit first *)
  Fixpoint vanilla_loop (a b : list nat) (carry : nat) : G (list nat) :=
    match a, b with
    | x :: a, y :: b => r <-- bit_add_with_carry x y carry;; c <-- vanilla_loop a b (snd r);; gret (fst r :: c)
    | _, _ => gret []
    end.
  Definition add_vanilla (a b : word) : G word := _ <-- a_const 0;; carry <-- a_const 0;; c <-- vanilla_loop (rev a) (rev b) carry;; gret (rev c).

  (* gf2.rs:13-26 *)
  Definition SHA256_INIT_STATE : list Z := [0x6a09e667; 0xbb67ae85; 0x3c6ef372; 0xa54ff53a; 0x510e527f; 0x9b05688c; 0x1f83d9ab; 0x5be0cd19]%Z.
  Definition SHA256_K : list Z := [
    0x428a2f98; 0x71374491; 0xb5c0fbcf; 0xe9b5dba5; 0x3956c25b; 0x59f111f1; 0x923f82a4; 0xab1c5ed5;
    0xd807aa98; 0x12835b01; 0x243185be; 0x550c7dc3; 0x72be5d74; 0x80deb1fe; 0x9bdc06a7; 0xc19bf174;
    0xe49b69c1; 0xefbe4786; 0x0fc19dc6; 0x240ca1cc; 0x2de92c6f; 0x4a7484aa; 0x5cb0a9dc; 0x76f988da;
    0x983e5152; 0xa831c66d; 0xb00327c8; 0xbf597fc7; 0xc6e00bf3; 0xd5a79147; 0x06ca6351; 0x14292967;
    0x27b70a85; 0x2e1b2138; 0x4d2c6dfc; 0x53380d13; 0x650a7354; 0x766a0abb; 0x81c2c92e; 0x92722c85;
    0xa2bfe8a1; 0xa81a664b; 0xc24b8b70; 0xc76c51a3; 0xd192e819; 0xd6990624; 0xf40e3585; 0x106aa070;
    0x19a4c116; 0x1e376c08; 0x2748774c; 0x34b0bcb5; 0x391c0cb3; 0x4ed8aa4a; 0x5b9cca4f; 0x682e6ff3;
    0x748f82ee; 0x78a5636f; 0x84c87814; 0x8cc70208; 0x90befffa; 0xa4506ceb; 0xbef9a3f7; 0xc67178f2]%Z.
  (* gf2.rs:82-90: w[i] from the earlier entries; indices in range, default never used *)
  Definition sched_step (w : list word) (i : nat) : G (list word) :=
    ls1 <-- lower_case_sigma1 (nth (i - 2) w []);; s0 <-- w_add ls1 (nth (i - 7) w []);;
    ls0 <-- lower_case_sigma0 (nth (i - 15) w []);; s1 <-- w_add ls0 (nth (i - 16) w []);;
    wi <-- w_add s0 s1;; gret (w ++ [wi]).
  (* gf2.rs:92-110: one round *)
  Definition st8 := (word * word * word * word * word * word * word * word)%type.
  Definition round_step (s : st8) (kw : Z * word) : G st8 :=
    let '(a, b, c, d, e, f, g, h) := s in
    w_plus_k <-- add_const (snd kw) (fst kw);; cs1 <-- capital_sigma1 e;; che <-- ch e f g;; t_1 <-- sum_all [h; cs1; che; w_plus_k];;
    cs0 <-- capital_sigma0 a;; mj <-- maj a b c;; t_2 <-- w_add cs0 mj;;
    e' <-- w_add d t_1;; a' <-- w_add t_1 t_2;; gret (a', a, b, c, e', e, f, g).
  (* gf2.rs:67-120; input: 512 handles *)
  Definition sha256_compress (state : list word) (input : list nat) : G (list word) :=
    match state with
    | [a; b; c; d; e; f; g; h] =>
        _ <-- a_const 0;;
        w <-- gfold sched_step (seq 16 48) (cut 32 16 input);;
        r <-- gfold round_step (combine SHA256_K w) (a, b, c, d, e, f, g, h);;
        let '(a', b', c', d', e', f', g', h') := r in
        gmap (fun p => w_add (fst p) (snd p)) (combine state [a'; b'; c'; d'; e'; f'; g'; h'])
    | _ => gpanic
    end.
  (* gf2.rs:8-11, 29-36: the object is its data *)
  Definition new : list nat := [].
  Definition update (self data : list nat) : list nat := self ++ data.
  (* gf2.rs:39-64; the subtraction of usize panics below zero (with overflow checks; without them the length is close to 2^64 and
     the allocation of the zeros fails); chunks_exact: whole chunks only.  Result: the object after the call and the digest *)
  Definition finalize (self : list nat) : G (list nat * list nat) :=
    let data_len := length self in
    one <-- a_const 1;;
    if 448 <? (data_len + 1) mod 512 then gpanic
    else
      let zero_padding_len := 448 - (data_len + 1) mod 512 in
      zs <-- gmap (fun _ => a_const 0) (seq 0 zero_padding_len);;
      len <-- u64_to_bit (Z.of_nat data_len);;
      let data := self ++ [one] ++ zs ++ len in
      state <-- gmap u32_to_bit SHA256_INIT_STATE;;
      state <-- gfold sha256_compress (cut 512 (length data / 512) data) state;;
      gret (data, concat state).
End Model.
