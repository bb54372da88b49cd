(* Model of circuit-std-rs/src/sha256/m31_utils.rs and m31.rs: SHA-256 of bytes over a prime field.  A word has two forms: its 32 bits,
   least significant first, or a pair of variables, the low 26 bits and the rest.  [api.constant(0); n] makes one call and copies the handle. *)
From Verif Require Import Prelude Field Expr Hints Ir IrInst ApiSpec Gadget ShaSpec.
Open Scope nat_scope.

Section Model.
  Context {F : Fld}.
  Notation G := (G F).
  Definition bword := list nat.
  Definition pair26 := (nat * nat)%type.
  Definition a_xor (x y : nat) : G nat := a_bin (BBool BXor) (AV x) (AV y).
  Definition a_and (x y : nat) : G nat := a_bin (BBool BAnd) (AV x) (AV y).
  Definition pow2 (i : nat) : Z := Z.pow 2 (Z.of_nat i).
  (* m31_utils.rs:12-22; vals[0] panics on no values *)
  Definition bytes_to_bits (vals : list nat) : G (list nat) :=
    match vals with
    | [] => gpanic
    | v0 :: vals => ret <-- a_tobin v0 8;; gfold (fun ret v => bs <-- a_tobin v 8;; gret (bs ++ ret)) vals ret
    end.
  (* m31_utils.rs:23-36 *)
  Definition right_shift (bits : bword) (shift : nat) : G bword :=
    if length bits =? 32 then zs <-- gmap (fun _ => a_const 0) (seq 0 shift);; gret (skipn shift bits ++ zs) else gpanic.
  (* m31_utils.rs:37-44; the panic on other lengths than 32 is in the callers, which check it first *)
  Definition rotate_right_le {A} (bits : list A) (shift : nat) : list A := skipn shift bits ++ firstn shift bits.
  (* the loops of the four functions below *)
  Definition xor3 (v1 v2 v3 : bword) : G bword :=
    gmap (fun p => tmp <-- a_xor (fst (fst p)) (snd (fst p));; a_xor tmp (snd p)) (combine (combine v1 v2) v3).
  (* m31_utils.rs:45-78 *)
  Definition sigma0 (bits : bword) : G bword :=
    if length bits =? 32 then v3 <-- right_shift bits 3;; xor3 (rotate_right_le bits 7) (rotate_right_le bits 18) v3 else gpanic.
  Definition sigma1 (bits : bword) : G bword :=
    if length bits =? 32 then v3 <-- right_shift bits 10;; xor3 (rotate_right_le bits 17) (rotate_right_le bits 19) v3 else gpanic.
  (* m31_utils.rs:79-112 *)
  Definition cap_sigma0 (bits : bword) : G bword :=
    if length bits =? 32 then xor3 (rotate_right_le bits 2) (rotate_right_le bits 13) (rotate_right_le bits 22) else gpanic.
  Definition cap_sigma1 (bits : bword) : G bword :=
    if length bits =? 32 then xor3 (rotate_right_le bits 6) (rotate_right_le bits 11) (rotate_right_le bits 25) else gpanic.
  Definition len3 (x y z : bword) : bool := (length x =? 32) && (length y =? 32) && (length z =? 32).
  (* m31_utils.rs:113-130 *)
  Definition ch_le (x y z : bword) : G bword :=
    if len3 x y z then
      gmap (fun p => let '(x, y, z) := p in
        tmp1 <-- a_and x y;; tmp2 <-- a_bin (BBool BXor) (AV x) (k 1);; tmp3 <-- a_and tmp2 z;; a_xor tmp1 tmp3) (combine (combine x y) z)
    else gpanic.
  (* m31_utils.rs:131-149 *)
  Definition maj_le (x y z : bword) : G bword :=
    if len3 x y z then
      gmap (fun p => let '(x, y, z) := p in
        tmp1 <-- a_and x y;; tmp2 <-- a_and x z;; tmp3 <-- a_and y z;; tmp4 <-- a_xor tmp1 tmp2;; a_xor tmp3 tmp4) (combine (combine x y) z)
    else gpanic.
  (* m31_utils.rs:150-163, on pairs, its only use *)
  Definition add_no_reduce (a b : pair26) : G pair26 :=
    _ <-- a_const 0;; c0 <-- a_add (fst a) (fst b);; c1 <-- a_add (snd a) (snd b);; gret (c0, c1).
  (* m31_utils.rs:206-228; the index of the bit is in range *)
  Definition sha_m31_26_add (a b : pair26) (nb_bits : nat) : G pair26 :=
    _ <-- a_const 0;; carry <-- a_const 0;;
    c0 <-- a_add (fst a) (fst b);; c0 <-- a_add c0 carry;;
    bs <-- a_tobin c0 (nb_bits + 1);; let carry := nth nb_bits bs 0 in
    tmp <-- a_bin BMul (AV carry) (k (pow2 nb_bits));; c0 <-- a_sub c0 tmp;;
    c1 <-- a_add (snd a) (snd b);; c1 <-- a_add c1 carry;;
    bs <-- a_tobin c1 7;; let carry := nth 6 bs 0 in
    tmp <-- a_bin BMul (AV carry) (k (pow2 6));; c1 <-- a_sub c1 tmp;; gret (c0, c1).
  (* m31_utils.rs:314-322 *)
  Fixpoint from_binary_loop (i : nat) (bits : list nat) (res : nat) : G nat :=
    match bits with
    | [] => gret res
    | b :: bits => cur <-- a_bin BMul (k (pow2 i)) (AV b);; res <-- a_add res cur;; from_binary_loop (S i) bits res
    end.
  Definition from_binary (bits : list nat) : G nat := res <-- a_const 0;; from_binary_loop 0 bits res.
  (* m31_utils.rs:239-250; bits[..26] panics on fewer *)
  Definition bit_array_to_m31_26 (bits : bword) : G pair26 :=
    if (54 <=? length bits) || (length bits <? 26) then gpanic
    else lo <-- from_binary (firstn 26 bits);; hi <-- from_binary (skipn 26 bits);; gret (lo, hi).
  (* m31_utils.rs:301-313 *)
  Definition m31_26_to_bit_array_seperate (m : pair26) (overflow : nat) : G bword :=
    bits30 <-- a_tobin (fst m) 30;; carry <-- from_binary (skipn 26 bits30);; high <-- a_add (snd m) carry;;
    hb <-- a_tobin high (6 + overflow + 1);; gret (firstn 26 bits30 ++ hb).
  (* m31_utils.rs:395-404 *)
  Definition idiv_mod_bit (a b : nat) : G (nat * nat) :=
    bits <-- a_tobin a 30;; if 30 <? b then gpanic else q <-- from_binary (skipn b bits);; r <-- from_binary (firstn b bits);; gret (q, r).
  (* m31_utils.rs:267-280: the four bytes that are written *)
  Definition m31_26_array_put_uint32 (x : pair26) : G (list nat) :=
    p3 <-- idiv_mod_bit (fst x) 8;; p2 <-- idiv_mod_bit (fst p3) 8;; p1 <-- idiv_mod_bit (fst p2) 8;;
    shift <-- a_bin BMul (AV (snd x)) (k 4);; b0 <-- a_add (fst p1) shift;; gret [b0; snd p1; snd p2; snd p3].

  (* m31.rs:9-44 *)
  Definition INIT : list Z := [0x6A09E667; 0xBB67AE85; 0x3C6EF372; 0xA54FF53A; 0x510E527F; 0x9B05688C; 0x1F83D9AB; 0x5BE0CD19]%Z.
  Definition K_ : list Z := [
    0x428a2f98; 0x71374491; 0xb5c0fbcf; 0xe9b5dba5; 0x3956c25b; 0x59f111f1; 0x923f82a4; 0xab1c5ed5;
    0xd807aa98; 0x12835b01; 0x243185be; 0x550c7dc3; 0x72be5d74; 0x80deb1fe; 0x9bdc06a7; 0xc19bf174;
    0xe49b69c1; 0xefbe4786; 0x0fc19dc6; 0x240ca1cc; 0x2de92c6f; 0x4a7484aa; 0x5cb0a9dc; 0x76f988da;
    0x983e5152; 0xa831c66d; 0xb00327c8; 0xbf597fc7; 0xc6e00bf3; 0xd5a79147; 0x06ca6351; 0x14292967;
    0x27b70a85; 0x2e1b2138; 0x4d2c6dfc; 0x53380d13; 0x650a7354; 0x766a0abb; 0x81c2c92e; 0x92722c85;
    0xa2bfe8a1; 0xa81a664b; 0xc24b8b70; 0xc76c51a3; 0xd192e819; 0xd6990624; 0xf40e3585; 0x106aa070;
    0x19a4c116; 0x1e376c08; 0x2748774c; 0x34b0bcb5; 0x391c0cb3; 0x4ed8aa4a; 0x5b9cca4f; 0x682e6ff3;
    0x748f82ee; 0x78a5636f; 0x84c87814; 0x8cc70208; 0x90befffa; 0xa4506ceb; 0xbef9a3f7; 0xc67178f2]%Z.
  (* m31.rs:45-51; nx is 0 and len is never read: left out *)
  Record MyDigest := { d_h : list pair26; d_kbits : list bword; d_first8 : list pair26 }.
  (* m31.rs:56-71, 96-111 *)
  Definition init_h : G (list pair26) :=
    gmap (fun z => lo <-- a_const (Z.land z 0x03FFFFFF);; hi <-- a_const (Z.shiftr z 26);; gret (lo, hi)) INIT.
  (* m31.rs:54-91 *)
  Definition digest_new : G MyDigest :=
    _ <-- a_const 0;; h <-- init_h;; _ <-- a_const 0;;
    kb <-- gmap (fun z => gmap (fun j => a_const (Z.land (Z.shiftr z (Z.of_nat j)) 1)) (seq 0 32)) K_;;
    gret {| d_h := h; d_kbits := kb; d_first8 := h |}.
  (* m31.rs:92-115 *)
  Definition digest_reset (d : MyDigest) : G MyDigest :=
    _ <-- gmap (fun _ => a_const 0) (seq 0 8);; h <-- init_h;; gret {| d_h := h; d_kbits := d_kbits d; d_first8 := d_first8 d |}.
  (* m31.rs:159-170, and again 255-267: one more entry of msg_schedule; the entries exist *)
  Definition sched_step31 (w : list bword) (t : nat) : G (list bword) :=
    term1_tmp <-- sigma1 (nth (t - 2) w []);; term1 <-- bit_array_to_m31_26 term1_tmp;; term2 <-- bit_array_to_m31_26 (nth (t - 7) w []);;
    term3_tmp <-- sigma0 (nth (t - 15) w []);; term3 <-- bit_array_to_m31_26 term3_tmp;; term4 <-- bit_array_to_m31_26 (nth (t - 16) w []);;
    s1 <-- add_no_reduce term1 term2;; s2 <-- add_no_reduce term3 term4;; s <-- add_no_reduce s1 s2;;
    bits <-- m31_26_to_bit_array_seperate s 2;; gret (w ++ [firstn 32 bits]).
  (* the words a .. h and the bits of a b c e f g *)
  Record RS := { r_w : list pair26; r_b : list bword }.
  (* m31.rs:173-188, 268-283, 344-359 *)
  Definition start (w : list pair26) : G RS :=
    match w with
    | [a; b; c; d; e; f; g; h] =>
        bs <-- gmap (fun x => bits <-- m31_26_to_bit_array_seperate x 0;; gret (firstn 32 bits)) [a; b; c; e; f; g];; gret {| r_w := w; r_b := bs |}
    | _ => gpanic
    end.
  (* m31.rs:189-229, and again 284-322, 360-398: one round; kb is kbits[t], schedule is msg_schedule[t] *)
  Definition round31 (s : RS) (p : bword * bword) : G RS :=
    let '(kb, schedule) := p in
    match r_w s, r_b s with
    | [a; b; c; d; e; f; g; h], [a_bit; b_bit; c_bit; e_bit; f_bit; g_bit] =>
        _ <-- a_const 0;; let t1_term1 := h in
        t1_term2_tmp <-- cap_sigma1 e_bit;; t1_term2 <-- bit_array_to_m31_26 t1_term2_tmp;;
        t1_term3_tmp <-- ch_le e_bit f_bit g_bit;; t1_term3 <-- bit_array_to_m31_26 t1_term3_tmp;;
        t1_term4 <-- bit_array_to_m31_26 kb;; t1_term5 <-- bit_array_to_m31_26 schedule;;
        tmp1 <-- add_no_reduce t1_term1 t1_term2;; tmp2 <-- add_no_reduce t1_term3 t1_term4;; tmp3 <-- add_no_reduce tmp1 tmp2;; t1 <-- add_no_reduce tmp3 t1_term5;;
        t2_tmp1 <-- cap_sigma0 a_bit;; t2_tmp2 <-- bit_array_to_m31_26 t2_tmp1;; t2_tmp3 <-- maj_le a_bit b_bit c_bit;; t2_tmp4 <-- bit_array_to_m31_26 t2_tmp3;;
        t2 <-- add_no_reduce t2_tmp2 t2_tmp4;;
        na <-- add_no_reduce t1 t2;; na_bit <-- m31_26_to_bit_array_seperate na 4;; let na_bit := firstn 32 na_bit in
        ne <-- add_no_reduce d t1;; ne_bit <-- m31_26_to_bit_array_seperate ne 4;; let ne_bit := firstn 32 ne_bit in
        a' <-- bit_array_to_m31_26 na_bit;; e' <-- bit_array_to_m31_26 ne_bit;;
        gret {| r_w := [a'; a; b; c; e'; e; f; g]; r_b := [na_bit; a_bit; b_bit; ne_bit; e_bit; f_bit] |}
    | _, _ => gpanic
    end.
  (* m31.rs:230-237, 323-330 *)
  Definition add_state (hh w : list pair26) : G (list pair26) := gmap (fun p => sha_m31_26_add (fst p) (snd p) 26) (combine hh w).
  (* m31.rs:145-241: p is one chunk (the only caller is chunk_write), so the while loop runs once *)
  Definition block (d : MyDigest) (h : list pair26) (p : list nat) : G (list pair26) :=
    w <-- gmap bytes_to_bits (cut 4 16 p);; w <-- gfold sched_step31 (seq 16 48) w;;
    s <-- start h;; s <-- gfold round31 (combine (d_kbits d) w) s;; add_state h (r_w s).
  (* m31.rs:116-123 *)
  Definition chunk_write (d : MyDigest) (p : list nat) : G MyDigest :=
    if length p =? 64 then h <-- block d (d_h d) p;; gret {| d_h := h; d_kbits := d_kbits d; d_first8 := d_first8 d |} else gpanic.
  (* m31.rs:244-332 *)
  Definition block_37bytes_compress (d : MyDigest) (h : list pair26) (p : list nat) : G (list pair26) :=
    w <-- gfold sched_step31 (seq 16 48) (cut 32 16 p);;
    s <-- start (d_first8 d);; s <-- gfold round31 (combine (skipn 8 (d_kbits d)) (skipn 8 w)) s;; add_state h (r_w s).
  (* m31.rs:124-131 *)
  Definition chunk_write_compress (d : MyDigest) (p : list nat) : G MyDigest :=
    if length p =? 512 then h <-- block_37bytes_compress d (d_h d) p;; gret {| d_h := h; d_kbits := d_kbits d; d_first8 := d_first8 d |} else gpanic.
  (* m31.rs:333-407 *)
  Definition set_8words_states (d : MyDigest) (h : list pair26) (p : list nat) : G MyDigest :=
    s <-- start h;; s <-- gfold round31 (combine (d_kbits d) (cut 32 8 p)) s;; gret {| d_h := d_h d; d_kbits := d_kbits d; d_first8 := r_w s |}.
  (* m31.rs:132-144 *)
  Definition return_sum (d : MyDigest) : G (list nat) := _ <-- a_const 0;; bs <-- gmap m31_26_array_put_uint32 (d_h d);; gret (concat bs).

  (* m31.rs:410-428 *)
  Definition sha256_37bytes (data : list nat) : G (list nat) :=
    if length data =? 37 then
      z <-- a_const 0;; p0 <-- a_const 128;; p25 <-- a_const 1;; p26 <-- a_const 40;;
      d <-- digest_new;; d <-- chunk_write d (data ++ [p0] ++ repeat z 24 ++ [p25; p26]);; return_sum d
    else gpanic.
  (* m31.rs:439-446, 461-473: the padding, and two words turned around; slices in range *)
  Definition pre_pad : G (list nat) :=
    z <-- a_const 0;; p0 <-- a_const 1;; p207 <-- a_const 1;; p210 <-- a_const 1;; p212 <-- a_const 1;;
    gret ([p0] ++ repeat z 206 ++ [p207; z; z; p210; z; p212; z; z; z]).
  Definition reverse_part {A} (i j : nat) (l : list A) : list A := firstn i l ++ rev (firstn (j - i) (skipn i l)) ++ skipn j l.
  Definition turn {A} (data : list A) : list A := reverse_part 480 512 (reverse_part 288 320 data).
  (* m31.rs:430-451 *)
  Definition sha256_37bytes_compress (data : list nat) : G (list nat) :=
    if length data =? 296 then
      pad <-- pre_pad;; let data := turn (data ++ pad) in
      d <-- digest_new;; d <-- set_8words_states d (d_h d) data;; d <-- chunk_write_compress d data;; return_sum d
    else gpanic.
  (* m31.rs:453-481: the object and the outputs so far *)
  Definition batch_step (s : MyDigest * list (list nat)) (p : nat * list nat) : G (MyDigest * list (list nat)) :=
    let '(d, outs) := s in let '(i, input) := p in
    pad <-- pre_pad;;
    if length input =? 296 then
      let data := turn (input ++ pad) in
      d <-- (if i =? 0 then set_8words_states d (d_h d) data else gret d);;
      d <-- chunk_write_compress d data;; out <-- return_sum d;; d <-- digest_reset d;; gret (d, outs ++ [out])
    else gpanic.
  Definition sha256_37bytes_256batch_compress (inputs : list (list nat)) : G (list (list nat)) :=
    d <-- digest_new;; r <-- gfold batch_step (combine (seq 0 (length inputs)) inputs) (d, []);; gret (snd r).
  (* m31.rs:483-513; n * 8 is below 2^64 for any list that fits in memory *)
  Definition var_pad (n : nat) : G (list nat) :=
    z <-- a_const 0;; p0 <-- a_const 128;;
    let len := if 55 <? n mod 64 then 128 - n mod 64 else 64 - n mod 64 in
    nb <-- gmap (fun i => a_const (Z.land (Z.shiftr (Z.of_nat (n * 8)) (8 * Z.of_nat (7 - i))) 255)) (seq 0 8);;
    gret (firstn (len - 8) ([p0] ++ repeat z (len - 1)) ++ nb).
  Definition sha256_var_bytes (data : list nat) : G (list nat) :=
    pad <-- var_pad (length data);; let data := data ++ pad in
    d <-- digest_new;; d <-- digest_reset d;;
    d <-- gfold chunk_write (cut 64 (length data / 64) data) d;; return_sum d.
  (* m31.rs:515-525; slices and indices panic when there are too few values *)
  Definition asserts_eq (l : list (nat * nat)) : G unit := _ <-- gmap (fun p => call0 (OAssertEq (AV (fst p)) (AV (snd p)))) l;; gret tt.
  Definition check_sha256_37bytes (data : list nat) : G (list nat) :=
    if length data <? 37 then gpanic else
    let output := skipn 37 data in result <-- sha256_37bytes (firstn 37 data);;
    if length output <? 32 then gpanic else _ <-- asserts_eq (combine result (firstn 32 output));; gret result.
  (* m31.rs:527-537 *)
  Definition check_sha256_37bytes_compress (data : list nat) : G (list nat) :=
    if length data <? 296 then gpanic else
    let output := skipn 296 data in result <-- sha256_37bytes_compress (firstn 296 data);;
    if length output <? 32 then gpanic else _ <-- asserts_eq (combine result (firstn 32 output));; gret result.
  (* m31.rs:539-551; indices that do not exist panic *)
  Definition check_sha256_37bytes_256batch_compress (inputs outputs : list (list nat)) : G (list (list nat)) :=
    result <-- sha256_37bytes_256batch_compress inputs;;
    if (length result <? length outputs) || existsb (fun o => length o <? 32) outputs then gpanic
    else _ <-- asserts_eq (concat (map (fun p => combine (fst p) (firstn 32 (snd p))) (combine result outputs)));; gret result.
End Model.
