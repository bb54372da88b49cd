(* SHA-256 as in FIPS 180-4: words are integers below 2^32, messages are lists of bits, most significant first.
   Nothing here is about circuits. *)
From Coq Require Import ZArith List Bool Lia.
Import ListNotations.
Open Scope Z_scope.

Definition w32 (z : Z) : Z := z mod 2 ^ 32.
(* section 2.2.2: ROTR and SHR; section 4.1.2: the functions *)
Definition rotr (n x : Z) : Z := Z.lor (Z.shiftr x n) (w32 (Z.shiftl x (32 - n))).
Definition shr (n x : Z) : Z := Z.shiftr x n.
Definition compl (x : Z) : Z := 2 ^ 32 - 1 - x.
Definition Ch (x y z : Z) : Z := Z.lxor (Z.land x y) (Z.land (compl x) z).
Definition Maj (x y z : Z) : Z := Z.lxor (Z.lxor (Z.land x y) (Z.land x z)) (Z.land y z).
Definition bsig0 (x : Z) : Z := Z.lxor (Z.lxor (rotr 2 x) (rotr 13 x)) (rotr 22 x).
Definition bsig1 (x : Z) : Z := Z.lxor (Z.lxor (rotr 6 x) (rotr 11 x)) (rotr 25 x).
Definition ssig0 (x : Z) : Z := Z.lxor (Z.lxor (rotr 7 x) (rotr 18 x)) (shr 3 x).
Definition ssig1 (x : Z) : Z := Z.lxor (Z.lxor (rotr 17 x) (rotr 19 x)) (shr 10 x).
(* section 4.2.2 and 5.3.3: the first 32 bits of the fractional parts of the cube roots of the first 64 primes, and of the square
   roots of the first eight *)
Definition primes : list Z :=
  filter (fun p => forallb (fun d => negb (p mod Z.of_nat d =? 0)) (seq 2 (Z.to_nat p - 2))) (map Z.of_nat (seq 2 310)).
Fixpoint root3 (i : nat) (r n : Z) : Z :=
  match i with O => r | S i => let r' := r + 2 ^ Z.of_nat i in root3 i (if r' ^ 3 <=? n then r' else r) n end.
Definition cube_frac (p : Z) : Z := w32 (root3 36 0 (p * 2 ^ 96)).
Definition sqrt_frac (p : Z) : Z := w32 (Z.sqrt (p * 2 ^ 64)).
Definition K : list Z := map cube_frac primes.
Definition H0 : list Z := map sqrt_frac (firstn 8 primes).
(* section 6.2.2, step 1: the message schedule *)
Definition W_next (w : list Z) (t : nat) : list Z :=
  w ++ [w32 (ssig1 (nth (t - 2) w 0) + nth (t - 7) w 0 + ssig0 (nth (t - 15) w 0) + nth (t - 16) w 0)].
Definition schedule (m : list Z) : list Z := fold_left W_next (seq 16 48) m.
(* step 3 *)
Definition round (s : Z * Z * Z * Z * Z * Z * Z * Z) (kw : Z * Z) : Z * Z * Z * Z * Z * Z * Z * Z :=
  let '(a, b, c, d, e, f, g, h) := s in
  let T1 := w32 (h + bsig1 e + Ch e f g + fst kw + snd kw) in
  let T2 := w32 (bsig0 a + Maj a b c) in
  (w32 (T1 + T2), a, b, c, w32 (d + T1), e, f, g).
(* steps 2 to 4: the next hash value *)
Definition compress (H m : list Z) : list Z :=
  match H with
  | [a; b; c; d; e; f; g; h] =>
      let '(a', b', c', d', e', f', g', h') := fold_left round (combine K (schedule m)) (a, b, c, d, e, f, g, h) in
      [w32 (a' + a); w32 (b' + b); w32 (c' + c); w32 (d' + d); w32 (e' + e); w32 (f' + f); w32 (g' + g); w32 (h' + h)]
  | _ => []
  end.
(* bits to integers and back, most significant bit first *)
Definition be (l : list bool) : Z := fold_left (fun z b => 2 * z + Z.b2z b) l 0.
Definition be_bits (n : nat) (z : Z) : list bool := map (fun i => Z.testbit z (Z.of_nat (n - 1 - i))) (seq 0 n).
(* section 5.1.1: a one, the least number of zeros that makes the length 448 modulo 512, the length in 64 bits *)
Definition zeros_needed (l k : nat) : Prop := ((l + 1 + k) mod 512 = 448 /\ forall k', (l + 1 + k') mod 512 = 448 -> k <= k')%nat.
Definition zeros (l : nat) : nat := Z.to_nat ((447 - Z.of_nat l) mod 512).
Definition pad (m : list bool) : list bool := m ++ [true] ++ repeat false (zeros (length m)) ++ be_bits 64 (Z.of_nat (length m)).
Lemma zeros_ok l : zeros_needed l (zeros l).
Proof.
  unfold zeros_needed, zeros. pose proof (Z.mod_pos_bound (447 - Z.of_nat l) 512 ltac:(lia)) as B.
  pose proof (Z.div_mod (447 - Z.of_nat l) 512 ltac:(lia)) as E. set (r := (447 - Z.of_nat l) mod 512) in *. set (q := (447 - Z.of_nat l) / 512) in *.
  split.
  - apply Nat2Z.inj. rewrite Nat2Z.inj_mod, !Nat2Z.inj_add, Z2Nat.id by lia. change (Z.of_nat 512) with 512.
    replace (Z.of_nat l + Z.of_nat 1 + r) with (448 + (- q) * 512) by lia. rewrite Z_mod_plus_full. reflexivity.
  - intros k' H. apply Nat2Z.inj_iff in H. rewrite Nat2Z.inj_mod, !Nat2Z.inj_add in H. change (Z.of_nat 512) with 512 in H. change (Z.of_nat 448) with 448 in H.
    pose proof (Z.div_mod (Z.of_nat l + Z.of_nat 1 + Z.of_nat k') 512 ltac:(lia)) as E2. rewrite H in E2.
    set (q2 := (Z.of_nat l + Z.of_nat 1 + Z.of_nat k') / 512) in *. apply Nat2Z.inj_le. rewrite Z2Nat.id by lia. lia.
Qed.
(* section 5.2.1: blocks of sixteen words; section 6.2 *)
Fixpoint cut {A} (c n : nat) (l : list A) : list (list A) := match n with O => [] | S n => firstn c l :: cut c n (skipn c l) end.
Definition blocks (m : list bool) : list (list Z) := map (fun b => map be (cut 32 16 b)) (cut 512 (length m / 512) m).
Definition sha256 (m : list bool) : list Z := fold_left compress (blocks (pad m)) H0.
Definition digest_bits (m : list bool) : list bool := concat (map (be_bits 32) (sha256 m)).

(* test vectors of FIPS 180: "abc", the empty message and the 448-bit message *)
Definition bytes_bits (l : list Z) : list bool := concat (map (be_bits 8) l).
Example primes_ok : length primes = 64%nat /\ firstn 10 primes = [2; 3; 5; 7; 11; 13; 17; 19; 23; 29] /\ nth 63 primes 0 = 311.
Proof. vm_compute. auto. Qed.
Example sha_abc : sha256 (bytes_bits [97; 98; 99]) =
  [0xba7816bf; 0x8f01cfea; 0x414140de; 0x5dae2223; 0xb00361a3; 0x96177a9c; 0xb410ff61; 0xf20015ad].
Proof. vm_compute. reflexivity. Qed.
Example sha_empty : sha256 [] = [0xe3b0c442; 0x98fc1c14; 0x9afbf4c8; 0x996fb924; 0x27ae41e4; 0x649b934c; 0xa495991b; 0x7852b855].
Proof. vm_compute. reflexivity. Qed.
(* abcdbcdecdefdefgefghfghighijhijkijkljklmklmnlmnomnopnopq *)
Definition msg448 : list Z := concat (map (fun i => [97 + Z.of_nat i; 98 + Z.of_nat i; 99 + Z.of_nat i; 100 + Z.of_nat i]) (seq 0 14)).
Example sha_448 : sha256 (bytes_bits msg448) =
  [0x248d6a61; 0xd20638b8; 0xe5c02693; 0x0c3e6039; 0xa33ce459; 0x64ff2167; 0xf6ecedd4; 0x19db06c1].
Proof. vm_compute. reflexivity. Qed.
