(* Lookup arguments (circuit-std-rs/src/logup.rs).  A gadget is a function from the number of handles to the calls it makes (Gadget.v). *)
From Verif Require Import Prelude Field Expr Hints Ir IrInst ApiSpec Gadget.
From Coq Require Import NArith.
Open Scope nat_scope.

Section Model.
  Context {F : Fld}.
  Notation G := (G F).
  (* logup.rs:33-37: numerator and denominator *)
  Definition Rational := (nat * nat)%type.
  Definition a_random : G nat := call1 ORandom.
  (* logup.rs:39-51 *)
  Definition add_rational (v1 v2 : Rational) : G Rational :=
    p1 <-- a_mul (fst v1) (snd v2);; p2 <-- a_mul (snd v1) (fst v2);;
    n <-- a_add p1 p2;; d <-- a_mul (snd v1) (snd v2);; gret (n, d).
  (* logup.rs:53-57 *)
  Definition assert_eq_rational (v1 v2 : Rational) : G unit :=
    p1 <-- a_mul (fst v1) (snd v2);; p2 <-- a_mul (snd v1) (fst v2);; call0 (OAssertEq (AV p1) (AV p2)).
  (* logup.rs:78-92: the loop; the list is vvs[..n_values_to_sum], entries behind it are never read again.  Entry i becomes the sum of the
     entries i and i + half, for i below half: no entry is read after it is written.  The number of values at least halves: fuel n is enough *)
  Fixpoint sum_loop (fuel : nat) (vvs : list Rational) : G Rational :=
    let n := length vvs in
    if 1 <? n then
      match fuel with
      | 0 => gpanic
      | S fuel =>
          let half := n / 2 in
          ss <-- gmap (fun p => add_rational (fst p) (snd p)) (combine (firstn half vvs) (firstn half (skipn half vvs)));;
          sum_loop fuel (ss ++ (if Nat.odd n then [nth (n - 1) vvs (0, 0)] else []))
      end
    else match vvs with v :: _ => gret v | [] => gpanic end.
  (* logup.rs:59-93 *)
  Definition sum_rational_vec (vs : list Rational) : G Rational :=
    match vs with
    | [] => n <-- a_const 0;; d <-- a_const 1;; gret (n, d)
    | _ => sum_loop (length vs) vs
    end.
  (* logup.rs:95-100 *)
  Definition concat_d1 (v1 v2 : list (list nat)) : list (list nat) := map (fun p => fst p ++ snd p) (combine v1 v2).
  (* logup.rs:102-112 *)
  Definition get_column_randomness (n_columns : nat) : G (list nat) :=
    one <-- a_const 1;; rs <-- gmap (fun _ => a_random) (seq 1 (n_columns - 1));; gret (one :: rs).
  (* logup.rs:114-136 *)
  Definition combine_columns (vec_2d : list (list nat)) (randomness : list nat) : G (list nat) :=
    match vec_2d with
    | [] => gret []
    | row0 :: _ =>
        if length randomness =? length row0 then
          gmap (fun row => z <-- a_const 0;; gfold (fun acc p => prod <-- a_mul (fst p) (snd p);; a_add acc prod) (combine row randomness) z) vec_2d
        else gpanic
    end.
  (* logup.rs:138-153 *)
  Definition logup_poly_val (vals counts : list nat) (x : nat) : G Rational :=
    ts <-- gmap (fun p => d <-- a_sub x (fst p);; gret (snd p, d)) (combine vals counts);; sum_rational_vec ts.
  (* logup.rs:155-185: LogUpCircuit::define; indexing row 0 panics on an empty table *)
  Definition logup_define (table_keys table_values query_keys query_results : list (list nat)) (query_count : list nat) : G unit :=
    match table_keys, table_values with
    | k0 :: _, v0 :: _ =>
        alpha <-- a_random;; randomness <-- get_column_randomness (length k0 + length v0);;
        table_combined <-- combine_columns (concat_d1 table_keys table_values) randomness;;
        v_table <-- logup_poly_val table_combined query_count alpha;;
        query_combined <-- combine_columns (concat_d1 query_keys query_results) randomness;;
        one <-- a_const 1;;
        v_query <-- logup_poly_val query_combined (repeat one (length query_combined)) alpha;;
        assert_eq_rational v_table v_query
    | _, _ => gpanic
    end.
  (* logup.rs:245-295, 332-360: LogUpSingleKeyTable; the fields table, query_results hold the rows with their key, query_keys the keys alone.
     add_query and new_table put the key first *)
  Definition with_keys (keys : list nat) (values : list (list nat)) : list (list nat) := map (fun p => fst p :: snd p) (combine keys values).
  Definition final_check_with_query_count (table queries : list (list nat)) (query_count : list nat) : G unit :=
    match table, queries with
    | row0 :: _, _ :: _ =>
        alpha <-- a_random;; randomness <-- get_column_randomness (length row0);;
        table_combined <-- combine_columns table randomness;;
        v_table <-- logup_poly_val table_combined query_count alpha;;
        query_combined <-- combine_columns queries randomness;;
        one <-- a_const 1;;
        v_query <-- logup_poly_val query_combined (repeat one (length query_combined)) alpha;;
        assert_eq_rational v_table v_query
    | _, _ => gpanic
    end.
  (* logup.rs:297-330: the counts come from a hint; row[0] of every row exists *)
  Definition final_check (hint_id : N) (table queries : list (list nat)) : G unit :=
    match table, queries with
    | row0 :: _, _ :: _ =>
        alpha <-- a_random;; randomness <-- get_column_randomness (length row0);;
        table_combined <-- combine_columns table randomness;;
        n <-- a_const (Z.of_nat (length table));;
        query_count <-- calln (OHint hint_id (map AV ([n] ++ map (fun r => nth 0 r 0) table ++ map (fun r => nth 0 r 0) queries)) (length table));;
        v_table <-- logup_poly_val table_combined query_count alpha;;
        query_combined <-- combine_columns queries randomness;;
        one <-- a_const 1;;
        v_query <-- logup_poly_val query_combined (repeat one (length query_combined)) alpha;;
        assert_eq_rational v_table v_query
    | _, _ => gpanic
    end.
  (* logup.rs:362-386: LogUpRangeProofTable::initial: the table 0 .. 2^rangeproof_bits - 1 *)
  Definition rp_initial (bits : nat) : G (list nat) := gmap (fun i => a_const (Z.of_nat i)) (seq 0 (2 ^ bits)).
  (* logup.rs:442-468: the query it adds; integers of 32 bits do not overflow for n <= bits <= 30 *)
  Definition rangeproof_onechunk (bits a n : nat) : G nat :=
    if bits <? n then gpanic
    else if n mod bits =? 0 then gret a
    else a_shift <-- a_bin BMul (k (2 ^ Z.of_nat (bits - n mod bits) - 1)) (k (2 ^ Z.of_nat n));; a_add a a_shift.
  (* logup.rs:392-440: the queries it adds; 1u128 shifted by less than 128 *)
  Definition rangeproof (hint_id : N) (bits a n : nat) : G (list nat) :=
    if 128 <? n then gpanic
    else if n <=? bits then q <-- rangeproof_onechunk bits a n;; gret [q]
    else
      p <-- (if n mod bits =? 0 then gret (a, n)
             else let shift := bits - n mod bits in
               mf <-- a_const (2 ^ Z.of_nat n);; a_shift <-- a_bin BMul (k (2 ^ Z.of_nat shift - 1)) (AV mf);; new_a <-- a_add a a_shift;; gret (new_a, n + shift));;
      let '(new_a, n) := p in
      cn <-- a_const (Z.of_nat n);; cb <-- a_const (Z.of_nat bits);;
      witnesses <-- calln (OHint hint_id (map AV [cn; cb; new_a]) (n / bits));;
      match witnesses with
      | [] => gpanic
      | w0 :: ws =>
          sum <-- gfold (fun sum p => constant <-- a_const (2 ^ Z.of_nat (bits * fst p));; mul <-- a_mul (snd p) constant;; a_add sum mul) (combine (seq 1 (length ws)) ws) w0;;
          _ <-- call0 (OAssertEq (AV sum) (AV new_a));; gret (firstn (n / bits) witnesses)
      end.
  (* logup.rs:488-505 *)
  Definition rp_final_check_with_query_count (table_keys query_keys query_count : list nat) : G unit :=
    alpha <-- a_random;; v_table <-- logup_poly_val table_keys query_count alpha;; one <-- a_const 1;;
    v_query <-- logup_poly_val query_keys (repeat one (length query_keys)) alpha;; assert_eq_rational v_table v_query.
  (* logup.rs:470-486 *)
  Definition rp_final_check (hint_id : N) (table_keys query_keys : list nat) : G unit :=
    alpha <-- a_random;; query_count <-- calln (OHint hint_id (map AV query_keys) (length table_keys));;
    v_table <-- logup_poly_val table_keys query_count alpha;; one <-- a_const 1;;
    v_query <-- logup_poly_val query_keys (repeat one (length query_keys)) alpha;; assert_eq_rational v_table v_query.
End Model.
