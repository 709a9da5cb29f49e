(** * Machine words

    Residues modulo [2^w] and their signed reading.  This file is pure
    mathematics; it models the Rust primitive integer types ([u8]..[u128],
    [i8]..[i128]) and nothing of the crate itself. *)
From Coq Require Import ZArith Lia Bool List.
Import ListNotations.
Open Scope Z_scope.

(** An integer type: number of bits and signedness ([u64] is
    [{| ibits := 64; isigned := false |}]). *)
Record ity := mk_ity { ibits : Z; isigned : bool }.

Definition u8 := mk_ity 8 false.     Definition i8 := mk_ity 8 true.
Definition u16 := mk_ity 16 false.   Definition i16 := mk_ity 16 true.
Definition u32 := mk_ity 32 false.   Definition i32 := mk_ity 32 true.
Definition u64 := mk_ity 64 false.   Definition i64 := mk_ity 64 true.
Definition u128 := mk_ity 128 false. Definition i128 := mk_ity 128 true.

(** Range of a type. *)
Definition imin (t : ity) : Z := if isigned t then - 2 ^ (ibits t - 1) else 0.
Definition imax (t : ity) : Z := if isigned t then 2 ^ (ibits t - 1) - 1 else 2 ^ ibits t - 1.
Definition in_range (t : ity) (x : Z) : Prop := imin t <= x <= imax t.
Definition in_rangeb (t : ity) (x : Z) : bool := (imin t <=? x) && (x <=? imax t).

(** Bit pattern of a value (two's complement, as a number in [0, 2^w)),
    and the value of a bit pattern. *)
Definition to_bits (t : ity) (x : Z) : Z := x mod 2 ^ ibits t.
Definition of_bits (t : ity) (b : Z) : Z :=
  if isigned t && (2 ^ (ibits t - 1) <=? b) then b - 2 ^ ibits t else b.

(** ** The Rust primitives the crate uses on its integers, defined on bit patterns
    (what the machine does), not on mathematical integers. *)
Definition wrapping_add (t : ity) (a b : Z) : Z :=
  of_bits t ((to_bits t a + to_bits t b) mod 2 ^ ibits t).
Definition wrapping_sub (t : ity) (a b : Z) : Z :=
  of_bits t ((to_bits t a - to_bits t b) mod 2 ^ ibits t).
Definition wrapping_neg (t : ity) (a : Z) : Z :=
  of_bits t ((0 - to_bits t a) mod 2 ^ ibits t).
Definition wrapping_mul (t : ity) (a b : Z) : Z :=
  of_bits t ((to_bits t a * to_bits t b) mod 2 ^ ibits t).
Definition bit_and (t : ity) (a b : Z) : Z := of_bits t (Z.land (to_bits t a) (to_bits t b)).
Definition bit_or (t : ity) (a b : Z) : Z := of_bits t (Z.lor (to_bits t a) (to_bits t b)).
Definition bit_xor (t : ity) (a b : Z) : Z := of_bits t (Z.lxor (to_bits t a) (to_bits t b)).
(** [!a]: every one of the [w] bits inverted. *)
Definition bit_not (t : ity) (a : Z) : Z :=
  of_bits t (Z.lxor (to_bits t a) (Z.ones (ibits t))).
(** [core::cmp::max] / [min] on values ([Ord::max]: returns the second when equal,
    which for integers is the same number). *)
Definition cmp_max (a b : Z) : Z := if a <=? b then b else a.
Definition cmp_min (a b : Z) : Z := if a <=? b then a else b.
(** [x as T]: truncation / reinterpretation between integer types. *)
Definition cast (t : ity) (a : Z) : Z := of_bits t (to_bits t a).

(** ** Splitting a bit pattern into [n] chunks of [k] bits, least significant first. *)
Fixpoint split_le (k : Z) (n : nat) (b : Z) : list Z :=
  match n with
  | O => []
  | S n' => (b mod 2 ^ k) :: split_le k n' (b / 2 ^ k)
  end.
Fixpoint join_le (k : Z) (cs : list Z) : Z :=
  match cs with
  | [] => 0
  | c :: cs' => c + 2 ^ k * join_le k cs'
  end.
