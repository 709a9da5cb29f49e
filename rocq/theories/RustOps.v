(** * The closures of the per-architecture backends, on bit patterns

    src/imp/atomic128/macros.rs:3-255 [atomic128!] and src/imp/atomic64/macros.rs [atomic64!] turn an
    operation on [i128]/[u128] ([i64]/[u64]) into a call of a backend function on [u128] ([u64]),
    casting operands and results.  The backend functions written in Rust apply a closure. *)
From Coq Require Import ZArith List Bool.
From Verif Require Import Words Spec.
Import ListNotations.
Open Scope Z_scope.

(** Backend read-modify-write functions ([atomic_swap], [atomic_add], ...). *)
Inductive backend_fn :=
| FSwap (val : Z) | FAdd (val : Z) | FSub (val : Z) | FAnd (val : Z) | FNand (val : Z) | FOr (val : Z)
| FXor (val : Z) | FMax (val : Z) | FUmax (val : Z) | FMin (val : Z) | FUmin (val : Z) | FNot | FNeg.

(** Their closures on [u128]/[u64]: atomic128/riscv64.rs:485-612, atomic64/riscv32.rs:487-614,
    atomic64/arm_linux.rs:172-292 (and identically atomic128/macros.rs:259-345). *)
Definition closure (w : Z) (f : backend_fn) (x : Z) : Z :=
  let u := mk_ity w false in
  let i := mk_ity w true in
  match f with
  | FSwap val => val
  | FAdd val => wrapping_add u x val
  | FSub val => wrapping_sub u x val
  | FAnd val => bit_and u x val
  | FNand val => bit_not u (bit_and u x val)
  | FOr val => bit_or u x val
  | FXor val => bit_xor u x val
  | FMax val => cast u (cmp_max (cast i x) (cast i val))
  | FUmax val => cmp_max x val
  | FMin val => cast u (cmp_min (cast i x) (cast i val))
  | FUmin val => cmp_min x val
  | FNot => bit_not u x
  | FNeg => wrapping_neg u x
  end.

(** atomic128/macros.rs:59-247 and the invocations [atomic128!(AtomicI128, i128, atomic_max, atomic_min)],
    [atomic128!(AtomicU128, u128, atomic_umax, atomic_umin)] (riscv64.rs:633-634). *)
Definition select_fn (t : ity) (r : rmw) : backend_fn :=
  let u := mk_ity (ibits t) false in
  match r with
  | Swap v => FSwap (cast u v)
  | Add v => FAdd (cast u v)
  | Sub v => FSub (cast u v)
  | And v => FAnd (cast u v)
  | Nand v => FNand (cast u v)
  | Or v => FOr (cast u v)
  | Xor v => FXor (cast u v)
  | Max v => if isigned t then FMax (cast u v) else FUmax (cast u v)
  | Min v => if isigned t then FMin (cast u v) else FUmin (cast u v)
  | Not => FNot
  | Neg => FNeg
  end.
