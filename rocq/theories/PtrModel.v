(** * Pointers with provenance

    The pointer-typed path of AtomicPtr: imp/core_atomic.rs:115-200 under Miri and
    imp/interrupt/mod.rs:279-325 (single-core targets), with the [with_addr] of core or the polyfill of
    utils.rs:677-689.  The remaining path (core_atomic.rs, not Miri) works on a usize and re-creates the
    returned pointer with exposed provenance; the crate documents it as permissive-provenance only, and
    nothing about provenance is claimed for it here. *)
From Coq Require Import ZArith.
From Verif Require Import Words FrontSpec.
Open Scope Z_scope.

(** A pointer: which allocation it may access, and its address ([w] bits). *)
Record ptr := mk_ptr { prov : Z; addr : Z }.
Definition usz (w : Z) : ity := mk_ity w false.
Definition isz (w : Z) : ity := mk_ity w true.
(** core: [<*mut u8>::wrapping_offset] keeps the provenance and adds to the address modulo [2^w]. *)
Definition wrapping_offset (w : Z) (p : ptr) (off : Z) : ptr :=
  mk_ptr (prov p) (wrapping_add (usz w) (addr p) (cast (usz w) off)).
(** utils.rs:677-689 *)
Definition with_addr_polyfill (w : Z) (p : ptr) (a : Z) : ptr :=
  let self_addr := cast (isz w) (addr p) in
  let dest_addr := cast (isz w) a in
  let offset := wrapping_sub (isz w) dest_addr self_addr in
  wrapping_offset w p offset.
(** core's [with_addr] *)
Definition with_addr_core (w : Z) (p : ptr) (a : Z) : ptr := mk_ptr (prov p) a.
Definition with_addr (w : Z) (polyfill : bool) : ptr -> Z -> ptr :=
  if polyfill then with_addr_polyfill w else with_addr_core w.

(** What is stored for each operation; core_atomic.rs:123, 139, 155, 171, 187, interrupt/mod.rs:286-322;
    the element-wise versions multiply by [size_of::<T>()] first (lib.rs:2276, 2312). *)
Definition next_ptr (w size : Z) (polyfill : bool) (o : ptrop) (p : ptr) : ptr :=
  let wa := with_addr w polyfill p in
  match o with
  | ByteAdd v => wa (wrapping_add (usz w) (addr p) v)
  | ByteSub v => wa (wrapping_sub (usz w) (addr p) v)
  | PtrAdd v => wa (wrapping_add (usz w) (addr p) (wrapping_mul (usz w) v size))
  | PtrSub v => wa (wrapping_sub (usz w) (addr p) (wrapping_mul (usz w) v size))
  | PtrOr v => wa (bit_or (usz w) (addr p) v)
  | PtrAnd v => wa (bit_and (usz w) (addr p) v)
  | PtrXor v => wa (bit_xor (usz w) (addr p) v)
  end.
