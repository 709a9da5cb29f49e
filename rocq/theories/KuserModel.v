(** * 64-bit atomics on pre-v6K Arm Linux/Android: src/imp/atomic64/arm_linux.rs

    Only the functions used when the kernel provides __kuser_cmpxchg64; otherwise the lock-based
    fallback is used (DispatchModel.v).  A configuration is a point of the Rust function. *)
From Coq Require Import ZArith List Bool.
From Verif Require Import Words Spec WideSpec LoopModel AsmModel RustOps.
Import ListNotations.
Open Scope Z_scope.

Section Kuser.
  (** big-endian target *)
  Variable be : bool.

  (** src/utils.rs:510-535: on Arm [pair.lo] is the word at the lower address on either endianness;
      the union reads the two words back as one 64-bit number. *)
  Definition whole_of (l h : Z) : Z := if be then h + 2 ^ 32 * l else l + 2 ^ 32 * h.
  (** which half of the variable lives at the lower / higher address *)
  Definition piece_lo : nat := if be then 1%nat else 0%nat.
  Definition piece_hi : nat := if be then 0%nat else 1%nat.

  (** The backend functions: [KRmw]: select_atomic! with the closures 172-292 (and 165-170 [store], which is
      swap); [KLoad]: 158-163; [KCas]: 179-214. *)
  Inductive kfn := KLoad | KRmw (f : backend_fn) | KCas (old new : Z).
  (** next value, 127-130 and 195 *)
  Definition k_next (f : kfn) (prev : Z) : Z :=
    match f with
    | KLoad => prev
    | KRmw g => closure 64 g prev
    | KCas old new => if prev =? old then new else prev
    end.
  (** returned on success, 132 and 197 *)
  Definition k_ret (f : kfn) (prev : Z) : Z * bool :=
    match f with
    | KCas old _ => (prev, prev =? old)
    | _ => (prev, true)
    end.

  Inductive kconf :=
  | KReadLo (dst : Z) (f : kfn) (fin : Z * bool -> res)            (* byte_wise_atomic_load, 90-104: ldr lo *)
  | KReadHi (dst : Z) (f : kfn) (fin : Z * bool -> res) (l : Z)    (* ldr hi *)
  | KTry (dst : Z) (f : kfn) (fin : Z * bool -> res) (prev : Z)    (* before __kuser_cmpxchg64, 131 / 196 *)
  | KRet (r : res).

  Definition knext (c : kconf) : action kconf res :=
    match c with
    | KReadLo dst f fin => ARead dst 32 piece_lo (fun l => KReadHi dst f fin l)
    | KReadHi dst f fin l => ARead dst 32 piece_hi (fun h => KTry dst f fin (whole_of l h))
    | KTry dst f fin prev =>
        let next := k_next f prev in
        (* __kuser_cmpxchg64 (79-87): returns 0 iff the exchange happened; the kernel may also fail it
           without a reason ([spurious]) *)
        AAtomic dst (fun sp x => if (x =? prev) && negb sp then (Some next, (0, true)) else (None, (1, false)))
          (fun out => if fst out =? 0 then KRet (fin (k_ret f prev)) else KReadLo dst f fin)
    | KRet r => ADone r
    end.

  (** atomic64!(AtomicI64, i64, atomic_max, atomic_min), atomic64!(AtomicU64, u64, atomic_umax, atomic_umin). *)
  Definition k_code_of (ty : Z -> ity) (a : Z) (o : wop) : option kconf :=
    let t := ty a in
    let u := mk_ity (ibits t) false in
    if negb ((ibits t =? 64) && callable t o) then None else
    match o with
    | WOp (OLoad _) => Some (KReadLo a KLoad (fun p => RVal (cast t (fst p))))
    | WOp (OStore v _) => Some (KReadLo a (KRmw (FSwap (cast u v))) (fun _ => RUnit))
    | WOp (ORmw r _) => Some (KReadLo a (KRmw (select_fn t r)) (fun p => RVal (cast t (fst p))))
    | WOp (OCas c n _ _) | WCasWeak c n _ _ =>
        Some (KReadLo a (KCas (cast u c) (cast u n)) (fun '(x, ok) => if ok then ROk (cast t x) else RErr (cast t x)))
    end.
End Kuser.
