(** * RISC-V Zacas backends: src/imp/atomic128/riscv64.rs and src/imp/atomic64/riscv32.rs

    The two files are the same code for XLEN = 64 (128-bit variables, amocas.q) and XLEN = 32
    (64-bit variables, amocas.d); [w] is XLEN.  Only the functions used when Zacas is available are
    here (selection: DispatchModel.v; instruction encodings: EncodeModel.v; orderings and the
    optional "fence rw,rw": TraceBackends.v).  A configuration is a point of the Rust function. *)
From Coq Require Import ZArith List Bool.
From Verif Require Import Words Spec WideSpec LoopModel AsmModel RustOps.
Import ListNotations.
Open Scope Z_scope.

Section Zacas.
  Variable w : Z.

  (** src/utils.rs:496-535 [U128]/[U64] and [Pair], little endian: [pair.lo] is the low half. *)
  Definition lo (x : Z) : Z := x mod 2 ^ w.
  Definition hi (x : Z) : Z := x / 2 ^ w.
  Definition whole_of (l h : Z) : Z := l + 2 ^ w * h.

  (** amocas rd, rs2, (dst): "atomic { if *dst == rd { *dst = rs2 } else { rd = *dst } }"
      (riscv64.rs:173, 316): what is written, and the pair left in rd. *)
  Definition amocas (rd_lo rd_hi rs2_lo rs2_hi : Z) (x : Z) : option Z * (Z * Z) :=
    if x =? whole_of rd_lo rd_hi then (Some (whole_of rs2_lo rs2_hi), (rd_lo, rd_hi))
    else (None, (lo x, hi x)).

  (** Points of the functions.  [fin]: what the public wrapper makes of the backend's result
      (atomic128/macros.rs). *)
  Inductive zconf :=
  | ZLoad (dst : Z) (fin : Z -> res)                          (* atomic_load_zacas: riscv64.rs:160-202 *)
  | ZCas (dst old new : Z) (fin : Z * bool -> res)            (* atomic_compare_exchange_zacas: 294-354 *)
  | ZReadLo (dst : Z) (f : backend_fn) (fin : Z -> res)           (* byte_wise_atomic_load: 361-376, first ld *)
  | ZReadHi (dst : Z) (f : backend_fn) (fin : Z -> res) (l : Z)   (* second ld *)
  | ZLoop (dst : Z) (f : backend_fn) (fin : Z -> res) (prev : Z)  (* zacas_fn, head of the loop: 398-406 *)
  | ZRet (r : res).

  (** [AAtomic]'s return value is a number and a flag; the pair of registers is passed as one number. *)
  Definition amocas_access (rd_lo rd_hi rs2_lo rs2_hi : Z) (x : Z) : option Z * (Z * bool) :=
    let '(wr, (l, h)) := amocas rd_lo rd_hi rs2_lo rs2_hi x in (wr, (whole_of l h, true)).

  Definition znext (c : zconf) : action zconf res :=
    match c with
    | ZLoad dst fin => AAtomic dst (fun _ => amocas_access 0 0 0 0) (fun out => ZRet (fin (fst out)))
    | ZCas dst old new fin =>
        AAtomic dst (fun _ => amocas_access (lo old) (hi old) (lo new) (hi new))
          (fun out => let prev := fst out in ZRet (fin (prev, prev =? old)))
    | ZReadLo dst f fin => ARead dst w 0 (fun l => ZReadHi dst f fin l)
    | ZReadHi dst f fin l => ARead dst w 1 (fun h => ZLoop dst f fin (whole_of l h))
    | ZLoop dst f fin prev =>
        let next := closure (2 * w) f prev in
        AAtomic dst (fun _ => amocas_access (lo prev) (hi prev) (lo next) (hi next))
          (fun out => let p := fst out in
                      if p =? prev then ZRet (fin p)        (* Ok(x) => return x *)
                      else ZLoop dst f fin p)               (* Err(x) => prev = x *)
    | ZRet r => ADone r
    end.

  (** The public operations (atomic128!/atomic64!); store is swap with the result dropped
      (riscv64.rs:205-210); compare_exchange_weak is compare_exchange (357). *)
  Definition z_code_of (ty : Z -> ity) (a : Z) (o : wop) : option zconf :=
    let t := ty a in
    let u := mk_ity (ibits t) false in
    if negb ((ibits t =? 2 * w) && callable t o) then None else
    match o with
    | WOp (OLoad _) => Some (ZLoad a (fun x => RVal (cast t x)))
    | WOp (OStore v _) => Some (ZReadLo a (FSwap (cast u v)) (fun _ => RUnit))
    | WOp (ORmw r _) => Some (ZReadLo a (select_fn t r) (fun x => RVal (cast t x)))
    | WOp (OCas c n _ _) | WCasWeak c n _ _ =>
        Some (ZCas a (cast u c) (cast u n) (fun '(x, ok) => if ok then ROk (cast t x) else RErr (cast t x)))
    end.
End Zacas.
