(** * Backends that wrap core's atomics: src/imp/core_atomic.rs, and the public [fetch_update] of src/lib.rs

    core's own load, store, swap, compare_exchange(_weak) and fetch_* are trusted to be indivisible
    and to compute what their documentation says ([prim]); the crate's code around them is modelled.
    [fetch_update] (lib.rs:3659-3676 for integers, 1594-1611 for AtomicBool, 2222-2239 for AtomicPtr,
    4584 for floats) only uses the public [load] and
    [compare_exchange_weak], which are atomic on every backend (C01, C11, C14, C20), so it is
    modelled over indivisible ones for variables of any width. *)
From Coq Require Import ZArith List Bool.
From Verif Require Import Words Spec WideSpec LoopModel AsmModel FallbackModel.
Import ListNotations.
Open Scope Z_scope.

(** The public operations with [fetch_update].  A closure may be stateful: [f hist x] is what it
    returns for [x] after having been called with the values [hist] before. *)
Inductive uop :=
| UOp (o : wop)
| UFetchUpdate (f : list Z -> Z -> option Z) (set_order fetch_order : ordering).

(** core_atomic.rs configuration: [no_min_max]: cfg(portable_atomic_no_atomic_min_max);
    [small_min_max_broken]: one of the architectures listed at 384-405. *)
Record cfg := mk_cfg { no_min_max : bool; small_min_max_broken : bool }.

(** core's indivisible operations on a variable of type [t], on bit patterns. *)
Inductive prim := PLoad | PStore (v : Z) | PRmw (r : rmw) | PCas (c n : Z) | PCasWeak (c n : Z).

Inductive cconf :=
| CPrim (a : Z) (t : ity) (p : prim)
| CUpdLoad (a : Z) (t : ity) (f : Z -> Z)                    (* fetch_update_, core_atomic.rs:364-378: load *)
| CUpdTry (a : Z) (t : ity) (f : Z -> Z) (prev : Z)          (* loop: compare_exchange_weak(prev, f(prev)) *)
| CFuLoad (a : Z) (t : ity) (f : list Z -> Z -> option Z)    (* lib.rs:3668 *)
| CFuTry (a : Z) (t : ity) (f : list Z -> Z -> option Z) (hist : list Z) (prev : Z)   (* lib.rs:3669-3674 *)
| CRet (r : res).

Definition weak_cas (t : ity) (c n : Z) (sp : bool) (x : Z) : option Z * (Z * bool) :=
  if (x =? to_bits t c) && negb sp then (Some (to_bits t n), (x, true)) else (None, (x, false)).

Definition cnext (c : cconf) : action cconf res :=
  match c with
  | CPrim a t PLoad => AAtomic a (fun _ x => (None, (x, true))) (fun out => CRet (RVal (of_bits t (fst out))))
  | CPrim a t (PStore v) => AAtomic a (fun _ x => (Some (to_bits t v), (x, true))) (fun _ => CRet RUnit)
  | CPrim a t (PRmw r) =>
      AAtomic a (fun _ x => (Some (to_bits t (rmw_next t r (of_bits t x))), (x, true)))
        (fun out => CRet (RVal (of_bits t (fst out))))
  | CPrim a t (PCas cu n) =>
      AAtomic a (fun _ => weak_cas t cu n false)
        (fun out => CRet (if snd out then ROk (of_bits t (fst out)) else RErr (of_bits t (fst out))))
  | CPrim a t (PCasWeak cu n) =>
      AAtomic a (weak_cas t cu n)
        (fun out => CRet (if snd out then ROk (of_bits t (fst out)) else RErr (of_bits t (fst out))))
  | CUpdLoad a t f => ARead a (ibits t) 0 (fun x => CUpdTry a t f (of_bits t x))
  | CUpdTry a t f prev =>
      AAtomic a (weak_cas t prev (f prev))
        (fun out => if snd out then CRet (RVal (of_bits t (fst out))) else CUpdTry a t f (of_bits t (fst out)))
  | CFuLoad a t f => ARead a (ibits t) 0 (fun x => CFuTry a t f [] (of_bits t x))
  | CFuTry a t f hist prev =>
      match f hist prev with
      | None => ADone (RErr prev)
      | Some next =>
        AAtomic a (weak_cas t prev next)
          (fun out => if snd out then CRet (ROk (of_bits t (fst out)))
                      else CFuTry a t f (hist ++ [prev]) (of_bits t (fst out)))
      end
  | CRet r => ADone r
  end.

(** fetch_max / fetch_min: core_atomic.rs:381-490. *)
Definition min_max_by_loop (g : cfg) (t : ity) : bool :=
  no_min_max g || (small_min_max_broken g && (ibits t <=? 16)).

(** Rust closures can only return values of the variable's type. *)
Definition typed_closure (t : ity) (f : list Z -> Z -> option Z) : list Z -> Z -> option Z :=
  fun hist x => match f hist x with Some y => Some (norm t y) | None => None end.

Definition c_code_of (g : cfg) (ty : Z -> ity) (a : Z) (o : uop) : option cconf :=
  let t := ty a in
  match o with
  | UOp o =>
    if negb (callable t o) then None else
    match o with
    | WOp (OLoad _) => Some (CPrim a t PLoad)
    | WOp (OStore v _) => Some (CPrim a t (PStore v))
    | WOp (OCas c n _ _) => Some (CPrim a t (PCas c n))
    | WCasWeak c n _ _ => Some (CPrim a t (PCasWeak c n))
    | WOp (ORmw r _) =>
      match r with
      | Max v => Some (if min_max_by_loop g t then CUpdLoad a t (fun x => cmp_max x v) else CPrim a t (PRmw r))
      | Min v => Some (if min_max_by_loop g t then CUpdLoad a t (fun x => cmp_min x v) else CPrim a t (PRmw r))
      | Not => Some (CPrim a t (PRmw (Xor (bit_not t 0))))          (* 491-493: fetch_xor(!0) *)
      | Neg => Some (CUpdLoad a t (wrapping_neg t))                 (* 497-499 *)
      | _ => Some (CPrim a t (PRmw r))                              (* Deref to core *)
      end
    end
  | UFetchUpdate f _ fo =>
    match fo with
    | Release | AcqRel => None                                      (* self.load(fetch_order) panics, C08 *)
    | _ => Some (CFuLoad a t (typed_closure t f))
    end
  end.
