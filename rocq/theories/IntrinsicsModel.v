(** * 128-bit atomics without inline assembly: src/imp/atomic128/intrinsics.rs

    Used under Miri and ThreadSanitizer (cfg portable_atomic_atomic_intrinsics is for tests).  One
    step is one call of a core intrinsic; the intrinsics themselves are trusted to be indivisible and to
    compute what their documentation says ([isem]).  Every intrinsic carries the ordering in its name, so that
    the crate's tables from requested to used orderings are part of the model.
    Simplification: on x86_64 without compile-time cmpxchg16b the crate may select the lock-based
    compare_exchange at run time (intrinsics.rs:145-158); both are indivisible (C01), so one constructor stands for both. *)
From Coq Require Import ZArith List Bool.
From Verif Require Import Words Spec WideSpec LoopModel AsmModel RustOps.
Import ListNotations.
Open Scope Z_scope.

(** The architectures the module is compiled for, and cfg(portable_atomic_pre_llvm_18). *)
Inductive iarch := IX86_64 | IAarch64 | IPowerpc64 | IS390x.
Record icfg := mk_icfg { iarch_of : iarch; pre_llvm_18 : bool }.

(** core::intrinsics::atomic_{load,store}_{order}, atomic_{xchg,xadd,..}_{order}, atomic_cxchg(weak)_{success}_{failure},
    and core::arch::x86_64::cmpxchg16b(dst, old, new, success, failure). *)
Inductive fetch_op := KXchg | KXadd | KXsub | KAnd | KNand | KOr | KXor | KMax | KMin | KUmax | KUmin.
Inductive intrinsic :=
| KLoad (o : ordering)
| KStore (v : Z) (o : ordering)
| KFetch (op : fetch_op) (v : Z) (o : ordering)
| KCxchg (weak : bool) (old new : Z) (success failure : ordering)
| KCmpxchg16b (old new : Z) (success failure : ordering).

(** What an intrinsic does to a variable that holds the bit pattern [x]. *)
Definition as_i128 (b : Z) : Z := if 2 ^ 127 <=? b then b - 2 ^ 128 else b.
Definition fetch_sem (op : fetch_op) (v x : Z) : Z :=
  match op with
  | KXchg => v
  | KXadd => (x + v) mod 2 ^ 128
  | KXsub => (x - v) mod 2 ^ 128
  | KAnd => Z.land x v
  | KNand => 2 ^ 128 - 1 - Z.land x v
  | KOr => Z.lor x v
  | KXor => Z.lxor x v
  | KMax => if as_i128 x <? as_i128 v then v else x
  | KMin => if as_i128 x <? as_i128 v then x else v
  | KUmax => if x <? v then v else x
  | KUmin => if x <? v then x else v
  end.
Definition isem (k : intrinsic) (sp : bool) (x : Z) : option Z * (Z * bool) :=
  match k with
  | KLoad _ => (None, (x, true))
  | KStore v _ => (Some v, (x, true))
  | KFetch op v _ => (Some (fetch_sem op v x), (x, true))
  | KCxchg weak old new _ _ => if (x =? old) && negb (weak && sp) then (Some new, (x, true)) else (None, (x, false))
  | KCmpxchg16b old new _ _ => if x =? old then (Some new, (x, x =? old)) else (None, (x, x =? old))   (* (prev, prev == old): 135-136 *)
  end.

Section Intrinsics.
  Variable g : icfg.
  Definition is_x86 : bool := match iarch_of g with IX86_64 => true | _ => false end.

  (** [None] below is [unreachable!()]. *)
  (** strongest_failure_ordering: 52-59 *)
  Definition strongest_failure_ordering (order : ordering) : option ordering :=
    match order with
    | Release | Relaxed => Some Relaxed
    | SeqCst => Some SeqCst
    | Acquire | AcqRel => Some Acquire
    end.
  (** atomic_compare_exchange: 106-183 *)
  Definition i_cas (old new : Z) (success failure : ordering) : option intrinsic :=
    if is_x86 then Some (KCmpxchg16b old new success failure) else
    match success, failure with
    | Relaxed, Relaxed => Some (KCxchg false old new Relaxed Relaxed)
    | Relaxed, Acquire => Some (KCxchg false old new Relaxed Acquire)
    | Relaxed, SeqCst => Some (KCxchg false old new Relaxed SeqCst)
    | Acquire, Relaxed => Some (KCxchg false old new Acquire Relaxed)
    | Acquire, Acquire => Some (KCxchg false old new Acquire Acquire)
    | Acquire, SeqCst => Some (KCxchg false old new Acquire SeqCst)
    | Release, Relaxed => Some (KCxchg false old new Release Relaxed)
    | Release, Acquire => Some (KCxchg false old new Release Acquire)
    | Release, SeqCst => Some (KCxchg false old new Release SeqCst)
    | AcqRel, Relaxed => Some (KCxchg false old new AcqRel Relaxed)
    | AcqRel, Acquire => Some (KCxchg false old new AcqRel Acquire)
    | AcqRel, SeqCst => Some (KCxchg false old new AcqRel SeqCst)
    | SeqCst, Relaxed => Some (KCxchg false old new SeqCst Relaxed)
    | SeqCst, Acquire => Some (KCxchg false old new SeqCst Acquire)
    | SeqCst, SeqCst => Some (KCxchg false old new SeqCst SeqCst)
    | _, _ => None
    end.
  (** atomic_compare_exchange_weak: 185-219 *)
  Definition i_cas_weak (old new : Z) (success failure : ordering) : option intrinsic :=
    if is_x86 then i_cas old new success failure else
    match success, failure with
    | Relaxed, Relaxed => Some (KCxchg true old new Relaxed Relaxed)
    | Relaxed, Acquire => Some (KCxchg true old new Relaxed Acquire)
    | Relaxed, SeqCst => Some (KCxchg true old new Relaxed SeqCst)
    | Acquire, Relaxed => Some (KCxchg true old new Acquire Relaxed)
    | Acquire, Acquire => Some (KCxchg true old new Acquire Acquire)
    | Acquire, SeqCst => Some (KCxchg true old new Acquire SeqCst)
    | Release, Relaxed => Some (KCxchg true old new Release Relaxed)
    | Release, Acquire => Some (KCxchg true old new Release Acquire)
    | Release, SeqCst => Some (KCxchg true old new Release SeqCst)
    | AcqRel, Relaxed => Some (KCxchg true old new AcqRel Relaxed)
    | AcqRel, Acquire => Some (KCxchg true old new AcqRel Acquire)
    | AcqRel, SeqCst => Some (KCxchg true old new AcqRel SeqCst)
    | SeqCst, Relaxed => Some (KCxchg true old new SeqCst Relaxed)
    | SeqCst, Acquire => Some (KCxchg true old new SeqCst Acquire)
    | SeqCst, SeqCst => Some (KCxchg true old new SeqCst SeqCst)
    | _, _ => None
    end.
  (** atomic_load: 63-82 (both Ok(v) and Err(v) of the compare_exchange give v) *)
  Definition i_load (order : ordering) : option intrinsic :=
    if is_x86 then
      match strongest_failure_ordering order with
      | Some fail_order => i_cas 0 0 order fail_order
      | None => None
      end
    else
      match order with
      | Acquire => Some (KLoad Acquire)
      | Relaxed => Some (KLoad Relaxed)
      | SeqCst => Some (KLoad SeqCst)
      | _ => None
      end.
  (** atomic_store, not x86_64: 92-102 *)
  Definition i_store (v : Z) (order : ordering) : option intrinsic :=
    match order with
    | Release => Some (KStore v Release)
    | Relaxed => Some (KStore v Relaxed)
    | SeqCst => Some (KStore v SeqCst)
    | _ => None
    end.
  (** atomic_swap .. atomic_umin by intrinsics: 250-453 *)
  Definition i_fetch (op : fetch_op) (v : Z) (order : ordering) : option intrinsic :=
    match order with
    | Acquire => Some (KFetch op v Acquire)
    | Release => Some (KFetch op v Release)
    | AcqRel => Some (KFetch op v AcqRel)
    | Relaxed => Some (KFetch op v Relaxed)
    | SeqCst => Some (KFetch op v SeqCst)
    end.

  (** Points of the functions. *)
  Inductive iconf :=
  | IDo (a : Z) (k : intrinsic) (fin : Z * bool -> res)
  | IUpdLoad (a : Z) (f : backend_fn) (order : ordering) (fin : Z * bool -> res)             (* atomic_update: 231 *)
  | IUpdTry (a : Z) (f : backend_fn) (order : ordering) (fin : Z * bool -> res) (prev : Z)   (* 232-238 *)
  | IUnreachable
  | IRet (r : res).

  Definition inext (c : iconf) : action iconf res :=
    match c with
    | IDo a k fin => AAtomic a (isem k) (fun out => IRet (fin out))
    | IUpdLoad a f order fin =>
        match i_load Relaxed with
        | Some k => AAtomic a (isem k) (fun out => IUpdTry a f order fin (fst out))
        | None => AStuck
        end
    | IUpdTry a f order fin prev =>
        match i_cas_weak prev (closure 128 f prev) order Relaxed with
        | Some k => AAtomic a (isem k) (fun out => if snd out then IRet (fin out) else IUpdTry a f order fin (fst out))
        | None => AStuck
        end
    | IUnreachable => AStuck
    | IRet r => ADone r
    end.

  (** Which functions are closures over atomic_update (244-250, 370-374, 466-468), which are intrinsics. *)
  Definition by_update : bool :=
    match iarch_of g with IX86_64 => true | IS390x => pre_llvm_18 g | _ => false end.
  Definition cmp_by_update : bool := by_update || match iarch_of g with IPowerpc64 => true | _ => false end.
  Definition do_ (a : Z) (k : option intrinsic) (fin : Z * bool -> res) : iconf :=
    match k with Some k => IDo a k fin | None => IUnreachable end.
  Definition i_rmw (a : Z) (f : backend_fn) (order : ordering) (fin : Z * bool -> res) : iconf :=
    let upd := IUpdLoad a f order fin in
    match f with
    | FSwap v => if by_update then upd else do_ a (i_fetch KXchg v order) fin
    | FAdd v => if by_update then upd else do_ a (i_fetch KXadd v order) fin
    | FSub v => if by_update then upd else do_ a (i_fetch KXsub v order) fin
    | FAnd v => if by_update then upd else do_ a (i_fetch KAnd v order) fin
    | FNand v => if by_update then upd else do_ a (i_fetch KNand v order) fin
    | FOr v => if by_update then upd else do_ a (i_fetch KOr v order) fin
    | FXor v => if by_update then upd else do_ a (i_fetch KXor v order) fin
    | FMax v => if cmp_by_update then upd else do_ a (i_fetch KMax v order) fin
    | FMin v => if cmp_by_update then upd else do_ a (i_fetch KMin v order) fin
    | FUmax v => if cmp_by_update then upd else do_ a (i_fetch KUmax v order) fin
    | FUmin v => if cmp_by_update then upd else do_ a (i_fetch KUmin v order) fin
    | FNot => if by_update then upd else do_ a (i_fetch KXor (bit_not u128 0) order) fin   (* 460: atomic_xor(dst, !0, order) *)
    | FNeg => upd                                                                          (* 468; macros.rs:311 *)
    end.

  (** The public operations (atomic128!, macros.rs:3-255). *)
  Definition fin_value (t : ity) (out : Z * bool) : res := RVal (cast t (fst out)).
  Definition fin_cas (t : ity) (out : Z * bool) : res :=
    if snd out then ROk (cast t (fst out)) else RErr (cast t (fst out)).
  Definition i_code_of (ty : Z -> ity) (a : Z) (o : wop) : option iconf :=
    let t := ty a in
    let u := mk_ity (ibits t) false in
    if negb ((ibits t =? 128) && callable t o) then None else
    match o with
    | WOp (OLoad order) => Some (do_ a (i_load order) (fin_value t))
    | WOp (OStore v order) =>
        Some (if is_x86 then i_rmw a (FSwap (cast u v)) order (fun _ => RUnit)      (* 90 *)
              else do_ a (i_store (cast u v) order) (fun _ => RUnit))
    | WOp (ORmw r order) => Some (i_rmw a (select_fn t r) order (fin_value t))
    | WOp (OCas c n s f) => Some (do_ a (i_cas (cast u c) (cast u n) s f) (fin_cas t))
    | WCasWeak c n s f => Some (do_ a (i_cas_weak (cast u c) (cast u n) s f) (fin_cas t))
    end.

  (** The intrinsics a call makes, with what each returned (memory answers anything). *)
  Definition intrinsic_at (c : iconf) : option intrinsic :=
    match c with
    | IDo _ k _ => Some k
    | IUpdLoad _ _ _ _ => i_load Relaxed
    | IUpdTry _ f order _ prev => i_cas_weak prev (closure 128 f prev) order Relaxed
    | _ => None
    end.
  Inductive calls (c : iconf) : list (intrinsic * (Z * bool)) -> iconf -> Prop :=
  | calls_nil : calls c [] c
  | calls_snoc tr c1 k a f kont sp x : calls c tr c1 -> intrinsic_at c1 = Some k -> inext c1 = AAtomic a f kont ->
      calls c (tr ++ [(k, snd (f sp x))]) (kont (snd (f sp x))).
  Definition performs (ty : Z -> ity) (o : wop) (tr : list (intrinsic * (Z * bool))) (r : res) : Prop :=
    exists a c c', i_code_of ty a o = Some c /\ calls c tr c' /\ inext c' = ADone r.
End Intrinsics.
