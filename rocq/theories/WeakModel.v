(** * The lock-based fallback on the weak-memory machine: src/imp/fallback/{mod,seq_lock,seq_lock_wide,seq_lock_common}.rs

    Same code as FallbackModel.v (whose configuration, chunk layout and value computations are reused),
    but every access carries the ordering written in the source and the fences are actions.
    The non-atomic read under the lock (mod.rs:179) is modelled as relaxed reads of the chunks preceded
    by a write to the bookkeeping location [Rd a], used only to state the absence of data races.
    Not modelled: interrupt disabling around the critical section, back-off. *)
From Coq Require Import ZArith List Bool.
From Verif Require Import Words Spec OrderingModel FallbackModel WeakMem WeakSpec.
Import ListNotations.
Open Scope Z_scope.

(** Locations: the words of lock [k] ([state], [state_hi]), chunk [i] of the variable at [a], the
    bookkeeping location of its non-atomic reads, and the threads' own locations. *)
Inductive cloc := Lo (k : Z) | Hi (k : Z) | Ck (a : Z) (i : nat) | Rd (a : Z) | Cl (x : Z).
Definition cloc_eqb (x y : cloc) : bool :=
  match x, y with
  | Lo a, Lo b | Hi a, Hi b | Rd a, Rd b | Cl a, Cl b => a =? b
  | Ck a i, Ck b j => (a =? b) && Nat.eqb i j
  | _, _ => false
  end.

Section Code.
  Variable c : config.
  Local Notation chunks_of a := (len c (obj_ty c a)).

  (** [gh], [g], [g1] are ghosts: the timestamps read by the first [state_hi] load, the first [state]
      load and the second [state] load; no transition depends on them. *)
  Inductive wpc :=
  | Begin (a : Z) (o : op)                                    (* mod.rs:104-105 *)
  | OptHi (a : Z) (o : op)                                    (* seq_lock_wide.rs:43 *)
  | OptLo (a : Z) (o : op) (sh gh : Z)                        (* seq_lock.rs:33 / seq_lock_wide.rs:44 *)
  | OptRead (a : Z) (o : op) (sh sl : Z) (acc : list Z) (gh g : Z)     (* mod.rs:162-164 *)
  | ValFence (a : Z) (o : op) (sh sl v gh g : Z)              (* seq_lock.rs:46 / seq_lock_wide.rs:57 *)
  | ValLo (a : Z) (o : op) (sh sl v gh g : Z)                 (* seq_lock.rs:47 / seq_lock_wide.rs:64 *)
  | ValHi (a : Z) (o : op) (sh sl lo' v gh g g1 : Z)          (* seq_lock_wide.rs:68 *)
  | Acq (a : Z) (o : op)                                      (* seq_lock_common.rs:25 *)
  | Spin (a : Z) (o : op)                                     (* seq_lock_common.rs:41 *)
  | RelFence (a : Z) (o : op) (st : Z)                        (* seq_lock_common.rs:31 *)
  | Mark (a : Z) (o : op) (st : Z)                            (* mod.rs:179: start of the non-atomic read *)
  | LRead (a : Z) (o : op) (st : Z) (acc : list Z)            (* mod.rs:179 *)
  | LWrite (a : Z) (o : op) (st : Z) (new : list Z) (i : nat) (r : res)  (* mod.rs:199-201 *)
  | RelHiLd (a : Z) (o : op) (st : Z) (r : res)               (* seq_lock_wide.rs:86 *)
  | RelHiSt (a : Z) (o : op) (st h : Z) (r : res)             (* seq_lock_wide.rs:87 *)
  | Rel (a : Z) (o : op) (nx : Z) (r : res)                   (* seq_lock_common.rs:73 (abort) / 92 (drop) *)
  | End (r : res)                                             (* mod.rs:113-117: drop of the ScFenceGuard *)
  | Ret (r : res).

  (** mod.rs:379-385, 403-406, 411-413, 428-432, ...: [ScFenceGuard::new] runs before anything else and its
      drop, being declared first, after everything else *)
  Definition finish (o : op) (r : res) : wpc := if asks_sc o then End r else Ret r.
  Definition body (a : Z) (o : op) : wpc :=
    match o with
    | OLoad _ => if wide c then OptHi a o else OptLo a o 0 0
    | _ => Acq a o
    end.
  (** the rest of [optimistic_read], mod.rs:162-166 *)
  Definition more_opt (a : Z) (o : op) (sh sl : Z) (acc : list Z) (gh g : Z) : wpc :=
    if Nat.ltb (length acc) (chunks_of a) then OptRead a o sh sl acc gh g
    else ValFence a o sh sl (of_chunks c (obj_ty c a) acc) gh g.
  (** what each operation does with the value read under the lock, mod.rs:392-533 *)
  Definition more_read (a : Z) (o : op) (st : Z) (acc : list Z) : wpc :=
    let ty := obj_ty c a in
    if Nat.ltb (length acc) (len c ty) then LRead a o st acc
    else
      let prev := of_chunks c ty acc in
      match o with
      | OLoad _ | OStore _ _ => Rel a o st (RVal prev)
      | OCas cu new _ _ => if prev =? cu then LWrite a o st (to_chunks c ty new) 0 (ROk prev) else Rel a o st (RErr prev)
      | ORmw r _ => LWrite a o st (to_chunks c ty (rmw_next ty r prev)) 0 (RVal prev)
      end.
  (** after a chunk store; then [drop], seq_lock_common.rs:86-92, with [next_stamp], seq_lock.rs:53-55,
      seq_lock_wide.rs:79-91 *)
  Definition more_write (a : Z) (o : op) (st : Z) (new : list Z) (i : nat) (r : res) : wpc :=
    if Nat.ltb i (chunks_of a) then LWrite a o st new i r
    else if wide c && (next_lo c st =? 0) then RelHiLd a o st r
    else Rel a o (next_lo c st) r.

  Definition next (p : wpc) : todo cloc wpc res :=
    match p with
    | Begin a o => Do (Fence FSeqCst) (fun _ _ => body a o)
    | OptHi a o => Do (Load (Hi (lock_index a)) true) (fun t v => OptLo a o v t)
    | OptLo a o sh gh => Do (Load (Lo (lock_index a)) true)
        (fun t v => if v =? LOCKED then Acq a o else more_opt a o sh v [] gh t)
    | OptRead a o sh sl acc gh g => Do (Load (Ck a (length acc)) false)
        (fun _ v => more_opt a o sh sl (acc ++ [v]) gh g)
    | ValFence a o sh sl v gh g => Do (Fence FAcquire) (fun _ _ => ValLo a o sh sl v gh g)
    | ValLo a o sh sl v gh g => Do (Load (Lo (lock_index a)) (wide c))
        (fun t x => if wide c then ValHi a o sh sl x v gh g t
                    else if x =? sl then finish o (RVal v) else Acq a o)
    | ValHi a o sh sl lo' v gh g g1 => Do (Load (Hi (lock_index a)) false)
        (fun _ x => if (x =? sh) && (lo' =? sl) then finish o (RVal v) else Acq a o)
    | Acq a o => Do (Rmw (Lo (lock_index a)) (fun _ => Some LOCKED) true false)
        (fun _ prev => if prev =? LOCKED then Spin a o else RelFence a o prev)
    | Spin a o => Do (Load (Lo (lock_index a)) false) (fun _ v => if v =? LOCKED then Spin a o else Acq a o)
    | RelFence a o st => Do (Fence FRelease)
        (fun _ _ => match o with OStore v _ => LWrite a o st (to_chunks c (obj_ty c a) v) 0 RUnit | _ => Mark a o st end)
    | Mark a o st => Do (Store (Rd a) 0 false) (fun _ _ => LRead a o st [])
    | LRead a o st acc => Do (Load (Ck a (length acc)) false) (fun _ v => more_read a o st (acc ++ [v]))
    | LWrite a o st new i r => Do (Store (Ck a i) (nth i new 0) false) (fun _ _ => more_write a o st new (S i) r)
    | RelHiLd a o st r => Do (Load (Hi (lock_index a)) false) (fun _ h => RelHiSt a o st h r)
    | RelHiSt a o st h r => Do (Store (Hi (lock_index a)) ((h + 1) mod 2 ^ 32) true) (fun _ _ => Rel a o (next_lo c st) r)
    | Rel a o nx r => Do (Store (Lo (lock_index a)) nx true) (fun _ _ => finish o r)
    | End r => Do (Fence FSeqCst) (fun _ _ => Ret r)
    | Ret r => Give r
    end.
  Definition code (a : Z) (o : op) : option wpc :=
    match objs c a with
    | Some ty => if op_typedb ty o then
                   Some (if order_ok o then (if asks_sc o then Begin a o else body a o) else Ret RPanic)
                 else None
    | None => None
    end.
  (** All locks are [SeqLock::new()], every chunk holds its part of the initial value. *)
  Definition w_init (vars own : Z -> Z) : wst cloc wpc :=
    winit (fun x => match x with
      | Lo _ | Hi _ | Rd _ => 0
      | Ck a i => nth i (to_chunks c (obj_ty c a) (vars a)) 0
      | Cl x => own x
      end).

  (** The version counter is finite.  [lapped s t ts]: thread [t] is about to make its last validation
      load, reads the message at [ts], and the counter has gone round completely since its first one. *)
  Definition at_least (n : Z) (P : Z -> Prop) : Prop := exists l, NoDup l /\ n <= Z.of_nat (length l) /\ Forall P l.
  Definition lapped (s : wst cloc wpc) (t : nat) (ts : Z) : Prop :=
    let m := wmem (world_of s) in
    match confs s t with
    | Some (ValLo a o sh sl v gh g) => wide c = false /\
        at_least (2 ^ 63) (fun u => g < u <= ts /\ exists x, m (Lo (lock_index a)) u = Some x /\ mval x <> LOCKED)
    | Some (ValHi a o sh sl lo' v gh g g1) => wide c = true /\
        at_least (2 ^ 32) (fun u => gh < u <= ts /\ m (Hi (lock_index a)) u <> None)
    | _ => False
    end.
  Fixpoint never_lapped (s : wst cloc wpc) (ls : list (wlabel op)) : Prop :=
    match ls with
    | [] => True
    | l :: ls' => match l with LStep t ts => ~ lapped s t ts | _ => True end /\
                  match wstep cloc_eqb next code Cl s l with Some (s', _) => never_lapped s' ls' | None => True end
    end.

  (** A data race of the non-atomic read with a chunk store: a thread about to read non-atomically may
      not know some chunk store, or a thread about to store a chunk may not know some such read. *)
  Definition races (s : wst cloc wpc) (t : nat) : Prop :=
    let m := wmem (world_of s) in let v := cur (views s t) in
    match confs s t with
    | Some (Mark a _ _) | Some (LRead a _ _ _) => exists i u, v (Ck a i) < u /\ m (Ck a i) u <> None
    | Some (LWrite a _ _ _ _ _) => exists u, v (Rd a) < u /\ m (Rd a) u <> None
    | _ => False
    end.
End Code.
