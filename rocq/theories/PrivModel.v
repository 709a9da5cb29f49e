(** * Model of the lock-based fallback together with interrupts: src/imp/fallback/seq_lock_common.rs with
    [portable_atomic_unsafe_assume_privileged]

    Any number of cores.  On every core the running context (the core's program, or an interrupt handler) executes the
    fallback's code of FallbackModel.v; it can be interrupted between any two steps whenever its status register allows
    it, the handler is again arbitrary code that uses the same atomics, may itself be interrupted, and returns to the
    interrupted context.  With the cfg, taking the lock is preceded by the instructions of [interrupt::disable] and
    releasing it followed by those of [interrupt::restore] (IntModel.v).
    Simplification: memory is sequentially consistent, as in FallbackModel.v. *)
From Coq Require Import ZArith List Bool.
From Verif Require Import Words Spec OrderingModel FallbackModel RiscvModel IntModel.
Import ListNotations.
Open Scope Z_scope.

Section Machine.
  (** [privileged]: the cfg portable_atomic_unsafe_assume_privileged *)
  Variables (ar : arch) (c : config) (privileged : bool).

  (** Where a context is with respect to the guard's interrupt state. *)
  Inductive phase :=
  | Unguarded
  | Disabling (rest : list sinstr)       (* inside interrupt::disable(), seq_lock_common.rs:20-21 *)
  | Guarded                              (* seq_lock_common.rs:23-45, and as long as the guard lives *)
  | Restoring (rest : list sinstr).      (* inside interrupt::restore(..), seq_lock_common.rs:75-80, 94-99 *)
  (** A context is one thread of the fallback's machine. *)
  Record context := mk_context { thread : nat; regs : sregs; ph : phase }.
  Record pstate := mk_pstate {
    inner : state;                       (* memory, locks and program counters *)
    stacks : nat -> list context;        (* per core, head: the running context *)
    fresh : nat }.                       (* the next handler's thread number *)

  Inductive action :=
  | AStep (call : option (Z * op))  (* the running context goes on (or calls an operation) *)
  | ASetStatus (s : Z)              (* between operations it changes the status register as it likes *)
  | ASide (v : Z)                   (* side effect of some instruction on the flags *)
  | AInterrupt (s : Z)              (* an interrupt is taken; the handler starts with status [s] *)
  | AReturn.                        (* the handler returns *)
  Record plabel := on { core : nat; act : action }.

  Definition pobs := (event op res * Z)%type.     (* an event and the status register at that moment *)

  Definition with_top (s : pstate) (k : nat) (x : context) (below : list context) : pstate :=
    mk_pstate (inner s) (set_n (stacks s) k (x :: below)) (fresh s).
  Definition in_phase (x : context) (p : phase) : context := mk_context (thread x) (regs x) p.

  (** The next step of the fallback's code. *)
  Definition plain_step (s : pstate) (x : context) (cl : option (Z * op)) : option (pstate * list pobs) :=
    match step c (inner s) (mk_label (thread x) cl) with
    | Some (i, e) => Some (mk_pstate i (stacks s) (fresh s), map (fun ev => (ev, status (regs x))) e)
    | None => None
    end.

  Definition idle (s : pstate) (x : context) : bool :=
    match ph x, pcs (inner s) (thread x) with Unguarded, Idle => true | _, _ => false end.

  Definition pstep (s : pstate) (l : plabel) : option (pstate * list pobs) :=
    let k := core l in
    match stacks s k with
    | [] => None
    | x :: below =>
      match act l with
      | AStep cl =>
        match ph x, pcs (inner s) (thread x) with
        | Unguarded, Acq _ _ =>
          if privileged then Some (with_top s k (in_phase x (Disabling (disable_code ar))) below, [])  (* 20-21 *)
          else plain_step s x cl
        | Disabling (i :: rest), _ =>
          Some (with_top s k (mk_context (thread x) (sexec i (regs x)) (Disabling rest)) below, [])
        | Disabling [], _ => Some (with_top s k (in_phase x Guarded) below, [])
        | Guarded, Fin _ =>                                                                            (* 75-80, 94-99 *)
          Some (with_top s k (in_phase x (Restoring (restore_code ar))) below, [])
        | Restoring (i :: rest), _ =>
          Some (with_top s k (mk_context (thread x) (sexec i (regs x)) (Restoring rest)) below, [])
        | Restoring [], _ => Some (with_top s k (in_phase x Unguarded) below, [])
        | _, _ => plain_step s x cl
        end
      | ASetStatus v =>
        if idle s x then Some (with_top s k (mk_context (thread x) (with_status (regs x) v) (ph x)) below, []) else None
      | ASide v =>
        Some (with_top s k (mk_context (thread x) (with_status (regs x) (noise ar v (status (regs x)))) (ph x)) below, [])
      | AInterrupt v =>
        if deliverable ar (status (regs x)) then
          Some (mk_pstate (inner s) (set_n (stacks s) k (mk_context (fresh s) (mk_sregs v 0 0) Unguarded :: x :: below)) (S (fresh s)), [])
        else None
      | AReturn =>
        match below with
        | _ :: _ => if idle s x then Some (mk_pstate (inner s) (set_n (stacks s) k below) (fresh s), []) else None
        | [] => None
        end
      end
    end.

  Fixpoint prun (s : pstate) (ls : list plabel) : option (pstate * list pobs) :=
    match ls with
    | [] => Some (s, [])
    | l :: ls' =>
      match pstep s l with
      | Some (s', e) => match prun s' ls' with Some (s'', es) => Some (s'', e ++ es) | None => None end
      | None => None
      end
    end.
  (** [n] cores, each running its program with some status register. *)
  Definition pinit (n : nat) (m : Z -> Z) (s0 : nat -> Z) : pstate :=
    mk_pstate (init m) (fun k => if Nat.ltb k n then [mk_context k (mk_sregs (s0 k) 0 0) Unguarded] else []) n.
  Definition phistory (h : list pobs) : list (event op res) := map fst h.
End Machine.
