(** * Model of [fetch_update] (lib.rs) as code around any backend

    lib.rs:1594-1611 (AtomicBool), 1749-1757 and 2672-2680 and 4119-4127 and 4773-4781 (stubs that do not compile), 2222-2239 (AtomicPtr),
    3659-3676 (integers), 4584-4601 (floats):
<<
        let mut prev = self.load(fetch_order);
        while let Some(next) = f(prev) {
            match self.compare_exchange_weak(prev, next, set_order, fetch_order) {
                x @ Ok(_) => return x,
                Err(next_prev) => prev = next_prev,
            }
        }
        Err(prev)
>>
    Threads run arbitrary programs, whose calls of [load] etc. are served by a backend.  What the backend answers
    is not decided here: the machine produces, among other events, the backend's history. *)
From Coq Require Import ZArith List Bool.
From Verif Require Import Words Spec ClientSpec.
Import ListNotations.
Open Scope Z_scope.

Section Client.
  Context {Op Res : Type}.
  Variable F : iface Op Res.
  Variable St : Type.

  (** An active call of fetch_update: its arguments, the closure's state and [prev]. *)
  Record frame := mk_frame {
    fa : Z; fset : ordering; ffetch : ordering; fs : St; ff : St -> Z -> prog Op Res St; fk : St -> ures -> prog Op Res St; fprev : Z }.
  Inductive mode :=
  | Run (p : prog Op Res St)
  | WaitPrim (a : Z) (o : Op) (k : Res -> prog Op Res St)
  | WaitLoad                                 (* in [self.load(fetch_order)] of the innermost call *)
  | WaitCas (next : Z).                      (* in [self.compare_exchange_weak(prev, next, ..)] *)
  (** innermost call first *)
  Record thread := mk_thread { tmode : mode; tframes : list frame }.

  Definition with_prev (f : frame) (s : St) (p : Z) : frame := mk_frame (fa f) (fset f) (ffetch f) s (ff f) (fk f) p.

  (** [r]: the backend's answer, if one is awaited. *)
  Definition thread_step (t : nat) (th : thread) (r : option Res) : option (thread * list (cevent Op Res)) :=
    match tmode th, tframes th, r with
    | Run (Prim a o k), fs, None =>
        Some (mk_thread (WaitPrim a o k) fs, [High (Call (id t (length fs)) a (HPrim o)); Base (Call t a o)])
    | WaitPrim a o k, fs, Some r =>
        Some (mk_thread (Run (k r)) fs, [Base (Return t r); High (Return (id t (length fs)) (HRes r))])
    | Run (Update a so fo s f k), fs, None =>
        Some (mk_thread WaitLoad (mk_frame a so fo s f k 0 :: fs),
              [High (Call (id t (length fs)) a (HUpdate so fo)); Base (Call t a (op_load F a fo))])
    | WaitLoad, f :: fs', Some r =>
        match got F r with
        | Some v => Some (mk_thread (Run (ff f (fs f) v)) (with_prev f (fs f) v :: fs'),
                          [Base (Return t r); Eval (id t (length fs')) v])
        | None => Some (mk_thread (Run (fk f (fs f) UPanic)) fs', [Base (Return t r); High (Return (id t (length fs')) HPanic)])
        end
    | Run (Ret s (Some y)), f :: fs', None =>
        if typed F (fa f) y then
          Some (mk_thread (WaitCas y) (with_prev f s (fprev f) :: fs'),
                [Answer (id t (length fs')) (Answered (Some y)); Base (Call t (fa f) (op_cas F (fa f) (fprev f) y (fset f) (ffetch f)))])
        else None
    | Run (Ret s None), f :: fs', None =>
        Some (mk_thread (Run (fk f s (UErr (fprev f)))) fs',
              [Answer (id t (length fs')) (Answered None); High (Return (id t (length fs')) (HErr (fprev f)))])
    | Run (Unwind s), f :: fs', None =>
        Some (mk_thread (Run (fk f s UPanic)) fs',
              [Answer (id t (length fs')) Panicked; High (Return (id t (length fs')) HPanic)])
    | WaitCas y, f :: fs', Some r =>
        match swapped F r with
        | Some (true, v) => Some (mk_thread (Run (fk f (fs f) (UOk v))) fs', [Base (Return t r); High (Return (id t (length fs')) (HOk v y))])
        | Some (false, v) => Some (mk_thread (Run (ff f (fs f) v)) (with_prev f (fs f) v :: fs'), [Base (Return t r); Eval (id t (length fs')) v])
        | None => Some (mk_thread (Run (fk f (fs f) UPanic)) fs', [Base (Return t r); High (Return (id t (length fs')) HPanic)])
        end
    | _, _, _ => None
    end.

  (** All threads. *)
  Definition cstate := nat -> thread.
  Definition client_step (c : cstate) (l : nat * option Res) : option (cstate * list (cevent Op Res)) :=
    match thread_step (fst l) (c (fst l)) (snd l) with
    | Some (th, es) => Some (fun u => if Nat.eqb u (fst l) then th else c u, es)
    | None => None
    end.
  Fixpoint client_run (c : cstate) (ls : list (nat * option Res)) : option (cstate * list (cevent Op Res)) :=
    match ls with
    | [] => Some (c, [])
    | l :: ls' =>
      match client_step c l with
      | Some (c', es) => match client_run c' ls' with Some (c'', es') => Some (c'', es ++ es') | None => None end
      | None => None
      end
    end.
  Definition client_init (progs : nat -> prog Op Res St) : cstate := fun t => mk_thread (Run (progs t)) [].
End Client.
