(** * Specification of [fetch_update] with closures that do anything

    A closure passed to [fetch_update] may itself use atomic variables - the same or others -, call
    [fetch_update] again, keep state between its calls, and panic.

    Calls of one thread are then nested.  A call made inside [d] closures of thread [t] is treated as one of
    an additional thread [id t d]: per depth calls do not overlap, and real-time order is kept. *)
From Coq Require Import ZArith List Bool Cantor.
From Verif Require Import Words Spec.
Import ListNotations.
Open Scope Z_scope.

Definition id (t d : nat) : nat := Cantor.to_nat (t, d).

Section Client.
  Context {Op Res : Type}.
  (** the meaning of the other operations *)
  Variable sem : Z -> Op -> Z -> Z * Res -> Prop.

  Inductive hop := HPrim (o : Op) | HUpdate (set fetch : ordering).
  (** [HOk x y]: Ok(x), having written [y]; [HErr x]: Err(x); [HPanic]: the call panicked. *)
  Inductive hres := HRes (r : Res) | HOk (x y : Z) | HErr (x : Z) | HPanic.
  Definition hsem (a : Z) (o : hop) (x : Z) (out : Z * hres) : Prop :=
    match o, out with
    | HPrim o, (x', HRes r) => sem a o x (x', r)
    | HUpdate _ _, (x', HOk v y) => x = v /\ x' = y
    | HUpdate _ _, (x', HErr v) => x = v /\ x' = x
    | HUpdate _ _, (x', HPanic) => x' = x
    | _, _ => False
    end.

  (** What can be observed: calls and returns of the program, the evaluations of closures, and the calls and
      returns at the backend. *)
  Inductive answer := Answered (y : option Z) | Panicked.
  Inductive cevent :=
  | High (e : event hop hres)
  | Eval (id : nat) (x : Z)                  (* the closure of the update running as [id] is called with [x] *)
  | Answer (id : nat) (y : answer)           (* it returns or panics *)
  | Base (e : event Op Res).
  Fixpoint high_of (tr : list cevent) : list (event hop hres) :=
    match tr with [] => [] | High e :: tr => e :: high_of tr | _ :: tr => high_of tr end.
  Fixpoint base_of (tr : list cevent) : list (event Op Res) :=
    match tr with [] => [] | Base e :: tr => e :: base_of tr | _ :: tr => base_of tr end.

  (** The current call of each [id], with the last evaluation of its closure. *)
  Record upd := mk_upd { uaddr : Z; uset : ordering; ufetch : ordering }.
  Inductive last := Never | Called (u : upd) | Asked (u : upd) (x : Z) | Last (u : upd) (x : Z) (y : answer).
  Definition args (l : last) : option upd :=
    match l with Never => None | Called u | Asked u _ | Last u _ _ => Some u end.
  Definition log_step (log : nat -> last) (e : cevent) : nat -> last :=
    let set i l := fun j => if Nat.eqb j i then l else log j in
    match e with
    | High (Call i a (HUpdate s f)) => set i (Called (mk_upd a s f))
    | High (Call i _ (HPrim _)) => set i Never
    | Eval i x => match args (log i) with Some u => set i (Asked u x) | None => log end
    | Answer i y => match log i with Asked u x => set i (Last u x y) | _ => log end
    | _ => log
    end.
  (** A call returns what its closure's last answer demands: Ok(x) having written y only if f(x) = Some(y), Err(x) only if
      f(x) = None; it panics only if the closure did or the ordering is one that is documented to panic. *)
  Definition return_ok (l : last) (r : hres) : Prop :=
    match r with
    | HRes _ => l = Never
    | HOk x y => exists u, l = Last u x (Answered (Some y))
    | HErr x => exists u, l = Last u x (Answered None)
    | HPanic => (exists u x, l = Last u x Panicked) \/ exists u, args l = Some u /\ load_panics (ufetch u)
    end.
  Fixpoint answers_ok (log : nat -> last) (tr : list cevent) : Prop :=
    match tr with
    | [] => True
    | e :: tr' => match e with High (Return i r) => return_ok (log i) r | _ => True end /\ answers_ok (log_step log e) tr'
    end.
  (** A closure of thread [t] is never called, nor does it return, while a call of [t] is in progress in the backend. *)
  Fixpoint pending (t : nat) (h : list (event Op Res)) (p : bool) : bool :=
    match h with
    | [] => p
    | Call u _ _ :: h => pending t h (if Nat.eqb u t then true else p)
    | Return u _ :: h => pending t h (if Nat.eqb u t then false else p)
    end.
  Definition outside (tr : list cevent) : Prop :=
    forall tr1 tr2 t d e, tr = tr1 ++ e :: tr2 -> (exists x, e = Eval (id t d) x) \/ (exists y, e = Answer (id t d) y) ->
      pending t (base_of tr1) false = false.

  (** ** How the operations [load] and [compare_exchange_weak] look in [Op], and what is expected of them *)
  Record iface := mk_iface {
    op_load : Z -> ordering -> Op;
    op_cas : Z -> Z -> Z -> ordering -> ordering -> Op;    (* address, current, new *)
    got : Res -> option Z;                                  (* result of load; [None]: panic *)
    swapped : Res -> option (bool * Z);                     (* result of compare_exchange_weak: Ok/Err; [None]: panic *)
    typed : Z -> Z -> bool;                                 (* values of the variable's type *)
    readable : Z -> Z -> bool }.                            (* values that reading the variable can give *)
  Definition iface_ok (f : iface) : Prop :=
    (forall a fo x x' r, sem a (op_load f a fo) x (x', r) ->
       x' = x /\ match got f r with Some v => x = v /\ readable f a v = true | None => load_panics fo end) /\
    (forall a c n so fo x x' r, readable f a c = true -> typed f a n = true -> sem a (op_cas f a c n so fo) x (x', r) ->
       match swapped f r with
       | Some (true, v) => v = c /\ x = c /\ x' = n
       | Some (false, v) => x = v /\ x' = x /\ readable f a v = true
       | None => x' = x /\ load_panics fo
       end).

  (** Which calls reach the backend, and what provokes each: the program's own; one load, with the fetch ordering, when
      fetch_update is called; and whenever the closure answers Some(y) having been given x, one
      compare_exchange_weak(x, y) with the set and the fetch ordering.  None at any other point. *)
  Definition call_ok (f : iface) (log : nat -> last) (prev : option cevent) (a : Z) (o : Op) : Prop :=
    match prev with
    | Some (High (Call _ a' (HPrim o'))) => a = a' /\ o = o'
    | Some (High (Call _ a' (HUpdate _ fo))) => a = a' /\ o = op_load f a fo
    | Some (Answer i (Answered (Some y))) =>
        exists u x, log i = Last u x (Answered (Some y)) /\ a = uaddr u /\ o = op_cas f a x y (uset u) (ufetch u)
    | _ => False
    end.
  Fixpoint calls_ok (f : iface) (log : nat -> last) (prev : option cevent) (tr : list cevent) : Prop :=
    match tr with
    | [] => True
    | e :: tr' => match e with Base (Call _ a o) => call_ok f log prev a o | _ => True end /\ calls_ok f (log_step log e) (Some e) tr'
    end.
End Client.
Arguments hop : clear implicits.
Arguments hres : clear implicits.
Arguments cevent : clear implicits.
Arguments iface : clear implicits.

(** ** Programs

    What a thread, or a closure, does; it may run for ever.  [St]: what closures remember between calls. *)
Inductive ures := UOk (x : Z) | UErr (x : Z) | UPanic.
Section Programs.
  Context {Op Res St : Type}.
  (** A program or a closure's body:
      - [Ret s y]: returns [y], leaving state [s];
      - [Unwind s]: panics;
      - [Prim a o k]: an operation other than fetch_update;
      - [Update a so fo s f k]: fetch_update with the closure [f] whose state is [s], then [k] (also after a panic: a
        destructor, or [catch_unwind]; usually [k s UPanic = Unwind s]). *)
  CoInductive prog :=
  | Ret (s : St) (y : option Z)
  | Unwind (s : St)
  | Prim (a : Z) (o : Op) (k : Res -> prog)
  | Update (a : Z) (so fo : ordering) (s : St) (f : St -> Z -> prog) (k : St -> ures -> prog).


  (** What running such a program shows of itself: its calls and what they return, the closures' calls and answers.  fetch_update
      calls the closure again and again, each time in the state the previous call left, and goes on in that state; whatever
      it returns is what the program gets.  (How often, with which values and results: [hsem] and [answers_ok].) *)
  Record sframe := mk_sframe { sf : St -> Z -> prog; sk : St -> ures -> prog; sx : Z }.
  Inductive smode := SRun (p : prog) | SPrim (k : Res -> prog) | SAsk (s : St) (y : option Z).
  Inductive src_step (t : nat) : smode * list sframe -> list (cevent Op Res) -> smode * list sframe -> Prop :=
  | s_call a o k fs : src_step t (SRun (Prim a o k), fs) [High (Call (id t (length fs)) a (HPrim o))] (SPrim k, fs)
  | s_return r k fs : src_step t (SPrim k, fs) [High (Return (id t (length fs)) (HRes r))] (SRun (k r), fs)
  | s_update a so fo s f k x fs :
      src_step t (SRun (Update a so fo s f k), fs) [High (Call (id t (length fs)) a (HUpdate so fo))] (SAsk s None, mk_sframe f k x :: fs)
  | s_eval s o f k x x' fs : src_step t (SAsk s o, mk_sframe f k x :: fs) [Eval (id t (length fs)) x'] (SRun (f s x'), mk_sframe f k x' :: fs)
  | s_some s y fr fs : src_step t (SRun (Ret s (Some y)), fr :: fs) [Answer (id t (length fs)) (Answered (Some y))] (SAsk s (Some y), fr :: fs)
  | s_ok s y v fr fs : src_step t (SAsk s (Some y), fr :: fs) [High (Return (id t (length fs)) (HOk v y))] (SRun (sk fr s (UOk v)), fs)
  | s_none s fr fs : src_step t (SRun (Ret s None), fr :: fs)
      [Answer (id t (length fs)) (Answered None); High (Return (id t (length fs)) (HErr (sx fr)))] (SRun (sk fr s (UErr (sx fr))), fs)
  | s_unwind s fr fs : src_step t (SRun (Unwind s), fr :: fs)
      [Answer (id t (length fs)) Panicked; High (Return (id t (length fs)) HPanic)] (SRun (sk fr s UPanic), fs)
  | s_panic s o fr fs : src_step t (SAsk s o, fr :: fs) [High (Return (id t (length fs)) HPanic)] (SRun (sk fr s UPanic), fs).
  Inductive src_steps (t : nat) : smode * list sframe -> list (cevent Op Res) -> smode * list sframe -> Prop :=
  | src_nil s : src_steps t s [] s
  | src_cons s e s1 es s2 : src_step t s e s1 -> src_steps t s1 es s2 -> src_steps t s (e ++ es) s2.
  (** The events of thread [t]. *)
  Definition of_thread (t : nat) (e : cevent Op Res) : bool :=
    match e with
    | High (Call i _ _) | High (Return i _) | Eval i _ | Answer i _ => Nat.eqb (fst (Cantor.of_nat i)) t
    | Base _ => false
    end.
  Definition follows (p : prog) (t : nat) (tr : list (cevent Op Res)) : Prop :=
    exists s, src_steps t (SRun p, []) (filter (of_thread t) tr) s.
End Programs.
Arguments prog : clear implicits.
Arguments Ret {Op Res St}. Arguments Unwind {Op Res St}. Arguments Prim {Op Res St}. Arguments Update {Op Res St}.
