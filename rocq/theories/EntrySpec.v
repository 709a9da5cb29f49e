(** * Specification: calls with an ordering the documentation forbids

    Nothing here refers to the crate's implementation. *)
From Coq Require Import ZArith List Bool.
From Verif Require Import Words Spec WideSpec CoreModel UpdateSpec FrontSpec ByteMem ByteSpec.
Import ListNotations.
Open Scope Z_scope.

(** A forbidden call panics and leaves the variable as it was; any other call does what [sem] says. *)
Definition with_panics {Op Res : Type} (forbidden : Op -> Prop) (panic : Res)
    (sem : Z -> Op -> Z -> Z * Res -> Prop) (a : Z) (o : Op) (x : Z) (out : Z * Res) : Prop :=
  (forbidden o /\ out = (x, panic)) \/ (~ forbidden o /\ sem a o x out).

(** "Panics if order is Release or AcqRel" (load), "... Acquire or AcqRel" (store), "Panics if failure is
    Release, AcqRel" (compare_exchange, compare_exchange_weak); [fetch_update] loads with the second ordering. *)
Definition forbidden_op (o : op) : Prop :=
  match o with
  | OLoad ord => load_panics ord
  | OStore _ ord => store_panics ord
  | ORmw _ _ => False
  | OCas _ _ s f => cas_panics s f
  end.
Definition forbidden_w (o : wop) : Prop :=
  match o with WOp o => forbidden_op o | WCasWeak _ _ s f => cas_panics s f end.
Definition forbidden_u (o : uop) : Prop :=
  match o with UOp o => forbidden_w o | UFetchUpdate _ s f => cas_panics s f end.
Definition forbidden_p (o : pop) : Prop :=
  match o with
  | Plain o => forbidden_op o
  | BoolLoad ord | FlLoad ord => load_panics ord
  | BoolStore _ ord | FlStore _ ord => store_panics ord
  | PlainCasWeak _ _ s f | BoolCas _ _ s f | BoolCasWeak _ _ s f | FlCas _ _ s f | FlCasWeak _ _ s f => cas_panics s f
  | BoolUpdate _ s f | FlUpdate _ s f => cas_panics s f
  | BitOp _ _ _ | NoFetch _ _ | BoolRmw _ _ | BoolNoFetch _ _ | PtrRmw _ _ | FlSwap _ _ | FlNeg _ | FlAbs _ | FlRmw _ _ => False
  end.

(** Histories of atomic variables, forbidden calls included. *)
Definition atomic_history_all (ty : Z -> ity) (m : Z -> Z) (h : list (event wop res)) (m' : Z -> Z) : Prop :=
  linearizable_to (with_panics forbidden_w RPanic (sem ty)) (fun a => of_bits (ty a) (m a)) h
    (fun a => Some (of_bits (ty a) (m' a))).
Definition atomic_history_u_all (ty : Z -> ity) (m : Z -> Z) (h : list (event uop res)) (m' : Z -> Z) : Prop :=
  linearizable_to (with_panics forbidden_u RPanic (usem ty)) (fun a => of_bits (ty a) (m a)) h
    (fun a => Some (of_bits (ty a) (m' a))).
Definition atomic_history_p_all (kd : Z -> kind) (arith : Z -> fop -> Z -> Z -> Prop) (m : Z -> Z)
    (h : list (event pop pres)) (m' : Z -> Z) : Prop :=
  linearizable_to (with_panics forbidden_p (PPlain RPanic) (psem kd arith)) (fun a => kval (kd a) (m a)) h
    (fun a => Some (kval (kd a) (m' a))).

(** Well-typed operands, whatever the orderings. *)
Definition w_typed (t : ity) (o : wop) : Prop :=
  match o with WOp o => op_typed t o | WCasWeak c n _ _ => in_range t c /\ in_range t n end.

(** The byte-addressed machines. *)
Definition forbidden_b (o : bop) : Prop :=
  match o with BOp o => forbidden_op o | BCasWeak _ _ s f => cas_panics s f | BNoFetch _ _ => False end.
Definition byte_history_all (be : bool) (vars : layout) (m : memory) (h : list (event bop res)) (fin : Z -> option Z) : Prop :=
  linearizable_to (with_panics forbidden_b RPanic (fun a o x out => exists t, vars a = Some t /\ out = bsem t o x))
    (fun a => match vars a with Some t => value_at be m t a | None => 0 end) h fin.
(** ... where compare_exchange_weak may also fail without reason. *)
Definition weak_history_all (be : bool) (vars : layout) (m : memory) (h : list (event bop res)) (fin : Z -> option Z) : Prop :=
  linearizable_to (with_panics forbidden_b RPanic
    (fun a o x out => exists t, vars a = Some t /\
       (out = bsem t o x \/ (exists cu nw su fa, o = BCasWeak cu nw su fa) /\ out = (x, RErr x))))
    (fun a => match vars a with Some t => value_at be m t a | None => 0 end) h fin.
