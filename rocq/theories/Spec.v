(** * Specification

    What a user of an atomic variable relies on.  Nothing here refers to the
    crate's implementation. *)
From Coq Require Import ZArith List Bool.
From Verif Require Import Words.
Import ListNotations.
Open Scope Z_scope.

(** ** Memory orderings *)
Inductive ordering := Relaxed | Release | Acquire | AcqRel | SeqCst.

(** Documented panics: "Panics if order is Release or AcqRel" etc. *)
Definition load_panics (o : ordering) : Prop := o = Release \/ o = AcqRel.
Definition store_panics (o : ordering) : Prop := o = Acquire \/ o = AcqRel.
Definition cas_panics (success failure : ordering) : Prop := failure = Release \/ failure = AcqRel.
Definition fence_panics (o : ordering) : Prop := o = Relaxed.

(** ** Read-modify-write operations on mathematical integers *)

(** The representative of [z] modulo [2^w] that lies in the range of the type. *)
Definition norm (t : ity) (z : Z) : Z := imin t + (z - imin t) mod 2 ^ ibits t.

Inductive rmw :=
| Swap (v : Z) | Add (v : Z) | Sub (v : Z) | And (v : Z) | Nand (v : Z) | Or (v : Z) | Xor (v : Z)
| Not | Neg | Max (v : Z) | Min (v : Z).

(** New value of a variable of type [t] that held [x].  [Z.land] etc. act on the
    infinite two's complement expansion. *)
Definition spec_rmw (t : ity) (r : rmw) (x : Z) : Z :=
  match r with
  | Swap v => v
  | Add v => norm t (x + v)
  | Sub v => norm t (x - v)
  | And v => Z.land x v
  | Nand v => norm t (Z.lnot (Z.land x v))
  | Or v => Z.lor x v
  | Xor v => Z.lxor x v
  | Not => norm t (- x - 1)
  | Neg => norm t (- x)
  | Max v => Z.max x v
  | Min v => Z.min x v
  end.

(** ** The public operations and their sequential meaning *)
Inductive op :=
| OLoad (o : ordering)
| OStore (v : Z) (o : ordering)
| ORmw (r : rmw) (o : ordering)
| OCas (current new : Z) (success failure : ordering).

Inductive res := RUnit | RVal (v : Z) | ROk (v : Z) | RErr (v : Z) | RPanic.

(** [spec_op t o x] = new value and result. *)
Definition spec_op (t : ity) (o : op) (x : Z) : Z * res :=
  match o with
  | OLoad Release | OLoad AcqRel => (x, RPanic)
  | OLoad _ => (x, RVal x)
  | OStore _ Acquire | OStore _ AcqRel => (x, RPanic)
  | OStore v _ => (v, RUnit)
  | ORmw r _ => (spec_rmw t r x, RVal x)
  | OCas _ _ _ Release | OCas _ _ _ AcqRel => (x, RPanic)
  | OCas cur new _ _ => if x =? cur then (new, ROk x) else (x, RErr x)
  end.

(** Operands a well-typed program can pass. *)
Definition rmw_typed (t : ity) (r : rmw) : Prop :=
  match r with
  | Swap v | Add v | Sub v | And v | Nand v | Or v | Xor v | Max v | Min v => in_range t v
  | Not | Neg => True
  end.
Definition op_typed (t : ity) (o : op) : Prop :=
  match o with
  | OLoad _ => True
  | OStore v _ => in_range t v
  | ORmw r _ => rmw_typed t r
  | OCas c n _ _ => in_range t c /\ in_range t n
  end.

(** ** Linearizability

    Histories are sequences of call and return events.  The atomic-object
    automaton below is the meaning of "atomic variables": between its call and
    its return every operation takes effect in exactly one indivisible step
    ([a_take_effect]) on the variable it names.  A history is linearizable iff
    the automaton can produce it.

    Variables are named by an address; [A] is generic in what an operation is. *)
Section Linearizability.
  Context {Op Res : Type}.
  (** sequential meaning of operation [o] on the variable at address [a] *)
  Variable sem : Z -> Op -> Z -> Z * Res -> Prop.

  Inductive event := Call (t : nat) (a : Z) (o : Op) | Return (t : nat) (r : Res).

  Inductive aphase := AIdle | APending (a : Z) (o : Op) | ADone (r : Res).
  Record astate := mk_astate { avals : Z -> Z; aphases : nat -> aphase }.

  (** [fun_upd_eq f x v g]: [g] is [f] with [x] mapped to [v]. *)
  Definition fun_upd_eq {K B} (f : K -> B) (x : K) (v : B) (g : K -> B) : Prop :=
    g x = v /\ forall y, y <> x -> g y = f y.

  Inductive astep : astate -> list event -> astate -> Prop :=
  | a_call s s' t a o :
      aphases s t = AIdle ->
      (forall x, avals s' x = avals s x) ->
      fun_upd_eq (aphases s) t (APending a o) (aphases s') ->
      astep s [Call t a o] s'
  | a_take_effect s s' t a o v' r :
      aphases s t = APending a o ->
      sem a o (avals s a) (v', r) ->
      fun_upd_eq (avals s) a v' (avals s') ->
      fun_upd_eq (aphases s) t (ADone r) (aphases s') ->
      astep s [] s'
  | a_return s s' t r :
      aphases s t = ADone r ->
      (forall x, avals s' x = avals s x) ->
      fun_upd_eq (aphases s) t AIdle (aphases s') ->
      astep s [Return t r] s'.

  Inductive asteps : astate -> list event -> astate -> Prop :=
  | as_nil s s' : (forall x, avals s' x = avals s x) -> (forall t, aphases s' t = aphases s t) ->
                  asteps s [] s'
  | as_snoc s h s' e s'' : asteps s h s' -> astep s' e s'' -> asteps s (h ++ e) s''.

  (** All variables hold their initial values and nobody has called anything. *)
  Definition linearizable (init : Z -> Z) (h : list event) : Prop :=
    exists s, asteps (mk_astate init (fun _ => AIdle)) h s.

  (** As above, and additionally the variables on which [fin] is defined end up with
      that value. *)
  Definition linearizable_to (init : Z -> Z) (h : list event) (fin : Z -> option Z) : Prop :=
    exists s, asteps (mk_astate init (fun _ => AIdle)) h s /\
              forall a v, fin a = Some v -> avals s a = v.
End Linearizability.
Arguments event : clear implicits.
Arguments aphase : clear implicits.
Arguments astate : clear implicits.
