(** * Specification of one memory full of atomic integers

    [ty a] is the integer type of the variable at address [a]. *)
From Coq Require Import ZArith List Bool.
From Verif Require Import Words Spec.
Import ListNotations.
Open Scope Z_scope.

(** The public operations: those of [Spec.op] plus the weak compare_exchange. *)
Inductive wop :=
| WOp (o : op)
| WCasWeak (current new : Z) (success failure : ordering).

(** A weak compare_exchange may also fail although the values are equal. *)
Definition sem (ty : Z -> ity) (a : Z) (o : wop) (x : Z) (out : Z * res) : Prop :=
  match o with
  | WOp o => out = spec_op (ty a) o x
  | WCasWeak c n s f => out = spec_op (ty a) (OCas c n s f) x \/ out = (x, RErr x)
  end.

(** A call a well-typed program can make and that does not panic (for the panics see C08). *)
Definition rmw_typedb (t : ity) (r : rmw) : bool :=
  match r with
  | Swap v | Add v | Sub v | And v | Nand v | Or v | Xor v | Max v | Min v => in_rangeb t v
  | Not | Neg => true
  end.
Definition callable (t : ity) (o : wop) : bool :=
  match o with
  | WOp (OLoad ord) => match ord with Release | AcqRel => false | _ => true end
  | WOp (OStore v ord) => in_rangeb t v && match ord with Acquire | AcqRel => false | _ => true end
  | WOp (ORmw r _) => rmw_typedb t r
  | WOp (OCas c n _ f) | WCasWeak c n _ f =>
      in_rangeb t c && in_rangeb t n && match f with Release | AcqRel => false | _ => true end
  end.

(** The history [h] is one that atomic variables of types [ty], initially holding the bit
    patterns [m], can produce, ending with the bit patterns [m']. *)
Definition atomic_history (ty : Z -> ity) (m : Z -> Z) (h : list (event wop res)) (m' : Z -> Z) : Prop :=
  linearizable_to (sem ty) (fun a => of_bits (ty a) (m a)) h (fun a => Some (of_bits (ty a) (m' a))).

(** [m] holds a bit pattern of the right width everywhere. *)
Definition mem_ok (ty : Z -> ity) (m : Z -> Z) : Prop := forall a, 0 <= m a < 2 ^ ibits (ty a).

(** The operand of a read-modify-write as a bit pattern; [fetch_not] and [fetch_neg] have none. *)
Definition two_arg (r : rmw) : bool := match r with Not | Neg => true | _ => false end.
Definition operand (t : ity) (r : rmw) : Z :=
  match r with
  | Swap v | Add v | Sub v | And v | Nand v | Or v | Xor v | Max v | Min v => to_bits t v
  | Not | Neg => 0
  end.

