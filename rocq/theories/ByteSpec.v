(** * Specification of a byte-addressed memory with atomic variables in it

    Variables of different sizes live side by side in one array of bytes; nothing here refers to the
    crate's implementation. *)
From Coq Require Import ZArith List Bool.
From Verif Require Import Words Spec ByteMem.
Import ListNotations.
Open Scope Z_scope.

(** The public operations on an integer, including the forms that return nothing
    ([add], [sub], [and], [or], [xor], [not], [neg]) and the weak compare_exchange. *)
Inductive bop :=
| BOp (o : op)
| BCasWeak (current new : Z) (success failure : ordering)
| BNoFetch (r : rmw) (o : ordering).

(** Sequential meaning.  (A weak compare_exchange would be allowed to fail without reason; the backends
    specified with this never do.) *)
Definition bsem (t : ity) (o : bop) (x : Z) : Z * res :=
  match o with
  | BOp o => spec_op t o x
  | BCasWeak c n s f => spec_op t (OCas c n s f) x
  | BNoFetch r _ => (spec_rmw t r x, RUnit)
  end.

(** Calls a well-typed program can make and that do not panic (for the panics see C08). *)
Definition rmw_ok (t : ity) (r : rmw) : bool :=
  match r with
  | Swap v | Add v | Sub v | And v | Nand v | Or v | Xor v | Max v | Min v => in_rangeb t v
  | Not | Neg => true
  end.
Definition nofetch_exists (r : rmw) : bool :=
  match r with Add _ | Sub _ | And _ | Or _ | Xor _ | Not | Neg => true | _ => false end.
Definition bcallable (t : ity) (o : bop) : bool :=
  match o with
  | BOp (OLoad ord) => match ord with Release | AcqRel => false | _ => true end
  | BOp (OStore v ord) => in_rangeb t v && match ord with Acquire | AcqRel => false | _ => true end
  | BOp (ORmw r _) => rmw_ok t r
  | BOp (OCas c n _ f) | BCasWeak c n _ f =>
      in_rangeb t c && in_rangeb t n && match f with Release | AcqRel => false | _ => true end
  | BNoFetch r _ => nofetch_exists r && rmw_ok t r
  end.

(** [vars a = Some t]: an atomic variable of type [t] starts at address [a]. *)
Definition layout := Z -> option ity.
Definition inside (a : Z) (t : ity) (x : Z) : Prop := a <= x < a + Z.of_nat (nbytes t).
Record layout_ok (vars : layout) : Prop := {
  lo_size : forall a t, vars a = Some t -> In (ibits t) [8; 16; 32; 64; 128];
  lo_aligned : forall a t, vars a = Some t -> a mod Z.of_nat (nbytes t) = 0;
  lo_disjoint : forall a t b u x, vars a = Some t -> vars b = Some u -> inside a t x -> inside b u x -> a = b }.

(** The value of the variable of type [t] at [a]. *)
Definition value_at (be : bool) (m : memory) (t : ity) (a : Z) : Z := of_bits t (ld be (nbytes t) m a).

(** [h] is a history the atomic variables [vars], initially as in [m], can produce; [fin] says which final
    values are claimed. *)
Definition byte_history (be : bool) (vars : layout) (m : memory) (h : list (event bop res)) (fin : Z -> option Z) : Prop :=
  linearizable_to (fun a o x out => exists t, vars a = Some t /\ out = bsem t o x)
    (fun a => match vars a with Some t => value_at be m t a | None => 0 end) h fin.
Definition values (be : bool) (vars : layout) (m : memory) : Z -> option Z :=
  fun a => match vars a with Some t => Some (value_at be m t a) | None => None end.
