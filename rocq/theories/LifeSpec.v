(** * Specification: an atomic variable's whole life

    Creation, exclusive access ([get_mut], [into_inner]) and phases in which any number of threads share it, also through the
    integer view of the same bits ([as_bits]).  Layout of the types in memory.  Nothing here refers to the implementation. *)
From Coq Require Import ZArith List Bool.
From Verif Require Import Words Spec FrontSpec FloatSpec.
Import ListNotations.
Open Scope Z_scope.

(** A call: in the variable's own type, or through a view of its bits as an integer of type [t]. *)
Inductive vop := Own (o : pop) | Bits (t : ity) (o : pop).
(** A value of the variable's type. *)
Inductive val := VBool (b : bool) | VNum (z : Z).

Section Spec.
  Variable kd : Z -> kind.                 (* what lives at each address *)

  (** What the bit pattern [x] means in a type.  [None]: not a value of the type. *)
  Definition means (k : kind) (x : Z) : option val :=
    match k with
    | KBool => if x =? 0 then Some (VBool false) else if x =? 1 then Some (VBool true) else None
    | KInt t => if (0 <=? x) && (x <? 2 ^ ibits t) then Some (VNum (of_bits t x)) else None
    | KPtr w _ => if (0 <=? x) && (x <? 2 ^ w) then Some (VNum x) else None
    | KFloat mw ew => if (0 <=? x) && (x <? 2 ^ (1 + mw + ew)) then Some (VNum x) else None
    end.

  (** The variables hold bit patterns; an operation in either view sees and leaves the number that pattern stands for in
      that view. *)
  Definition vsem (a : Z) (o : vop) (x : Z) (out : Z * pres) : Prop :=
    (0 <= fst out < 2 ^ kbits (kd a)) /\
    match o with
    | Own o => psem kd (ieee kd) a o (kval (kd a) x) (kval (kd a) (fst out), snd out)
    | Bits t o => psem (fun _ => KInt t) (fun _ _ _ _ => False) a o (of_bits t x) (of_bits t (fst out), snd out)
    end.

  (** What the owner does while nobody else has access: create, read or write through the exclusive reference, take the
      value out. *)
  Inductive own_op := New (v : val) | GetMut | SetMut (v : val) | IntoInner.
  (** What is observed: a whole phase of shared use, or an owner's action with its result. *)
  Inductive observation :=
  | OShared (h : list (event vop pres))
  | OOwner (a : Z) (o : own_op) (r : option val).

  (** [x]: the bit patterns before, [y]: after. *)
  Definition obs_ok (x : Z -> Z) (e : observation) (y : Z -> Z) : Prop :=
    match e with
    | OShared h => linearizable_to vsem x h (fun a => Some (y a))
    | OOwner a o r =>
      (forall b, b <> a -> y b = x b) /\
      match o with
      | New v | SetMut v => means (kd a) (y a) = Some v /\ r = None
      | GetMut | IntoInner => y a = x a /\ r = means (kd a) (x a) /\ r <> None
      end
    end.
  Inductive life_ok : (Z -> Z) -> list observation -> (Z -> Z) -> Prop :=
  | life_nil x : life_ok x [] x
  | life_cons x e y es z : obs_ok x e y -> life_ok y es z -> life_ok x (e :: es) z.
End Spec.

(** ** Layout *)
(** Alignments a Rust target may give: powers of two not larger than the size (Rust reference, "Primitive data layout"). *)
Definition scalar_size (n : Z) : Prop := In n [1; 2; 4; 8; 16].
Definition legal_align (size al : Z) : Prop := In al [1; 2; 4; 8; 16] /\ al <= size.
