(** * Specification of the formatting, serialization and conversion traits

    Nothing here refers to the implementation.  [text w k v]: what the value type's own implementation of the trait writes for
    the value [v] - bool's, u32's, f64's [Debug] and so on; any function. *)
From Coq Require Import ZArith List Bool.
From Verif Require Import Words Spec FrontSpec FloatSpec LifeSpec LayerSpec.
Import ListNotations.
Open Scope Z_scope.

Inductive trait := Debug | Pointer | Serialize.

(** Which atomic types have which trait: [Debug] all of them, [Pointer] only pointers, [Serialize] - in builds with the feature serde -
    those whose value type has it: not pointers, nor the 16- and 128-bit floats. *)
Definition implements (serde : bool) (k : kind) (w : trait) : Prop :=
  match w with
  | Debug => True
  | Pointer => exists bits size, k = KPtr bits size
  | Serialize => serde = true /\ match k with KBool | KInt _ => True | KPtr _ _ => False | KFloat mw ew => 1 + mw + ew <> 16 /\ 1 + mw + ew <> 128 end
  end.

(** The value of the variable's own type that it holds; floats and pointers by their bits. *)
Definition holding (k : kind) (x : Z) : val := match k with KBool => VBool (negb (x =? 0)) | _ => VNum x end.

(** What threads do to shared variables: format one, or anything else. *)
Inductive top := Show (w : trait) | Other (o : pop).
Section Text.
  Context {Out : Type}.
  Variable text : trait -> kind -> val -> Out.
  Inductive tres := Shown (out : Out) | Did (r : option pres).

  (** Formatting writes what the value type's own implementation writes for the value the variable holds at one instant, and
      changes nothing; it never panics. *)
  Definition tsem (kd : Z -> kind) (arith : Z -> fop -> Z -> Z -> Prop) (a : Z) (o : top) (x : Z) (out : Z * tres) : Prop :=
    match o, out with
    | Show w, (x', Shown s) => x' = x /\ s = text w (kd a) (holding (kd a) x)
    | Other o, (x', Did r) => fsem kd arith a o x (x', r)
    | _, _ => False
    end.

  (** How: by exactly one load, the relaxed one, of that variable. *)
  Definition a_load (o : pop) : Prop := match o with Plain (OLoad _) | BoolLoad _ | FlLoad _ => True | _ => False end.
  Definition makes_only (a : Z) (o : top) (before : list (pop * option pres)) (i : pop) : Prop :=
    before = [] /\ match o with Show _ => a_load i /\ (forall r, wanted i r = Relaxed) | Other o => i = o end.
  Definition answers_after (a : Z) (o : top) (before : list (pop * option pres)) (r : tres) : Prop :=
    length before = 1%nat /\ match o, r with Show _, Shown _ => True | Other _, Did _ => True | _, _ => False end.
End Text.
Arguments tres : clear implicits.
