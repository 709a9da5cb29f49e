(** * Specification of atomic integers with [fetch_update] *)
From Coq Require Import ZArith List Bool.
From Verif Require Import Words Spec WideSpec LoopModel CoreModel.
Import ListNotations.
Open Scope Z_scope.

(** [fetch_update f]: the closure, called (perhaps after calls with other values, [hist]) with the
    current value [x], answers [Some y] and the variable goes from [x] to [y], result [Ok x]; or it
    answers [None] and nothing changes, result [Err x]. *)
Definition usem (ty : Z -> ity) (a : Z) (o : uop) (x : Z) (out : Z * res) : Prop :=
  match o with
  | UOp o => sem ty a o x out
  | UFetchUpdate f _ _ => exists hist,
      match typed_closure (ty a) f hist x with
      | Some y => out = (y, ROk x)
      | None => out = (x, RErr x)
      end
  end.
Definition atomic_history_u (ty : Z -> ity) (m : Z -> Z) (h : list (event uop res)) (m' : Z -> Z) : Prop :=
  linearizable_to (usem ty) (fun a => of_bits (ty a) (m a)) h (fun a => Some (of_bits (ty a) (m' a))).
