(** * Specification of system-wide progress of fetch_update

    Lock-freedom: as long as nobody finishes anything, nobody can make anybody retry much.  On the events of ClientSpec, with EvalSpec's counts. *)
From Coq Require Import ZArith List Bool.
From Verif Require Import Words Spec ClientSpec EvalSpec.
Import ListNotations.
Open Scope Z_scope.

Section Progress.
  Context {Op Res : Type}.
  (** What the closure of [i] was called with last. *)
  Fixpoint last_value (i : nat) (last : option Z) (tr : list (cevent Op Res)) : option Z :=
    match tr with
    | [] => last
    | Eval j x :: tr => last_value i (if Nat.eqb j i then Some x else last) tr
    | _ :: tr => last_value i last tr
    end.
  (** [i] is in a fetch_update, which it entered before [tr2].  In a stretch [tr3] in which no operation of anybody returns, its closure is called with a new
      value at most as often as there are operations in progress at any time during it ([ids]: whose), plus one. *)
  Definition few_before_progress (tr : list (cevent Op Res)) : Prop :=
    forall tr1 i a so fo tr2 tr3 tr4 ids, tr = tr1 ++ High (Call i a (HUpdate so fo)) :: tr2 ++ tr3 ++ tr4 ->
      (forall r, ~ In (High (Return i r)) tr2) -> (forall j r, ~ In (High (Return j r)) tr3) ->
      (forall j, open_after (tr1 ++ High (Call i a (HUpdate so fo)) :: tr2 ++ tr3) j <> None -> In j ids) ->
      (new_values i (last_value i None tr2) tr3 <= 1 + length ids)%nat.
  (** The same for all calls of the closure. *)
  Definition few_before_progress_strong (tr : list (cevent Op Res)) : Prop :=
    forall tr1 i a so fo tr2 tr3 tr4 ids, tr = tr1 ++ High (Call i a (HUpdate so fo)) :: tr2 ++ tr3 ++ tr4 ->
      (forall r, ~ In (High (Return i r)) tr2) -> (forall j r, ~ In (High (Return j r)) tr3) ->
      (forall j, open_after (tr1 ++ High (Call i a (HUpdate so fo)) :: tr2 ++ tr3) j <> None -> In j ids) ->
      (evals i tr3 <= 1 + length ids)%nat.
  (** Everybody together: as long as no operation returns, the closures of those in progress ([ids]) are called at most so often. *)
  Fixpoint all_evals (tr : list (cevent Op Res)) : nat :=
    match tr with [] => 0 | Eval _ _ :: tr => 1 + all_evals tr | _ :: tr => all_evals tr end%nat.
  Definition lock_free (tr : list (cevent Op Res)) : Prop :=
    forall tr1 tr2 tr3 ids, tr = tr1 ++ tr2 ++ tr3 -> (forall j r, ~ In (High (Return j r)) tr2) ->
      (forall j, open_after (tr1 ++ tr2) j <> None -> In j ids) -> (all_evals tr2 <= length ids * (1 + length ids))%nat.
End Progress.
