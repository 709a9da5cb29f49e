(** * Specification of system-wide progress of the public operations

    Lock-freedom of the retrying: as long as nobody's public operation returns, nobody makes many integer operations.  On histories of both levels
    (LayerSpec), with RetrySpec's counts. *)
From Coq Require Import ZArith List Bool.
From Verif Require Import Words Spec FrontSpec ByteSpec LayerSpec RetrySpec.
Import ListNotations.
Open Scope Z_scope.

Section Count.
  Context {HOp HRes Op Res : Type}.
  Notation levent := (levent HOp HRes Op Res).
  (** The integer operation [t] is in after [tr]; [cur]: before. *)
  Fixpoint doing (t : nat) (cur : option Op) (tr : list levent) : option Op :=
    match tr with
    | [] => cur
    | Inner (Call u _ o) :: tr => doing t (if Nat.eqb u t then Some o else cur) tr
    | Inner (Return u _) :: tr => doing t (if Nat.eqb u t then None else cur) tr
    | _ :: tr => doing t cur tr
    end.
  (** How many integer operations of all threads have finished. *)
  Fixpoint all_answers (tr : list levent) : nat :=
    match tr with [] => 0 | Inner (Return _ _) :: tr => 1 + all_answers tr | _ :: tr => all_answers tr end%nat.
End Count.

(** [t] is in a public operation, which it called before [tr2].  In a stretch [tr3] in which no public operation of anybody returns, [t] finishes at most
    two integer operations, plus one for each thread that is in a public operation at any time during it ([ids]), plus one for each weak compare_exchange of its
    own that fails for no reason. *)
Definition few_before_return {HRes} (tr : list (levent pop HRes bop res)) : Prop :=
  forall tr1 t a o tr2 tr3 tr4 ids, tr = tr1 ++ Outer (Call t a o) :: tr2 ++ tr3 ++ tr4 ->
    (forall r, ~ In (Outer (Return t r)) tr2) -> (forall u r, ~ In (Outer (Return u r)) tr3) ->
    (forall u, log_after (tr1 ++ Outer (Call t a o) :: tr2 ++ tr3) u <> None -> In u ids) ->
    (answers t tr3 <= 2 + length ids + spurious for_no_reason t (doing t None tr2) tr3)%nat.
(** The same where weak compare_exchange never fails for no reason. *)
Definition few_before_return_strong {HRes} (tr : list (levent pop HRes bop res)) : Prop :=
  forall tr1 t a o tr2 tr3 tr4 ids, tr = tr1 ++ Outer (Call t a o) :: tr2 ++ tr3 ++ tr4 ->
    (forall r, ~ In (Outer (Return t r)) tr2) -> (forall u r, ~ In (Outer (Return u r)) tr3) ->
    (forall u, log_after (tr1 ++ Outer (Call t a o) :: tr2 ++ tr3) u <> None -> In u ids) ->
    (answers t tr3 <= 2 + length ids)%nat.
(** Everybody together: as long as no public operation returns, the threads in one ([ids]) finish at most so many integer operations. *)
Definition public_lock_free {HRes} (tr : list (levent pop HRes bop res)) : Prop :=
  forall tr1 tr2 tr3 ids, tr = tr1 ++ tr2 ++ tr3 -> (forall u r, ~ In (Outer (Return u r)) tr2) ->
    (forall u, log_after (tr1 ++ tr2) u <> None -> In u ids) -> (all_answers tr2 <= length ids * (2 + length ids))%nat.
