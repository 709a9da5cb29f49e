(** * Specification of how often closures are called

    "fetch_update takes a closure ... This may call the function multiple times if the value has been changed from other threads in the meantime, as long as
    the function returns Some(_)" (lib.rs: AtomicBool, AtomicPtr, the integers, the floats).  Counted on the events of ClientSpec. *)
From Coq Require Import ZArith List Bool.
From Verif Require Import Words Spec ClientSpec.
Import ListNotations.
Open Scope Z_scope.

Section Evals.
  Context {Op Res : Type}.
  Variable reads : Op -> bool.                                (* operations that only read *)
  Definition changes (o : hop Op) : bool := match o with HPrim o => negb (reads o) | HUpdate _ _ => true end.
  (** The call that each [id] is in. *)
  Definition open_step (op : nat -> option (Z * hop Op)) (e : cevent Op Res) : nat -> option (Z * hop Op) :=
    match e with
    | High (Call i a o) => fun j => if Nat.eqb j i then Some (a, o) else op j
    | High (Return i _) => fun j => if Nat.eqb j i then None else op j
    | _ => op
    end.
  Definition open_after (tr : list (cevent Op Res)) : nat -> option (Z * hop Op) := fold_left open_step tr (fun _ => None).
  (** [j] is, after [tr], in the middle of an operation on [a] that does not only read. *)
  Definition rival_on (a : Z) (tr : list (cevent Op Res)) (j : nat) : Prop := exists o, open_after tr j = Some (a, o) /\ changes o = true.
  (** How many of those others than [i] start in [tr]. *)
  Fixpoint rival_calls (a : Z) (i : nat) (tr : list (cevent Op Res)) : nat :=
    match tr with
    | [] => 0
    | High (Call j b o) :: tr => (if negb (Nat.eqb j i) && (b =? a)%Z && changes o then 1 else 0) + rival_calls a i tr
    | _ :: tr => rival_calls a i tr
    end%nat.
  (** How often the closure of [i] is called ... *)
  Fixpoint evals (i : nat) (tr : list (cevent Op Res)) : nat :=
    match tr with [] => 0 | Eval j _ :: tr => (if Nat.eqb j i then 1 else 0) + evals i tr | _ :: tr => evals i tr end%nat.
  (** ... with another value than the time before ([last]). *)
  Definition differs (last : option Z) (x : Z) : nat := match last with Some v => if (v =? x)%Z then 0 else 1 | None => 1 end.
  Fixpoint new_values (i : nat) (last : option Z) (tr : list (cevent Op Res)) : nat :=
    match tr with
    | [] => 0
    | Eval j x :: tr => if Nat.eqb j i then differs last x + new_values i (Some x) tr else new_values i last tr
    | _ :: tr => new_values i last tr
    end%nat.

  (** In every stretch [tr2] of the history between the call of a fetch_update on [a] and its return: the closure is called with a new value at most
      once, plus once for each operation on [a], other than those that only read, that another [id] was in at the call ([others]) or starts in [tr2]. *)
  Definition few_evals (tr : list (cevent Op Res)) : Prop :=
    forall tr1 i a so fo tr2 tr3 others, tr = tr1 ++ High (Call i a (HUpdate so fo)) :: tr2 ++ tr3 -> (forall r, ~ In (High (Return i r)) tr2) ->
      (forall j, j <> i -> rival_on a tr1 j -> In j others) ->
      (new_values i None tr2 <= 1 + (length others + rival_calls a i tr2))%nat.
  (** The same for all calls of the closure. *)
  Definition few_evals_strong (tr : list (cevent Op Res)) : Prop :=
    forall tr1 i a so fo tr2 tr3 others, tr = tr1 ++ High (Call i a (HUpdate so fo)) :: tr2 ++ tr3 -> (forall r, ~ In (High (Return i r)) tr2) ->
      (forall j, j <> i -> rival_on a tr1 j -> In j others) ->
      (evals i tr2 <= 1 + (length others + rival_calls a i tr2))%nat.
  Definition reads_only (sem : Z -> Op -> Z -> Z * Res -> Prop) : Prop :=
    forall a o x x' r, reads o = true -> sem a o x (x', r) -> x' = x.
End Evals.
(** compare_exchange_weak, here, fails only if the value is not the expected one. *)
Definition never_for_no_reason {Op Res} (sem : Z -> Op -> Z -> Z * Res -> Prop) (F : iface Op Res) : Prop :=
  forall a c n so fo x x' r v, readable F a c = true -> typed F a n = true -> sem a (op_cas F a c n so fo) x (x', r) -> swapped F r = Some (false, v) -> v <> c.
