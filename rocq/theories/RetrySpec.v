(** * Specification of how often public operations retry

    Counted on histories of both levels (LayerSpec): [Outer] events are the calls and returns of the public operations, [Inner]
    ones those of the integer operations they make. *)
From Coq Require Import ZArith List Bool.
From Verif Require Import Words Spec FrontSpec ByteSpec LayerSpec.
Import ListNotations.
Open Scope Z_scope.

Section Count.
  Context {HOp HRes Op Res : Type}.
  Notation levent := (levent HOp HRes Op Res).
  (** How many integer operations of thread [t] have finished. *)
  Fixpoint answers (t : nat) (tr : list levent) : nat :=
    match tr with
    | [] => 0
    | Inner (Return u _) :: tr => (if Nat.eqb u t then 1 else 0) + answers t tr
    | _ :: tr => answers t tr
    end%nat.
  Variable reads : HOp -> bool.                          (* public operations that only read *)
  (** How many public operations, not counting those, other threads than [t] start on the variable [a]. *)
  Fixpoint rivals (a : Z) (t : nat) (tr : list levent) : nat :=
    match tr with
    | [] => 0
    | Outer (Call u b o) :: tr => (if negb (Nat.eqb u t) && (b =? a)%Z && negb (reads o) then 1 else 0) + rivals a t tr
    | _ :: tr => rivals a t tr
    end%nat.
  (** Who is in the middle of one on [a] after [tr]. *)
  Definition log_after (tr : list levent) : llog (HOp := HOp) (Op := Op) (Res := Res) := fold_left llog_step tr (fun _ => None).
  Definition busy_on (a : Z) (tr : list levent) (u : nat) : Prop := exists b, log_after tr u = Some b /\ baddr b = a /\ reads (bop_ b) = false.
  (** How many integer operations of [t] failed for no reason ([spur]); [cur]: the one it is in. *)
  Variable spur : Op -> Res -> bool.
  Fixpoint spurious (t : nat) (cur : option Op) (tr : list levent) : nat :=
    match tr with
    | [] => 0
    | Inner (Call u _ o) :: tr => spurious t (if Nat.eqb u t then Some o else cur) tr
    | Inner (Return u r) :: tr =>
        (if Nat.eqb u t then match cur with Some o => if spur o r then 1 else 0 | None => 0 end else 0) + spurious t (if Nat.eqb u t then None else cur) tr
    | _ :: tr => spurious t cur tr
    end%nat.
End Count.
(** A weak compare_exchange that fails although the value was the expected one. *)
Definition for_no_reason (o : bop) (r : res) : bool :=
  match o, r with BCasWeak c _ _ _, RErr v => v =? c | _, _ => false end.
Definition only_reads (o : pop) : bool := match o with Plain (OLoad _) | BoolLoad _ | FlLoad _ => true | _ => false end.

(** How often a public operation makes an integer operation: in every stretch [tr2] of the history between its call and its return at most twice (the
    first load and the compare_exchange), plus once for each public operation other than a load of another thread on the same variable that was
    under way at the call ([others]) or started in [tr2], plus once for each weak compare_exchange that failed for no reason. *)
Definition few_retries {HRes} (tr : list (levent pop HRes bop res)) : Prop :=
  forall tr1 t a o tr2 tr3 others, tr = tr1 ++ Outer (Call t a o) :: tr2 ++ tr3 -> (forall r, ~ In (Outer (Return t r)) tr2) ->
    (forall u, u <> t -> busy_on only_reads a tr1 u -> In u others) ->
    (answers t tr2 <= 2 + (length others + rivals only_reads a t tr2) + spurious for_no_reason t None tr2)%nat.
(** The same where weak compare_exchange never fails for no reason. *)
Definition few_retries_strong {HRes} (tr : list (levent pop HRes bop res)) : Prop :=
  forall tr1 t a o tr2 tr3 others, tr = tr1 ++ Outer (Call t a o) :: tr2 ++ tr3 -> (forall r, ~ In (Outer (Return t r)) tr2) ->
    (forall u, u <> t -> busy_on only_reads a tr1 u -> In u others) ->
    (answers t tr2 <= 2 + (length others + rivals only_reads a t tr2))%nat.
