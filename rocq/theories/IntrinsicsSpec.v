(** * Specification for the orderings of intrinsics.rs

    [used k out]: the memory ordering core gives the intrinsic [k] when it returned [out]
    (compare-exchange: the success ordering if it succeeded, the failure ordering otherwise).
    [in_core k]: the intrinsic exists / core accepts these orderings (core::sync::atomic documents that loads cannot be
    Release or AcqRel, stores not Acquire or AcqRel, failures of compare_exchange not Release or AcqRel). *)
From Coq Require Import ZArith List Bool.
From Verif Require Import Words Spec IntrinsicsModel.

Definition used (k : intrinsic) (out : Z * bool) : ordering :=
  match k with
  | KLoad o | KStore _ o | KFetch _ _ o => o
  | KCxchg _ _ _ s f | KCmpxchg16b _ _ s f => if snd out then s else f
  end.
Definition in_core (k : intrinsic) : Prop :=
  match k with
  | KLoad o => o <> Release /\ o <> AcqRel
  | KStore _ o => o <> Acquire /\ o <> AcqRel
  | KFetch _ _ _ => True
  | KCxchg _ _ _ _ f | KCmpxchg16b _ _ _ f => f <> Release /\ f <> AcqRel
  end.
