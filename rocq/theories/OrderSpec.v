(** * Specification of ordering strength (C09, C10)

    What an ordering guarantees, as documented for [core::sync::atomic::Ordering]:
    acquire semantics for the read part, release semantics for the write part, and
    participation in the single total order of SeqCst operations. *)
From Coq Require Import Bool.
From Verif Require Import Spec.

Definition has_acquire (o : ordering) : Prop := o = Acquire \/ o = AcqRel \/ o = SeqCst.
Definition has_release (o : ordering) : Prop := o = Release \/ o = AcqRel \/ o = SeqCst.
Definition is_seqcst (o : ordering) : Prop := o = SeqCst.

(** [a] is at least as strong as [b]. *)
Definition at_least (a b : ordering) : Prop :=
  (has_acquire b -> has_acquire a) /\ (has_release b -> has_release a) /\ (is_seqcst b -> is_seqcst a).

(** The orderings each operation accepts. *)
Definition valid_load (o : ordering) : Prop := ~ load_panics o.
Definition valid_store (o : ordering) : Prop := ~ store_panics o.
Definition valid_failure (o : ordering) : Prop := o <> Release /\ o <> AcqRel.
