(** * The abstract retry loops that the architecture-specific functions implement

    Each is a description in the vocabulary of [LoopModel]; the architecture files show that the
    code refines them. *)
From Coq Require Import ZArith List Bool.
From Verif Require Import Words Spec WideSpec LoopModel.
Import ListNotations.
Open Scope Z_scope.

Section Impls.
  Variable t : ity.
  Definition fin_val (g : Z) : res := RVal (of_bits t g).
  Definition fin_unit (g : Z) : res := RUnit.

  (** compute the new bit pattern from the old one *)
  Definition next_bits (r : rmw) (g : Z) : Z := to_bits t (spec_rmw t r (of_bits t g)).

  (** one instruction *)
  Definition d_load : impl res := Direct (fun _ x => (None, fin_val x)).
  (** load by compare-and-swap of 0 with 0: "writes" the 0 it found *)
  Definition d_load_cas : impl res := Direct (fun _ x => (if x =? 0 then Some 0 else None, fin_val x)).
  Definition d_store (v : Z) : impl res := Direct (fun _ x => (Some (to_bits t v), RUnit)).
  Definition d_rmw (r : rmw) : impl res := Direct (fun _ x => (Some (next_bits r x), fin_val x)).
  Definition d_cas (cur new : Z) : impl res :=
    Direct (fun _ x => if x =? to_bits t cur then (Some (to_bits t new), ROk (of_bits t x))
                       else (None, RErr (of_bits t x))).
  Definition d_cas_weak (cur new : Z) : impl res :=
    Direct (fun sp x => if (x =? to_bits t cur) && negb sp then (Some (to_bits t new), ROk (of_bits t x))
                        else (None, RErr (of_bits t x))).

  (** loops around compare-and-swap; [k], [rs]: how the first guess is read *)
  Section Cas.
    Variables (k : Z) (rs : list nat) (reread : bool).
    Definition c_rmw (r : rmw) : impl res :=
      CasLoop k rs reread (fun _ g => Some (next_bits r g)) fin_val fin_val.
    Definition c_store (v : Z) : impl res :=
      CasLoop k rs reread (fun _ g => Some (to_bits t v)) fin_unit fin_unit.
    (** load / compare_exchange by a compare-and-swap that writes back what it read *)
    Definition c_load : impl res := CasLoop k rs reread (fun _ g => Some g) fin_val fin_val.
    Definition c_cas (cur new : Z) : impl res :=
      CasLoop k rs reread (fun _ g => Some (if g =? to_bits t cur then to_bits t new else g))
        (fun g => if g =? to_bits t cur then ROk (of_bits t g) else RErr (of_bits t g)) fin_val.
  End Cas.

  (** loops around load-linked / store-conditional *)
  Section Llsc.
    Variables (k : Z) (rs : list nat).
    Definition l_rmw (r : rmw) : impl res :=
      LlSc k rs (fun g => Some (next_bits r g)) fin_val fin_val None.
    Definition l_store (v : Z) : impl res :=
      LlSc k rs (fun g => Some (to_bits t v)) fin_unit fin_unit None.
    Definition l_load : impl res := LlSc k rs (fun g => Some g) fin_val fin_val None.
    (** compare_exchange that writes back the old value when it differs *)
    Definition l_cas_wb (cur new : Z) : impl res :=
      LlSc k rs (fun g => Some (if g =? to_bits t cur then to_bits t new else g))
        (fun g => if g =? to_bits t cur then ROk (of_bits t g) else RErr (of_bits t g)) fin_val None.
    (** compare_exchange that leaves without storing when it differs *)
    Definition l_cas (cur new : Z) (weak : bool) : impl res :=
      LlSc k rs (fun g => if g =? to_bits t cur then Some (to_bits t new) else None)
        (fun g => ROk (of_bits t g)) (fun g => RErr (of_bits t g))
        (if weak then Some (fun g => RErr (of_bits t g)) else None).
  End Llsc.
End Impls.
