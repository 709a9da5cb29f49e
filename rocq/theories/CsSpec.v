(** * Specification for atomics built on a critical section, and for the ESP32 memory map

    Nothing here refers to the crate's implementation. *)
From Coq Require Import ZArith List Bool.
From Verif Require Import Words Spec ByteMem ByteSpec.
Import ListNotations.
Open Scope Z_scope.

(** Bytes served by the external data bus, on which the compare-and-set instruction S32C1I is not atomic:
    ESP32 technical reference manual, table 3.3-4; ESP32-S3 technical reference manual, table 4.3-2. *)
Inductive chip := Esp32 | Esp32s3.
Definition external (c : chip) (x : Z) : Prop :=
  match c with
  | Esp32 => 0x3F800000 <= x <= 0x3FBFFFFF
  | Esp32s3 => 0x3C000000 <= x <= 0x3DFFFFFF
  end.

(** Like [byte_history], but compare_exchange_weak may also fail without reason. *)
Definition weak_history (be : bool) (vars : layout) (m : memory) (h : list (event bop res)) (fin : Z -> option Z) : Prop :=
  linearizable_to
    (fun a o x out => exists t, vars a = Some t /\
       (out = bsem t o x \/ (exists cu nw su fa, o = BCasWeak cu nw su fa) /\ out = (x, RErr x)))
    (fun a => match vars a with Some t => value_at be m t a | None => 0 end) h fin.
