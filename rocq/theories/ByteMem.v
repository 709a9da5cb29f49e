(** * Byte-addressed memory

    Pure definitions: how a target of either endianness lays an integer out in bytes.  Models nothing of
    the crate; used by the machines whose instructions access different sizes at the same place. *)
From Coq Require Import ZArith List Bool.
From Verif Require Import Words.
Import ListNotations.
Open Scope Z_scope.

Definition memory := Z -> Z.                     (* address -> byte *)
Definition byte_mem (m : memory) : Prop := forall x, 0 <= m x < 256.

(** Address of the byte of significance [i] (0 = least significant) of the [n]-byte integer at [a]. *)
Definition baddr (be : bool) (n : nat) (a : Z) (i : nat) : Z :=
  if be then a + Z.of_nat n - 1 - Z.of_nat i else a + Z.of_nat i.
(** The byte of significance [i] of [v]. *)
Definition byte_of (v : Z) (i : nat) : Z := v / 2 ^ (8 * Z.of_nat i) mod 256.

(** The [n]-byte integer at [a]. *)
Definition ld (be : bool) (n : nat) (m : memory) (a : Z) : Z :=
  join_le 8 (map (fun i => m (baddr be n a i)) (seq 0 n)).
(** Storing [v] there. *)
Definition st (be : bool) (n : nat) (m : memory) (a v : Z) : memory :=
  fun x => if (a <=? x) && (x <? a + Z.of_nat n)
           then byte_of v (Z.to_nat (if be then a + Z.of_nat n - 1 - x else x - a))
           else m x.
(** Storing one byte of it. *)
Definition st1 (m : memory) (a b : Z) : memory := fun x => if x =? a then b else m x.

(** Size in bytes of a type of 8, 16, 32, 64 or 128 bits. *)
Definition nbytes (t : ity) : nat := Z.to_nat (ibits t / 8).
