(** * The public types by name

    What each type exported by lib.rs holds, and which integer type of the module [imp] it is a wrapper of. *)
From Coq Require Import String ZArith List Bool.
From Verif Require Import Words Spec FrontSpec ConfigSpec.
Import ListNotations.
Local Open Scope string_scope.
Local Open Scope list_scope.
Open Scope Z_scope.

(** The values of a type, on a target with [w]-bit pointers; [size]: of what a pointer points to. *)
Definition kind_named (w size : Z) (name : string) : option kind :=
  let is := String.eqb name in
  if is "AtomicBool" then Some KBool
  else if is "AtomicI8" then Some (KInt i8) else if is "AtomicU8" then Some (KInt u8)
  else if is "AtomicI16" then Some (KInt i16) else if is "AtomicU16" then Some (KInt u16)
  else if is "AtomicI32" then Some (KInt i32) else if is "AtomicU32" then Some (KInt u32)
  else if is "AtomicI64" then Some (KInt i64) else if is "AtomicU64" then Some (KInt u64)
  else if is "AtomicI128" then Some (KInt i128) else if is "AtomicU128" then Some (KInt u128)
  else if is "AtomicIsize" then Some (KInt (mk_ity w true)) else if is "AtomicUsize" then Some (KInt (mk_ity w false))
  else if is "AtomicPtr" then Some (KPtr w size)
  else if is "AtomicF16" then Some (KFloat 10 5) else if is "AtomicF32" then Some (KFloat 23 8)
  else if is "AtomicF64" then Some (KFloat 52 11) else if is "AtomicF128" then Some (KFloat 112 15)
  else None.
(** The integer type inside: lib.rs:740 (bool), 1778 (pointers), 2530- (integers); float/int.rs:40-60. *)
Definition inner_named (name : string) : string :=
  let is := String.eqb name in
  if is "AtomicBool" then "AtomicU8" else if is "AtomicF16" then "AtomicU16" else if is "AtomicF32" then "AtomicU32"
  else if is "AtomicF64" then "AtomicU64" else if is "AtomicF128" then "AtomicU128" else name.
Definition type_names : list string :=
  ["AtomicBool"; "AtomicI8"; "AtomicU8"; "AtomicI16"; "AtomicU16"; "AtomicI32"; "AtomicU32"; "AtomicI64"; "AtomicU64";
   "AtomicI128"; "AtomicU128"; "AtomicIsize"; "AtomicUsize"; "AtomicPtr"; "AtomicF16"; "AtomicF32"; "AtomicF64"; "AtomicF128"].

(** The target's pointer width. *)
Definition pointer_bits (e : env) : Z :=
  if e "target_pointer_width" (Some "16") then 16 else if e "target_pointer_width" (Some "32") then 32 else 64.

(** [p] is what is left of the crate in configuration [e]: it exports a type named [t] that holds values of kind [k], and
    the module [imp] takes the integer type inside from the module [from]. *)
Definition exported (e : env) (p : list leaf) (from : path) (t : string) (k : kind) : Prop :=
  In (LDef [] t) p /\ (exists size, 0 <= size /\ kind_named (pointer_bits e) size t = Some k) /\ In (LUse ["imp"] from (inner_named t)) p.

(** ** A program with variables of several modules *)
(** Which variable each thread is in; [None]: in none. *)
Definition moves {Op Res} (at_ : nat -> option Z) (e : event Op Res) : nat -> option Z :=
  match e with
  | Call t a _ => fun u => if Nat.eqb u t then Some a else at_ u
  | Return t _ => fun u => if Nat.eqb u t then None else at_ u
  end.
(** The calls and returns of the operations on the variables that are [mine]. *)
Fixpoint part_from {Op Res} (mine : Z -> bool) (at_ : nat -> option Z) (h : list (event Op Res)) : list (event Op Res) :=
  match h with
  | [] => []
  | e :: h =>
      match e with
      | Call _ a _ => if mine a then [e] else []
      | Return t _ => match at_ t with Some a => if mine a then [e] else [] | None => [] end
      end ++ part_from mine (moves at_ e) h
  end.
Definition part_of {Op Res} (mine : Z -> bool) (h : list (event Op Res)) : list (event Op Res) := part_from mine (fun _ => None) h.

(** Each thread makes one call at a time, and returns from calls only. *)
Definition fine {Op Res} (at_ : nat -> option Z) (e : event Op Res) : Prop := match e with Call t _ _ => at_ t = None | Return t _ => at_ t <> None end.
Fixpoint seq_from {Op Res} (at_ : nat -> option Z) (h : list (event Op Res)) : Prop := match h with [] => True | e :: h => fine at_ e /\ seq_from (moves at_ e) h end.
Definition sequential {Op Res} (h : list (event Op Res)) : Prop := seq_from (fun _ => None) h.
