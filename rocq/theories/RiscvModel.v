(** * Model of src/imp/riscv.rs (RISC-V load/store and Zaamo/Zabha read-modify-writes)
    and of create_sub_word_mask_values (src/utils.rs:541-602). *)
From Coq Require Import ZArith List Bool.
From Verif Require Import Words Spec OrderingModel ByteMem ByteSpec.
Import ListNotations.
Open Scope Z_scope.

(** Target: register width, endianness, extensions (cfgs at riscv.rs:38-43, 393). *)
Record rv := mk_rv { xlen : Z; rv_be : bool; zaamo : bool; zabha : bool }.

(** The AMO instructions (RISC-V ISA manual, "Zaamo"): the new value of the [w]-bit memory operand that
    held [x], for register operand [v] (only its low [w] bits matter). *)
Inductive amo := AmoSwap | AmoAdd | AmoAnd | AmoOr | AmoXor | AmoMax | AmoMin | AmoMaxu | AmoMinu.
Definition amo_val (k : amo) (w : Z) (x v : Z) : Z :=
  let v := v mod 2 ^ w in
  let sg := of_bits (mk_ity w true) in
  match k with
  | AmoSwap => v
  | AmoAdd => (x + v) mod 2 ^ w
  | AmoAnd => Z.land x v
  | AmoOr => Z.lor x v
  | AmoXor => Z.lxor x v
  | AmoMax => if sg x <? sg v then v else x
  | AmoMin => if sg v <? sg x then v else x
  | AmoMaxu => if x <? v then v else x
  | AmoMinu => if v <? x then v else x
  end.

(** One AMO on the [n]-byte operand at [a]: new memory and old value. *)
Definition amo_exec (c : rv) (k : amo) (n : nat) (a v : Z) (m : memory) : memory * Z :=
  let x := ld (rv_be c) n m a in
  (st (rv_be c) n m a (amo_val k (8 * Z.of_nat n) x v), x).

(** riscv.rs:113-127 sllw, 129-147 srlw: 32-bit shifts, amount taken modulo 32. *)
Definition sllw (val shift : Z) : Z := (val * 2 ^ (shift mod 32)) mod 2 ^ 32.
Definition srlw (val shift : Z) : Z := val / 2 ^ (shift mod 32).

(** utils.rs:553-601 create_sub_word_mask_values::<T> for a [T] of [n] bytes at address [a]:
    (aligned address, shift, mask).  SHIFT_MASK is false on RISC-V (561-579). *)
Definition create_sub_word_mask_values (c : rv) (n : nat) (a : Z) : Z * Z * Z :=
  let ptr_mask := 4 - 1 in                                                    (* 580 *)
  let aligned_ptr := Z.land a (Z.lxor ptr_mask (Z.ones (xlen c))) in           (* 581 *)
  let ptr_lsb := a in                                                         (* 586 *)
  let shift := if negb (rv_be c) then (ptr_lsb * 8) mod 2 ^ xlen c             (* 589 *)
               else (Z.lxor ptr_lsb (4 - Z.of_nat n) * 8) mod 2 ^ xlen c in    (* 591 *)
  let mask := 2 ^ (Z.of_nat n * 8) - 1 in                                      (* 593 *)
  (aligned_ptr, shift mod 2 ^ 32, mask).                                      (* 599 *)

(** riscv.rs:149-172 zero_extend: the value's bit pattern as a u32. *)
Definition zero_extend (t : ity) (val : Z) : Z := to_bits t val.

(** riscv.rs:409-424 sub-word fetch_and, 426-439 fetch_or, 441-454 fetch_xor. *)
Definition sub_word_and (c : rv) (t : ity) (a val : Z) (m : memory) : memory * Z :=
  let '(dst, shift, mask) := create_sub_word_mask_values c (nbytes t) a in
  let mask := Z.lxor (sllw mask shift) (Z.ones 32) in                          (* 417 *)
  let val := sllw (zero_extend t val) shift in                                (* 418 *)
  let val := Z.lor val mask in                                                (* 419 *)
  let (m', out) := amo_exec c AmoAnd 4 dst val m in                           (* 422 *)
  (m', to_bits t (srlw out shift)).                                           (* 423 *)
Definition sub_word_or (c : rv) (t : ity) (a val : Z) (m : memory) : memory * Z :=
  let '(dst, shift, _) := create_sub_word_mask_values c (nbytes t) a in
  let val := sllw (zero_extend t val) shift in                                (* 434 *)
  let (m', out) := amo_exec c AmoOr 4 dst val m in                            (* 437 *)
  (m', to_bits t (srlw out shift)).                                           (* 438 *)
Definition sub_word_xor (c : rv) (t : ity) (a val : Z) (m : memory) : memory * Z :=
  let '(dst, shift, _) := create_sub_word_mask_values c (nbytes t) a in
  let val := sllw (zero_extend t val) shift in                                (* 449 *)
  let (m', out) := amo_exec c AmoXor 4 dst val m in                           (* 452 *)
  (m', to_bits t (srlw out shift)).                                           (* 453 *)

(** Full-size RMWs: riscv.rs:286-324 (atomic_base!), 350-371 (atomic!).  [None]: not provided
    ("There is no amo{sub,nand,neg}", 284). *)
Definition word_rmw (c : rv) (t : ity) (a : Z) (r : rmw) (m : memory) : option (memory * Z) :=
  let go k v := Some (amo_exec c k (nbytes t) a v m) in
  match r with
  | Swap v => go AmoSwap (to_bits t v)                                        (* 291 *)
  | Add v => go AmoAdd (to_bits t v)                                          (* 298 *)
  | Sub v => go AmoAdd (to_bits t (wrapping_neg t v))                         (* 302 *)
  | And v => go AmoAnd (to_bits t v)                                          (* 309 *)
  | Or v => go AmoOr (to_bits t v)                                            (* 316 *)
  | Xor v => go AmoXor (to_bits t v)                                          (* 323 *)
  | Not => go AmoXor (Z.ones (xlen c))                                        (* 353-356 *)
  | Max v => go (if isigned t then AmoMax else AmoMaxu) (to_bits t v)         (* 363; tables 493-512 *)
  | Min v => go (if isigned t then AmoMin else AmoMinu) (to_bits t v)         (* 370 *)
  | Nand _ | Neg => None
  end.
Definition sub_word_rmw (c : rv) (t : ity) (a : Z) (r : rmw) (m : memory) : option (memory * Z) :=
  match r with
  | And v => Some (sub_word_and c t a v m)
  | Or v => Some (sub_word_or c t a v m)
  | Xor v => Some (sub_word_xor c t a v m)
  | Not => Some (sub_word_xor c t a (if isigned t then -1 else 2 ^ ibits t - 1) m)   (* 456-458: fetch_xor(!0) *)
  | _ => None
  end.
(** Selection: riscv.rs:390-403 (zabha: 8/16-bit use the full-size code), 493-512 (which types). *)
Definition rv_rmw (c : rv) (t : ity) (a : Z) (r : rmw) (m : memory) : option (memory * Z) :=
  if negb (zaamo c) then None
  else if (ibits t <? 32) && negb (zabha c) then sub_word_rmw c t a r m
  else word_rmw c t a r m.

(** The whole module: one memory access per operation.
    load 209-236, store 240-266; no-result forms: impl_default_no_fetch_ops (utils.rs:199-245) via
    373-385, and sub-word 467-483: the fetch form with the result dropped.
    [None]: the operation does not exist here (emulated by src/imp/interrupt/mod.rs or unavailable). *)
Definition rv_access (c : rv) (t : ity) (a : Z) (o : bop) (m : memory) : option (memory * res) :=
  if xlen c <? ibits t then None
  else match o with
  | BOp (OLoad ord) => if assert_load_ordering ord then Some (m, RVal (of_bits t (ld (rv_be c) (nbytes t) m a))) else None
  | BOp (OStore v ord) => if assert_store_ordering ord then Some (st (rv_be c) (nbytes t) m a (to_bits t v), RUnit) else None
  | BOp (ORmw r _) => match rv_rmw c t a r m with Some (m', x) => Some (m', RVal (of_bits t x)) | None => None end
  | BNoFetch r _ => match rv_rmw c t a r m with Some (m', _) => Some (m', RUnit) | None => None end
  | BOp (OCas _ _ _ _) | BCasWeak _ _ _ _ => None
  end.

(** ** Any number of harts using this module

    Every operation is one memory access, preceded and followed by local computation. *)
Section Machine.
  Variables (c : rv) (vars : layout).
  Inductive rphase := RIdle | RPending (a : Z) (t : ity) (o : bop) | RFinished (r : res).
  Record rstate := mk_rstate { rmem : memory; rthr : nat -> rphase }.
  Inductive rlabel := LCall (h : nat) (a : Z) (o : bop) | LStep (h : nat).
  Definition rgoto (s : rstate) (h : nat) (p : rphase) (m : memory) : rstate :=
    mk_rstate m (fun k => if Nat.eqb k h then p else rthr s k).
  Definition rv_step (s : rstate) (l : rlabel) : option (rstate * list (event bop res)) :=
    match l with
    | LCall h a o =>
      match rthr s h, vars a with
      | RIdle, Some t =>
        if bcallable t o then
          match rv_access c t a o (rmem s) with
          | Some _ => Some (rgoto s h (RPending a t o) (rmem s), [Call h a o])
          | None => None
          end
        else None
      | _, _ => None
      end
    | LStep h =>
      match rthr s h with
      | RIdle => None
      | RPending a t o =>
        match rv_access c t a o (rmem s) with
        | Some (m', r) => Some (rgoto s h (RFinished r) m', [])
        | None => None
        end
      | RFinished r => Some (rgoto s h RIdle (rmem s), [Return h r])
      end
    end.
  Fixpoint rv_run (s : rstate) (ls : list rlabel) : option (rstate * list (event bop res)) :=
    match ls with
    | [] => Some (s, [])
    | l :: ls' =>
      match rv_step s l with
      | Some (s', e) => match rv_run s' ls' with Some (s'', es) => Some (s'', e ++ es) | None => None end
      | None => None
      end
    end.
  Definition rv_init (m : memory) : rstate := mk_rstate m (fun _ => RIdle).
End Machine.
