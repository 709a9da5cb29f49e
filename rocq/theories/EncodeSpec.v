(** * Instruction formats from the architecture manuals (specification for C33)

    Independent of the crate.  RISC-V: "Zacas" chapter of the unprivileged ISA manual (AMOCAS.D / AMOCAS.Q,
    AMO format).  A64: SWPP/LDCLRP/LDSETP (FEAT_LSE128), LDIAPP/STILP (FEAT_LRCPC3), LDFADD/LDFMAXNM/LDFMINNM
    (FEAT_LSFE) of DDI 0602. *)
From Coq Require Import ZArith List Bool.
Import ListNotations.
Open Scope Z_scope.

(** Bits [hi:lo] of a word. *)
Definition field (w hi lo : Z) : Z := (w / 2 ^ lo) mod 2 ^ (hi - lo + 1).
Definition bit (w k : Z) : bool := field w k k =? 1.

(** ** RISC-V AMO format: funct5 | aq | rl | rs2 | rs1 | funct3 | rd | 0101111 *)
Inductive rv_insn := Amocas (bits : Z) (aq rl : bool) (rd rs2 rs1 : Z).
Definition decode_rv (w : Z) : option rv_insn :=
  if negb ((0 <=? w) && (w <? 2 ^ 32)) then None
  else if negb (field w 6 0 =? 47) then None
  else if negb (field w 31 27 =? 5) then None
  else
    let k bits := Some (Amocas bits (bit w 26) (bit w 25) (field w 11 7) (field w 24 20) (field w 19 15)) in
    if field w 14 12 =? 2 then k 32
    else if field w 14 12 =? 3 then k 64
    else if field w 14 12 =? 4 then k 128
    else None.
(** AMOCAS of twice the register width: registers come in even/odd pairs (odd numbers are reserved); the pair
    [rd, rd+1] holds the value compared with and receives the old memory value, [rs2, rs2+1] the replacement.
    Register 0 as the first of a pair reads as zero and is not modelled ([None]). *)
Definition exec_rv (xlen : Z) (i : rv_insn) (regs : Z -> Z) (mem : Z -> Z) : option ((Z -> Z) * (Z -> Z)) :=
  match i with
  | Amocas bits aq rl rd rs2 rs1 =>
      if negb (bits =? 2 * xlen) then None
      else if negb (Z.even rd && Z.even rs2 && (0 <? rd) && (0 <? rs2)) then None
      else
        let a := regs rs1 in
        let cmp := regs rd + 2 ^ xlen * regs (rd + 1) in
        let swp := regs rs2 + 2 ^ xlen * regs (rs2 + 1) in
        let old := mem a in
        Some (fun r => if r =? rd then old mod 2 ^ xlen else if r =? rd + 1 then old / 2 ^ xlen else regs r,
              fun x => if (x =? a) && (old =? cmp) then swp else mem x)
  end.

(** ** A64 *)
Inductive a64_insn :=
| Swpp (acq rel : bool) (t t2 n : Z)      (* atomic { x = *n; *n = t:t2; t:t2 = x } *)
| Ldclrp (acq rel : bool) (t t2 n : Z)    (* atomic { x = *n; *n = x & ~t:t2; t:t2 = x } *)
| Ldsetp (acq rel : bool) (t t2 n : Z)    (* atomic { x = *n; *n = x | t:t2; t:t2 = x } *)
| Ldiapp (t t2 n : Z)                     (* atomic { t:t2 = *n }, load-acquire *)
| Stilp (t t2 n : Z)                      (* atomic { *n = t:t2 }, store-release *)
| Ldf (op : Z) (bits : Z) (acq rel : bool) (s t n : Z). (* atomic { x = *n; *n = x op s; t = x }; op: 0 add, 6 maxnm, 7 minnm *)

Definition decode_a64 (w : Z) : option a64_insn :=
  if negb ((0 <=? w) && (w <? 2 ^ 32)) then None
  (* 0 0 011001 A R 1 Rt2 o3 opc 00 Rn Rt : 128-bit atomic memory operations *)
  else if (field w 31 24 =? 25) && (field w 21 21 =? 1) && (field w 11 10 =? 0) then
    let k c := Some (c (bit w 23) (bit w 22) (field w 4 0) (field w 20 16) (field w 9 5)) in
    if field w 15 12 =? 8 then k Swpp
    else if field w 15 12 =? 1 then k Ldclrp
    else if field w 15 12 =? 3 then k Ldsetp
    else None
  (* 1 1 011001 0 L 0 Rt2 opc2 10 Rn Rt : LDIAPP/STILP 64-bit pairs, opc2 = 0001 is the form without write-back *)
  else if (field w 31 24 =? 217) && (field w 23 23 =? 0) && (field w 21 21 =? 0) && (field w 15 10 =? 6) then
    if field w 22 22 =? 1 then Some (Ldiapp (field w 4 0) (field w 20 16) (field w 9 5))
    else Some (Stilp (field w 4 0) (field w 20 16) (field w 9 5))
  (* size 111100 A R 1 Rs o3 opc 00 Rn Rt : floating-point atomic memory operations, o3 = 0 *)
  else if (field w 29 24 =? 60) && (field w 21 21 =? 1) && (field w 15 15 =? 0) && (field w 11 10 =? 0) then
    let k bits := Some (Ldf (field w 14 12) bits (bit w 23) (bit w 22) (32 + field w 20 16) (32 + field w 4 0) (field w 9 5)) in
    if field w 31 30 =? 1 then k 16
    else if field w 31 30 =? 2 then k 32
    else if field w 31 30 =? 3 then k 64
    else None
  else None.

(** [fop bits op a b] is the floating-point operation.  Pairs: the first register is the half at the lower
    address ([be]: the more significant one). *)
Definition pair_value (be : bool) (lo hi : Z) : Z := if be then hi + 2 ^ 64 * lo else lo + 2 ^ 64 * hi.
Definition pair_first (be : bool) (v : Z) : Z := if be then v / 2 ^ 64 else v mod 2 ^ 64.
Definition pair_second (be : bool) (v : Z) : Z := if be then v mod 2 ^ 64 else v / 2 ^ 64.
Definition set2 (regs : Z -> Z) (t t2 x y : Z) : Z -> Z := fun r => if r =? t then x else if r =? t2 then y else regs r.
Definition exec_a64 (be : bool) (fop : Z -> Z -> Z -> Z -> Z) (i : a64_insn) (regs : Z -> Z) (mem : Z -> Z) : (Z -> Z) * (Z -> Z) :=
  let wr a v := fun x => if x =? a then v else mem x in
  let pair t t2 v := set2 regs t t2 (pair_first be v) (pair_second be v) in
  match i with
  | Swpp _ _ t t2 n => let a := regs n in (pair t t2 (mem a), wr a (pair_value be (regs t) (regs t2)))
  | Ldclrp _ _ t t2 n => let a := regs n in (pair t t2 (mem a), wr a (Z.ldiff (mem a) (pair_value be (regs t) (regs t2))))
  | Ldsetp _ _ t t2 n => let a := regs n in (pair t t2 (mem a), wr a (Z.lor (mem a) (pair_value be (regs t) (regs t2))))
  | Ldiapp t t2 n => let a := regs n in (pair t t2 (mem a), mem)
  | Stilp t t2 n => let a := regs n in (regs, wr a (pair_value be (regs t) (regs t2)))
  | Ldf op bits _ _ s t n => let a := regs n in (fun r => if r =? t then mem a else regs r, wr a (fop bits op (mem a) (regs s)))
  end.
