(** * Numerically encoded instructions ([.4byte], [.inst])

    For assemblers that do not know an instruction, the code emits its encoding as a hexadecimal constant
    assembled with [concat!] from the digits chosen by the ordering.  The model keeps the texts as they are in
    the source; [parse_hex] is what the assembler does with them. *)
From Coq Require Import ZArith List Bool String Ascii.
From Verif Require Import Spec.
Import ListNotations.
Open Scope string_scope.
Open Scope Z_scope.

Notation "a +++ b" := (String.append a b) (at level 60, right associativity) : string_scope.

(** The assembler's reading of hexadecimal digits. *)
Definition hex_digit (c : ascii) : option Z :=
  let n := Z.of_nat (nat_of_ascii c) in
  if (48 <=? n) && (n <=? 57) then Some (n - 48)
  else if (97 <=? n) && (n <=? 102) then Some (n - 87)
  else None.
Fixpoint hex_acc (s : string) (acc : Z) : option Z :=
  match s with
  | EmptyString => Some acc
  | String c s' => match hex_digit c with Some d => hex_acc s' (16 * acc + d) | None => None end
  end.
Definition parse_hex (s : string) : option Z :=
  match s with
  | String "0" (String "x" s') => hex_acc s' 0
  | _ => None
  end.

(** An [asm!] block with one encoded instruction: the text before it (a fence), the word, the text after it,
    the values put in registers before and the names of the values taken from registers after. *)
Record asm_block (A : Type) := mk_block {
  blk_before : string;
  blk_word : string;
  blk_after : string;
  blk_in : list (Z * A);
  blk_out : list (Z * A) }.
Arguments mk_block {A}. Arguments blk_before {A}. Arguments blk_word {A}. Arguments blk_after {A}.
Arguments blk_in {A}. Arguments blk_out {A}.

(** The values that go in and out of the blocks. *)
Inductive operand := Ptr | OldLo | OldHi | NewLo | NewHi | ZeroLo | ZeroHi | PrevLo | PrevHi.

Definition seqcst_b (o : ordering) : bool := match o with SeqCst => true | _ => false end.

(** [atomic_rmw_amocas_order_insn!] (src/imp/atomic64/riscv32.rs:93-110, src/imp/atomic128/riscv64.rs:91-108). *)
Definition amocas_order_insn (order failure : ordering) : string * string :=
  match order with
  | Relaxed => ("", "8")
  | Acquire => ("", "c")
  | Release => ("", "a")
  | AcqRel => ("", "e")
  | SeqCst => if seqcst_b failure then ("fence rw,rw", "e") else ("", "e")
  end.

(** src/imp/atomic64/riscv32.rs:186-203 ([load!], a0 = 10, a2 = 12, a3 = 13). *)
Definition rv32_load_block (order : ordering) : asm_block operand :=
  let (f, d) := amocas_order_insn order order in
  mk_block f ("0x2" +++ d +++ "c5362f") "" [(10, Ptr); (12, ZeroLo); (13, ZeroHi)] [(12, PrevLo); (13, PrevHi)].
(** src/imp/atomic64/riscv32.rs:333-352 ([cmpxchg!], a4 = 14, a5 = 15). *)
Definition rv32_cas_block (order failure : ordering) : asm_block operand :=
  let (f, d) := amocas_order_insn order failure in
  mk_block f ("0x2" +++ d +++ "c5372f") ""
    [(10, Ptr); (14, OldLo); (15, OldHi); (12, NewLo); (13, NewHi)] [(14, PrevLo); (15, PrevHi)].
(** src/imp/atomic128/riscv64.rs:184-201. *)
Definition rv64_load_block (order : ordering) : asm_block operand :=
  let (f, d) := amocas_order_insn order order in
  mk_block f ("0x2" +++ d +++ "c5462f") "" [(10, Ptr); (12, ZeroLo); (13, ZeroHi)] [(12, PrevLo); (13, PrevHi)].
(** src/imp/atomic128/riscv64.rs:331-350. *)
Definition rv64_cas_block (order failure : ordering) : asm_block operand :=
  let (f, d) := amocas_order_insn order failure in
  mk_block f ("0x2" +++ d +++ "c5472f") ""
    [(10, Ptr); (14, OldLo); (15, OldHi); (12, NewLo); (13, NewHi)] [(14, PrevLo); (15, PrevHi)].

(** [atomic_rmw_inst!] (src/imp/atomic128/aarch64.rs:462-481, src/imp/float/aarch64.rs:57-77): the digit.
    The second argument is ignored by every user ([$_msvc_fence]). *)
Definition aarch64_order_insn (order : ordering) : string :=
  match order with Relaxed => "2" | Acquire => "a" | Release => "6" | AcqRel => "e" | SeqCst => "e" end.

(** src/imp/atomic128/aarch64.rs:1634-1645 (swpp). *)
Definition swpp_block (order : ordering) : asm_block operand :=
  mk_block "" ("0x19" +++ aarch64_order_insn order +++ "18002") "" [(0, Ptr); (2, NewLo); (1, NewHi)] [(2, PrevLo); (1, PrevHi)].
(** src/imp/atomic128/aarch64.rs:2047-2058 (ldclrp; the operand is already complemented, line 2027). *)
Definition ldclrp_block (order : ordering) : asm_block operand :=
  mk_block "" ("0x19" +++ aarch64_order_insn order +++ "11008") "" [(0, Ptr); (8, NewLo); (1, NewHi)] [(8, PrevLo); (1, PrevHi)].
(** src/imp/atomic128/aarch64.rs:2123-2134 (ldsetp). *)
Definition ldsetp_block (order : ordering) : asm_block operand :=
  mk_block "" ("0x19" +++ aarch64_order_insn order +++ "13002") "" [(0, Ptr); (2, NewLo); (1, NewHi)] [(2, PrevLo); (1, PrevHi)].
(** src/imp/atomic128/aarch64.rs:745-753 (Acquire) and 771-783 (SeqCst: "ldar" first); [None] is unreachable!. *)
Definition ldiapp_block (order : ordering) : option (asm_block operand) :=
  match order with
  | Acquire => Some (mk_block "" "0xd9411800" "" [(0, Ptr)] [(0, PrevLo); (1, PrevHi)])
  | SeqCst => Some (mk_block "ldar" "0xd9411800" "" [(0, Ptr)] [(0, PrevLo); (1, PrevHi)])
  | _ => None
  end.
(** src/imp/atomic128/aarch64.rs:1184-1194, 1197-1206. *)
Definition stilp_block (order : ordering) : option (asm_block operand) :=
  match order with
  | Release => Some (mk_block "" "0xd9031802" "" [(0, Ptr); (2, NewLo); (3, NewHi)] [])
  | SeqCst => Some (mk_block "" "0xd9031802" "dmb ish" [(0, Ptr); (2, NewLo); (3, NewHi)] [])
  | _ => None
  end.

(** Floats with FEAT_LSFE (src/imp/float/aarch64.rs:225-228: the [$inst_modifier]s). *)
Inductive lsfe_size := H16 | S32 | D64.
Definition inst_modifier (s : lsfe_size) : string := match s with H16 => "7" | S32 => "b" | D64 => "f" end.
Inductive lsfe_op := LdfAdd | LdfMaxNm | LdfMinNm.
(** src/imp/float/aarch64.rs:114, 163, 207. Vector registers are numbered from 32 (v0 = 32, v1 = 33). *)
Definition lsfe_tail (o : lsfe_op) : string := match o with LdfAdd => "00041" | LdfMaxNm => "06041" | LdfMinNm => "07041" end.
Definition lsfe_block (o : lsfe_op) (s : lsfe_size) (order : ordering) : asm_block operand :=
  mk_block "" ("0x" +++ inst_modifier s +++ "c" +++ aarch64_order_insn order +++ lsfe_tail o) ""
    [(2, Ptr); (32, NewLo)] [(33, PrevLo)].
