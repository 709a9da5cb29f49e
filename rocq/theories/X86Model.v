(** * x86_64: the instruction sequences of atomic128/x86_64.rs

    Registers hold numbers in [0, 2^64); the flags are the four that matter.  The instruction
    semantics follow the Intel SDM; they are not taken from the crate. *)
From Coq Require Import ZArith List Bool.
From Verif Require Import Words Spec WideSpec Halves LoopModel AsmModel.
Import ListNotations.
Open Scope Z_scope.

Inductive reg := rax | rbx | rcx | rdx | rsi | rdi | r8 | r9 | r10 | r11.
Definition reg_eqb (a b : reg) : bool :=
  match a, b with
  | rax, rax | rbx, rbx | rcx, rcx | rdx, rdx | rsi, rsi | rdi, rdi
  | r8, r8 | r9, r9 | r10, r10 | r11, r11 => true
  | _, _ => false
  end.
Record st := mk_st { rg : reg -> Z; CF : bool; ZF : bool; SF : bool; OF : bool }.
Definition setr (f : reg -> Z) (r : reg) (v : Z) : reg -> Z := fun q => if reg_eqb q r then v else f q.

Inductive cond := L | B | GE | AE.
Inductive instr :=
| MOV (d s : reg) | MOVI (d : reg) (i : Z)
| ADD (d s : reg) | ADC (d s : reg) | SUB (d s : reg) | SBB (d s : reg)
| AND (d s : reg) | OR (d s : reg) | XOR (d s : reg) | NOT (d : reg) | NEG (d : reg)
| CMP (a b : reg) | CMOV (c : cond) (d s : reg) | XCHG (a b : reg)
| SETNE_CL.

Definition arith (s : st) (d : reg) (v : Z) (c o : bool) : st :=
  mk_st (setr (rg s) d v) c (zf v) (sf v) o.
Definition holds (c : cond) (s : st) : bool :=
  match c with
  | L => xorb (SF s) (OF s)
  | GE => negb (xorb (SF s) (OF s))
  | B => CF s
  | AE => negb (CF s)
  end.

Definition exec1 (i : instr) (s : st) : st :=
  match i with
  | MOV d q => mk_st (setr (rg s) d (rg s q)) (CF s) (ZF s) (SF s) (OF s)
  | MOVI d v => mk_st (setr (rg s) d v) (CF s) (ZF s) (SF s) (OF s)
  | ADD d q => arith s d ((rg s d + rg s q) mod B64) (B64 <=? rg s d + rg s q)
                     (ovf (s64 (rg s d) + s64 (rg s q)))
  | ADC d q => let c := Z.b2z (CF s) in
      arith s d ((rg s d + rg s q + c) mod B64) (B64 <=? rg s d + rg s q + c)
            (ovf (s64 (rg s d) + s64 (rg s q) + c))
  | SUB d q => arith s d ((rg s d - rg s q) mod B64) (rg s d <? rg s q)
                     (ovf (s64 (rg s d) - s64 (rg s q)))
  | SBB d q => let c := Z.b2z (CF s) in
      arith s d ((rg s d - rg s q - c) mod B64) (rg s d <? rg s q + c)
            (ovf (s64 (rg s d) - s64 (rg s q) - c))
  | AND d q => arith s d (Z.land (rg s d) (rg s q)) false false
  | OR d q => arith s d (Z.lor (rg s d) (rg s q)) false false
  | XOR d q => arith s d (Z.lxor (rg s d) (rg s q)) false false
  | NOT d => mk_st (setr (rg s) d (not64 (rg s d))) (CF s) (ZF s) (SF s) (OF s)
  | NEG d => arith s d ((0 - rg s d) mod B64) (negb (rg s d =? 0)) (ovf (0 - s64 (rg s d)))
  | CMP a b => let v := (rg s a - rg s b) mod B64 in
      mk_st (rg s) (rg s a <? rg s b) (zf v) (sf v) (ovf (s64 (rg s a) - s64 (rg s b)))
  | XCHG a b => mk_st (setr (setr (rg s) a (rg s b)) b (rg s a)) (CF s) (ZF s) (SF s) (OF s)
  | SETNE_CL => mk_st (setr (rg s) rcx (rg s rcx - rg s rcx mod 256 + (if ZF s then 0 else 1)))
                      (CF s) (ZF s) (SF s) (OF s)
  | CMOV c d q => if holds c s then mk_st (setr (rg s) d (rg s q)) (CF s) (ZF s) (SF s) (OF s) else s
  end.
Fixpoint exec (p : list instr) (s : st) : st :=
  match p with [] => s | i :: p' => exec p' (exec1 i s) end.

(** Loop bodies of [atomic_rmw_cas_3] / [atomic_rmw_cas_2] (x86_64.rs:626-770): r9:r8 = val,
    rdx:rax = previous value, rcx:rbx = new value.  Line numbers of the bodies:
    add 772, sub 779, and 786, nand 793, or 802, xor 809, not 817, neg 824, max 832, umax 842,
    min 852, umin 862.  Which of max/umax serves [fetch_max]: atomic128/macros.rs (signed types
    take atomic_max / atomic_min, unsigned ones atomic_umax / atomic_umin). *)
Definition pick (c : cond) : list instr :=
  [CMP r8 rax; MOV rcx r9; SBB rcx rdx; MOV rcx r9; CMOV c rcx rdx; MOV rbx r8; CMOV c rbx rax].
Definition body (t : ity) (r : rmw) : option (list instr) :=
  match r with
  | Swap _ => None
  | Add _ => Some [MOV rbx rax; ADD rbx r8; MOV rcx rdx; ADC rcx r9]
  | Sub _ => Some [MOV rbx rax; SUB rbx r8; MOV rcx rdx; SBB rcx r9]
  | And _ => Some [MOV rbx rax; AND rbx r8; MOV rcx rdx; AND rcx r9]
  | Nand _ => Some [MOV rbx rax; AND rbx r8; NOT rbx; MOV rcx rdx; AND rcx r9; NOT rcx]
  | Or _ => Some [MOV rbx rax; OR rbx r8; MOV rcx rdx; OR rcx r9]
  | Xor _ => Some [MOV rbx rax; XOR rbx r8; MOV rcx rdx; XOR rcx r9]
  | Not => Some [MOV rbx rax; NOT rbx; MOV rcx rdx; NOT rcx]
  | Neg => Some [MOV rbx rax; NEG rbx; MOVI rcx 0; SBB rcx rdx]
  | Max _ => Some (pick (if isigned t then L else B))
  | Min _ => Some (pick (if isigned t then GE else AE))
  end.
(** The value handed to cmpxchg16b: rcx:rbx after the body. *)
Definition new_value (s : st) : Z := join64 (rg s rbx) (rg s rcx).

(** ** Whole inline-assembly blocks *)

(** Memory operand base: a 64-bit register, or its low 32 bits (x32 ABI, "edi" for "rdi"). *)
Inductive base := B64r (r : reg) | B32r (r : reg).
Definition addr (s : st) (b : base) : Z :=
  match b with B64r r => rg s r | B32r r => rg s r mod 2 ^ 32 end.

Inductive binstr :=
| I (i : instr)
| LDQ (d : reg) (b : base) (disp : Z)     (* mov d, qword ptr [b + disp] *)
| CX16 (b : base)                         (* lock cmpxchg16b xmmword ptr [b] *)
| JNE (target : nat)                      (* jne 2b *)
| VLD (b : base)                          (* vmovdqa xmm, xmmword ptr [b] *)
| VST (b : base) (xmm : Z)                (* vmovdqa xmmword ptr [b], xmm (the xmm register is an operand) *)
| XCHGP.                                  (* xchg qword ptr [p], tmp; [p] is a local variable *)

(** A thread inside a block: the block, the index of the current instruction, the registers,
    the value last loaded into the xmm register, and how the Rust code around the block turns the
    final state into the result. *)
Record conf := mk_conf { prog : list binstr; pos : nat; stt : st; xmm : Z; ret : st -> Z -> res }.
Definition adv (c : conf) (s : st) : conf := mk_conf (prog c) (S (pos c)) s (xmm c) (ret c).
Definition set1 (s : st) (r : reg) (v : Z) : st := mk_st (setr (rg s) r v) (CF s) (ZF s) (SF s) (OF s).
Definition setZF (s : st) (b : bool) : st := mk_st (rg s) (CF s) b (SF s) (OF s).

(** cmpxchg16b: compare the variable with rdx:rax; equal: store rcx:rbx, ZF := 1; otherwise load
    the variable into rdx:rax, ZF := 0 (x86_64.rs:131-138 quotes the manual). *)
Definition next (c : conf) : action conf res :=
  match nth_error (prog c) (pos c) with
  | None => ADone (ret c (stt c) (xmm c))
  | Some (I i) => ALocal (adv c (exec1 i (stt c)))
  | Some (LDQ d b disp) =>
      ARead (addr (stt c) b) 64 (Z.to_nat (disp / 8)) (fun v => adv c (set1 (stt c) d v))
  | Some (CX16 b) =>
      let old := join64 (rg (stt c) rax) (rg (stt c) rdx) in
      let new := join64 (rg (stt c) rbx) (rg (stt c) rcx) in
      AAtomic (addr (stt c) b)
        (fun _ x => if x =? old then (Some new, (x, true)) else (None, (x, false)))
        (fun xo => if snd xo then adv c (setZF (stt c) true)
                   else adv c (setZF (set1 (set1 (stt c) rax (lo64 (fst xo))) rdx (hi64 (fst xo))) false))
  | Some (JNE n) =>
      ALocal (if ZF (stt c) then adv c (stt c) else mk_conf (prog c) n (stt c) (xmm c) (ret c))
  | Some (VLD b) =>
      AAtomic (addr (stt c) b) (fun _ x => (None, (x, true)))
        (fun xo => mk_conf (prog c) (S (pos c)) (stt c) (fst xo) (ret c))
  | Some (VST b v) =>
      AAtomic (addr (stt c) b) (fun _ x => (Some v, (0, true))) (fun _ => adv c (stt c))
  | Some XCHGP => ALocal (adv c (stt c))
  end.

(** Target: Windows or not, 32-bit pointers (x32) or not.  [avx]: vmovdqa is used for loads and stores. *)
Record target := mk_target { win : bool; x32 : bool; avx : bool }.
Definition mkb (g : target) (r : reg) : base := if x32 g then B32r r else B64r r.

(** Registers holding the pointer and the saved rbx, x86_64.rs:163-174 (cas), 404-417 (load),
    599-612 (swap), 683-696 (three arguments), 748-761 (two arguments). *)
Definition cas_dst (g : target) : reg := if win g then r11 else rsi.
Definition ld_dst (g : target) : reg := if win g then r9 else rdi.
Definition ld_save (g : target) : reg := if win g then r8 else rsi.
Definition rmw3_dst (g : target) : reg := if win g then r10 else rdi.
Definition rmw3_save (g : target) : reg := if win g then r11 else r10.

(** x86_64.rs:145-152 [cmpxchg16b]. *)
Definition cas_block (g : target) : list binstr :=
  [I (XCHG r8 rbx); CX16 (mkb g (cas_dst g)); I SETNE_CL; I (MOV rbx r8)].
(** x86_64.rs:389-393 [_atomic_load_cmpxchg16b]. *)
Definition load_block (g : target) : list binstr :=
  [I (MOV (ld_save g) rbx); I (XOR rbx rbx); CX16 (mkb g (ld_dst g)); I (MOV rbx (ld_save g))].
(** x86_64.rs:574-589 (swap: [xchg]), 645-661 and 718-734 ([mov]); [pre] is the instruction that
    saves rbx. *)
Definition loop_block (pre : instr) (b : base) (save : reg) (body : list instr) : list binstr :=
  [I pre; LDQ rax b 0; LDQ rdx b 8] ++ map I body ++ [CX16 b; JNE 3; I (MOV rbx save)].

(** Initial registers: the inputs of the [asm!]; everything else (including flags and, for x32, the
    upper half of the pointer register) is arbitrary ([j]). *)
Definition in_ptr (g : target) (r : reg) (a : Z) (s : st) : st :=
  set1 s r (if x32 g then rg s r - rg s r mod 2 ^ 32 + a else a).
Definition in_pair (l h : reg) (v : Z) (s : st) : st := set1 (set1 s l (lo64 v)) h (hi64 v).

Definition ret_pair (t : ity) (s : st) (_ : Z) : res := RVal (of_bits t (join64 (rg s rax) (rg s rdx))).
(** x86_64.rs:176 and 534: [r == 0] where r = cl. *)
Definition ret_cas (t : ity) (s : st) (_ : Z) : res :=
  let prev := of_bits t (join64 (rg s rax) (rg s rdx)) in
  if rg s rcx mod 256 =? 0 then ROk prev else RErr prev.

(** [swap_code], also used by [_atomic_store_cmpxchg16b] (507-513), which drops the result. *)
Definition swap_code (g : target) (a v : Z) (j : st) (rt : st -> Z -> res) : conf :=
  mk_conf (loop_block (XCHG (ld_save g) rbx) (mkb g (ld_dst g)) (ld_save g) []) 0
    (in_ptr g (ld_dst g) a (set1 (set1 j (ld_save g) (lo64 v)) rcx (hi64 v))) 0 rt.
Definition cas_code (g : target) (t : ity) (a cur new : Z) (j : st) : conf :=
  mk_conf (cas_block g) 0
    (in_ptr g (cas_dst g) a (in_pair r8 rcx (to_bits t new) (in_pair rax rdx (to_bits t cur) j))) 0 (ret_cas t).

(** The function that serves a call on a CPU with cmpxchg16b.
    load: 265-372 dispatch, 201-219 vmovdqa, 373-420 cmpxchg16b; store: 424-505, 225-262, 507;
    compare_exchange(_weak): 516-543; the rest: 553-870 and macros.rs. *)
Definition code_of (g : target) (ty : Z -> ity) (junk : Z -> wop -> st) (a : Z) (o : wop) : option conf :=
  let t := ty a in let j := junk a o in
  if negb ((ibits t =? 128) && callable t o && (0 <=? a) && (a <? (if x32 g then 2 ^ 32 else 2 ^ 64))) then None else
  match o with
  | WOp (OLoad _) =>
      Some (if avx g
            then mk_conf [VLD (mkb g rdi)] 0 (in_ptr g rdi a j) 0 (fun _ x => RVal (of_bits t x))
            else mk_conf (load_block g) 0
                   (in_ptr g (ld_dst g) a (set1 (in_pair rax rdx 0 j) rcx 0)) 0 (ret_pair t))
  | WOp (OStore v ord) =>
      Some (if avx g
            then mk_conf (VST (mkb g rdi) (to_bits t v) :: match ord with SeqCst => [XCHGP] | _ => [] end) 0
                   (in_ptr g rdi a j) 0 (fun _ _ => RUnit)
            else swap_code g a (to_bits t v) j (fun _ _ => RUnit))
  | WOp (OCas c n _ _) | WCasWeak c n _ _ => Some (cas_code g t a c n j)
  | WOp (ORmw (Swap v) _) => Some (swap_code g a (to_bits t v) j (ret_pair t))
  | WOp (ORmw r _) =>
      match body t r with
      | None => None
      | Some p =>
        match r with
        | Not | Neg =>
          Some (mk_conf (loop_block (MOV (ld_save g) rbx) (mkb g (ld_dst g)) (ld_save g) p) 0
                  (in_ptr g (ld_dst g) a j) 0 (ret_pair t))
        | _ =>
          Some (mk_conf (loop_block (MOV (rmw3_save g) rbx) (mkb g (rmw3_dst g)) (rmw3_save g) p) 0
                  (in_ptr g (rmw3_dst g) a (in_pair r8 r9 (operand t r) j)) 0 (ret_pair t))
        end
      end
  end.
