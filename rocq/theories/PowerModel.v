(** * powerpc64: the inline-assembly blocks of atomic128/powerpc64.rs

    Registers hold numbers in [0, 2^64).  Instruction semantics follow Power ISA 3.1; they are not
    taken from the crate.  Fences are kept in the blocks (as instructions without effect in this
    memory model) so that C31 can be stated about the same blocks. *)
From Coq Require Import ZArith List Bool.
From Verif Require Import Words Spec WideSpec Halves LoopModel AsmModel BlockModel OrderingModel.
Import ListNotations.
Open Scope Z_scope.

Inductive reg := R4 | R5 | R6 | R7 | R8 | R9 | Dst | ValHi | ValLo | TmpHi | TmpLo | Zero.
Definition reg_eqb (a b : reg) : bool :=
  match a, b with
  | R4, R4 | R5, R5 | R6, R6 | R7, R7 | R8, R8 | R9, R9 | Dst, Dst | ValHi, ValHi | ValLo, ValLo
  | TmpHi, TmpHi | TmpLo, TmpLo | Zero, Zero => true
  | _, _ => false
  end.
(** one condition register field (SO is separate) *)
Record crf := mk_crf { LT : bool; GT : bool; EQ : bool }.
(** [SO0]: the SO bit of cr0; [crest]: cr2..cr7, cr1.SO and so on, the low 28 bits of [mfcr]. *)
Record st := mk_st { rg : reg -> Z; cr0 : crf; cr1 : crf; CA : bool; SO0 : bool; crest : Z }.
Definition setr (f : reg -> Z) (r : reg) (v : Z) : reg -> Z := fun q => if reg_eqb q r then v else f q.
Definition set1 (s : st) (r : reg) (v : Z) : st := mk_st (setr (rg s) r v) (cr0 s) (cr1 s) (CA s) (SO0 s) (crest s).
Definition set_ca (s : st) (r : reg) (v : Z) (c : bool) : st :=
  mk_st (setr (rg s) r v) (cr0 s) (cr1 s) c (SO0 s) (crest s).
Definition set_cr0 (s : st) (c : crf) : st := mk_st (rg s) c (cr1 s) (CA s) (SO0 s) (crest s).
Definition set_cr1 (s : st) (c : crf) : st := mk_st (rg s) (cr0 s) c (CA s) (SO0 s) (crest s).
Definition cmp (a b : Z) : crf := mk_crf (a <? b) (b <? a) (a =? b).

Inductive fence := Isync | Lwsync | Sync.
Inductive cbit := lt0 | gt0 | eq0 | lt1 | gt1.
Definition bit (b : cbit) (s : st) : bool :=
  match b with lt0 => LT (cr0 s) | gt0 => GT (cr0 s) | eq0 => EQ (cr0 s) | lt1 => LT (cr1 s) | gt1 => GT (cr1 s) end.

Inductive instr :=
| ADDC (d a b : reg) | ADDE (d a b : reg)
| SUBC (d a b : reg) | SUBFE (d a b : reg) | SUBFIC (d a : reg) (i : Z) | SUBFZE (d a : reg)
| AND (d a b : reg) | NAND (d a b : reg) | OR (d a b : reg) | XOR (d a b : reg) | ORrc (d a b : reg)
| CMPLD (a b : reg) | CMPD1 (a b : reg) | CMPW (a b : reg)
| ISEL (c : cbit) (d a b : reg)
| MFCR (d : reg)
| FENCE (f : fence).

(** sign extension of the low 32 bits *)
Definition s32 (x : Z) : Z := let y := x mod 2 ^ 32 in if 2 ^ 31 <=? y then y - 2 ^ 32 else y.
Definition exec1 (i : instr) (s : st) : st :=
  match i with
  | ADDC d a b => set_ca s d ((rg s a + rg s b) mod B64) (B64 <=? rg s a + rg s b)
  | ADDE d a b => let z := rg s a + rg s b + Z.b2z (CA s) in set_ca s d (z mod B64) (B64 <=? z)
  | SUBC d a b => (* subfc d, b, a: a + ~b + 1 *)
      let z := rg s a + not64 (rg s b) + 1 in set_ca s d (z mod B64) (B64 <=? z)
  | SUBFE d a b => let z := not64 (rg s a) + rg s b + Z.b2z (CA s) in set_ca s d (z mod B64) (B64 <=? z)
  | SUBFIC d a i => let z := not64 (rg s a) + i + 1 in set_ca s d (z mod B64) (B64 <=? z)
  | SUBFZE d a => let z := not64 (rg s a) + Z.b2z (CA s) in set_ca s d (z mod B64) (B64 <=? z)
  | AND d a b => set1 s d (Z.land (rg s a) (rg s b))
  | NAND d a b => set1 s d (not64 (Z.land (rg s a) (rg s b)))
  | OR d a b => set1 s d (Z.lor (rg s a) (rg s b))
  | XOR d a b => set1 s d (Z.lxor (rg s a) (rg s b))
  | ORrc d a b => let v := Z.lor (rg s a) (rg s b) in set_cr0 (set1 s d v) (cmp (s64 v) 0)
  | CMPLD a b => set_cr0 s (cmp (rg s a) (rg s b))
  | CMPD1 a b => set_cr1 s (cmp (s64 (rg s a)) (s64 (rg s b)))
  | CMPW a b => set_cr0 s (cmp (s32 (rg s a)) (s32 (rg s b)))
  | ISEL c d a b => set1 s d (if bit c s then rg s a else rg s b)
  | MFCR d => set1 s d (Z.b2z (LT (cr0 s)) * 2 ^ 31 + Z.b2z (GT (cr0 s)) * 2 ^ 30 + Z.b2z (EQ (cr0 s)) * 2 ^ 29 +
                        Z.b2z (SO0 s) * 2 ^ 28 + crest s mod 2 ^ 28)
  | FENCE _ => s
  end.
(** bne (on cr0) *)
Inductive jump := BNE.
Definition test (j : jump) (s : st) : bool := negb (EQ (cr0 s)).

(** Quadword instructions work on an even/odd pair, the upper half in the even register; the pair is
    written out. *)
Inductive minstr :=
| LQ (hi lo b : reg) | STQ (hi lo b : reg)
| LQARX (hi lo b : reg) | STQCX (hi lo b : reg).
Definition access (i : minstr) (s : st) : action st res :=
  match i with
  | LQ h l b => AAtomic (rg s b) (fun _ x => (None, (x, true)))
                  (fun xo => set1 (set1 s h (hi64 (fst xo))) l (lo64 (fst xo)))
  | STQ h l b => AAtomic (rg s b) (fun _ _ => (Some (join64 (rg s l) (rg s h)), (0, true))) (fun _ => s)
  | LQARX h l b => ALoadLinked true (rg s b) 128 0 (fun v => set1 (set1 s h (hi64 v)) l (lo64 v))
  | STQCX h l b => AStoreCond (rg s b) (join64 (rg s l) (rg s h)) (fun ok => set_cr0 s (mk_crf false false ok))
  end.

(** 142-153 [atomic_rmw!]: (acquire, release) *)
Definition rmw_fences (ord : ordering) : list instr * list instr :=
  match ord with
  | Relaxed => ([], [])
  | Acquire => ([FENCE Isync], [])
  | Release => ([], [FENCE Lwsync])
  | AcqRel => ([FENCE Isync], [FENCE Lwsync])
  | SeqCst => ([FENCE Isync], [FENCE Sync])
  end.
(** 154-177 [atomic_cas!]: (acquire_always, acquire_success, release); [None] = unreachable!() *)
Definition cas_fences (success failure : ordering) : option (list instr * list instr * list instr) :=
  match failure with
  | Relaxed =>
    Some (match success with
          | Relaxed => ([], [], [])
          | Acquire => ([], [FENCE Isync], [])
          | Release => ([], [], [FENCE Lwsync])
          | AcqRel => ([], [FENCE Isync], [FENCE Lwsync])
          | SeqCst => ([], [FENCE Isync], [FENCE Sync])
          end)
  | _ =>
    match upgrade_success_ordering success failure with
    | Acquire => Some ([FENCE Isync], [], [])
    | AcqRel => Some ([FENCE Isync], [], [FENCE Lwsync])
    | SeqCst => Some ([FENCE Isync], [], [FENCE Sync])
    | _ => None
    end
  end.

(** Loop bodies: add 754, sub 759, and 764, nand 769, or 774, xor 779, max 784, umax 794, min 803,
    umin 813, not 824 (xor with all ones), neg 830 / 837 ([old_llvm]: before LLVM 16). *)
Definition smaxmin (g0 g1 : cbit) : list instr :=
  [CMPLD R7 ValLo; ISEL g0 R9 R7 ValLo; CMPD1 R6 ValHi; ISEL g1 R8 R7 ValLo; CMPLD R6 ValHi;
   ISEL eq0 R9 R9 R8; ISEL g1 R8 R6 ValHi].
Definition umaxmin (g0 : cbit) : list instr :=
  [CMPLD R7 ValLo; ISEL g0 R9 R7 ValLo; CMPLD R6 ValHi; ISEL g0 R8 R7 ValLo;
   ISEL eq0 R9 R9 R8; ISEL g0 R8 R6 ValHi].
Definition body (old_llvm : bool) (t : ity) (r : rmw) : option (list instr) :=
  match r with
  | Swap _ => None
  | Add _ => Some [ADDC R9 ValLo R7; ADDE R8 ValHi R6]
  | Sub _ => Some [SUBC R9 R7 ValLo; SUBFE R8 ValHi R6]
  | And _ => Some [AND R9 ValLo R7; AND R8 ValHi R6]
  | Nand _ => Some [NAND R9 ValLo R7; NAND R8 ValHi R6]
  | Or _ => Some [OR R9 ValLo R7; OR R8 ValHi R6]
  | Xor _ | Not => Some [XOR R9 ValLo R7; XOR R8 ValHi R6]
  | Neg => Some (if old_llvm then [SUBC R9 Zero R7; SUBFZE R8 R6] else [SUBFIC R9 R7 0; SUBFZE R8 R6])
  | Max _ => Some (if isigned t then smaxmin gt0 gt1 else umaxmin gt0)
  | Min _ => Some (if isigned t then smaxmin lt0 lt1 else umaxmin lt0)
  end.
(** operand passed in [val] *)
Definition val_of (t : ity) (r : rmw) : Z := match r with Not => 2 ^ 128 - 1 | _ => operand t r end.

Local Notation binstr := (binstr instr jump minstr).
(** 619-660 swap (empty body), 662-752 the two loop macros *)
Definition loop_block (ord : ordering) (p : list instr) : list binstr :=
  let '(acq, rel) := rmw_fences ord in
  map BI rel ++ [BM (LQARX R6 R7 Dst)] ++ map BI p ++ [BM (STQCX R8 R9 Dst); BJ BNE (length rel)] ++ map BI acq.
(** 475-535 and (weak) 561-616 *)
Definition cas_cmp : list instr := [XOR TmpLo R9 ValLo; XOR TmpHi R8 ValHi; ORrc TmpLo TmpLo TmpHi].
Definition cas_block (always succ rel : list instr) : list binstr :=
  map BI rel ++ [BM (LQARX R8 R9 Dst)] ++ map BI cas_cmp ++
  [BJ BNE (length rel + 7 + length succ); BM (STQCX R6 R7 Dst); BJ BNE (length rel)] ++ map BI succ ++
  (* 3: *) map BI always ++ [BI (MFCR TmpLo)].
Definition cas_weak_block (always succ rel : list instr) : list binstr :=
  map BI rel ++ [BM (LQARX R8 R9 Dst)] ++ map BI cas_cmp ++
  [BJ BNE (length rel + 6 + length succ); BM (STQCX R6 R7 Dst)] ++ map BI succ ++
  (* 3: *) map BI always ++ [BI (MFCR TmpLo)].
(** 242-295 *)
Definition load_block (ord : ordering) : list binstr :=
  match ord with
  | Acquire => [BM (LQ R4 R5 Dst); BI (CMPW R4 R4); BJ BNE 3; BI (FENCE Isync)]
  | SeqCst => [BI (FENCE Sync); BM (LQ R4 R5 Dst); BI (CMPW R4 R4); BJ BNE 4; BI (FENCE Isync)]
  | _ => [BM (LQ R4 R5 Dst)]
  end.
(** 352-384 *)
Definition store_block (ord : ordering) : list binstr :=
  match ord with
  | Release => [BI (FENCE Lwsync); BM (STQ R4 R5 Dst)]
  | SeqCst => [BI (FENCE Sync); BM (STQ R4 R5 Dst)]
  | _ => [BM (STQ R4 R5 Dst)]
  end.
(** 180-184 *)
Definition test_cr0_eq (cr : Z) : bool := negb (Z.land cr 0x20000000 =? 0).

(** [static]: quadword-atomics known at compile time, so compare_exchange_weak is the weak block
    (536-616); otherwise it is the strong one (537-541). *)
Record target := mk_target { old_llvm : bool; static : bool }.
Definition in_pair (hi lo : reg) (v : Z) (s : st) : st := set1 (set1 s hi (hi64 v)) lo (lo64 v).
Definition code_of (g : target) (ty : Z -> ity) (junk : Z -> wop -> st) (a : Z) (o : wop)
  : option (bconf instr jump minstr st res) :=
  let t := ty a in let j := set1 (junk a o) Dst a in
  let prev67 s := RVal (of_bits t (join64 (rg s R7) (rg s R6))) in
  let cas_ret s := let p := of_bits t (join64 (rg s R9) (rg s R8)) in
                   if test_cr0_eq (rg s TmpLo) then ROk p else RErr p in
  if negb ((ibits t =? 128) && callable t o && (0 <=? a) && (a <? 2 ^ 64)) then None else
  match o with
  | WOp (OLoad ord) =>
      Some (mk_bconf (load_block ord) 0 j (fun s => RVal (of_bits t (join64 (rg s R5) (rg s R4)))))
  | WOp (OStore v ord) => Some (mk_bconf (store_block ord) 0 (in_pair R4 R5 (to_bits t v) j) (fun _ => RUnit))
  | WOp (OCas c n sc fl) =>
      match cas_fences sc fl with
      | None => None
      | Some (al, su, re) =>
        Some (mk_bconf (cas_block al su re) 0 (in_pair R6 R7 (to_bits t n) (in_pair ValHi ValLo (to_bits t c) j)) cas_ret)
      end
  | WCasWeak c n sc fl =>
      match cas_fences sc fl with
      | None => None
      | Some (al, su, re) =>
        Some (mk_bconf ((if static g then cas_weak_block else cas_block) al su re) 0
                (in_pair R6 R7 (to_bits t n) (in_pair ValHi ValLo (to_bits t c) j)) cas_ret)
      end
  | WOp (ORmw (Swap v) ord) => Some (mk_bconf (loop_block ord []) 0 (in_pair R8 R9 (to_bits t v) j) prev67)
  | WOp (ORmw r ord) =>
      match body (old_llvm g) t r with
      | None => None
      | Some p => Some (mk_bconf (loop_block ord p) 0 (set1 (in_pair ValHi ValLo (val_of t r) j) Zero 0) prev67)
      end
  end.
