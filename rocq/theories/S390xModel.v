(** * s390x: the inline-assembly blocks of atomic128/s390x.rs

    Registers hold numbers in [0, 2^64); [CC] is the condition code.  The instruction semantics
    follow the z/Architecture Principles of Operation; they are not taken from the crate. *)
From Coq Require Import ZArith List Bool.
From Verif Require Import Words Spec WideSpec Halves LoopModel AsmModel BlockModel.
Import ListNotations.
Open Scope Z_scope.

(** [Dst], [ValHi], [ValLo], [Tmp], [Zero]: registers the compiler chooses for the operands written
    [{dst}], ...; [in(reg)] and [out(reg)] operands get registers different from each other and
    from the explicitly named ones. *)
Inductive reg := R0 | R1 | R4 | R5 | R12 | R13 | Dst | ValHi | ValLo | Tmp | Zero | Other.
Definition reg_eqb (a b : reg) : bool :=
  match a, b with
  | R0, R0 | R1, R1 | R4, R4 | R5, R5 | R12, R12 | R13, R13 | Dst, Dst | ValHi, ValHi | ValLo, ValLo
  | Tmp, Tmp | Zero, Zero | Other, Other => true
  | _, _ => false
  end.
Record st := mk_st { rg : reg -> Z; CC : Z }.
Definition setr (f : reg -> Z) (r : reg) (v : Z) : reg -> Z := fun q => if reg_eqb q r then v else f q.
Definition set1 (s : st) (r : reg) (v : Z) : st := mk_st (setr (rg s) r v) (CC s).

(** mask conditions: e = 0, l = 1, h = 2 *)
Inductive cond := E | L | H.
Definition holds (c : cond) (s : st) : bool :=
  match c with E => CC s =? 0 | L => CC s =? 1 | H => CC s =? 2 end.

Inductive alu := AL | SL | N | O | X.
Inductive instr :=
| LGR (d s : reg) | LGHI (d : reg) (i : Z)
| OP (o : alu) (d s : reg)              (* algr slgr ngr ogr xgr d, s *)
| OPK (o : alu) (d a b : reg)           (* algrk slgrk ngrk ogrk xgrk d, a, b *)
| NNGRK (d a b : reg)
| ALCGR (d s : reg) | SLBGR (d s : reg)
| LCGR (d s : reg) | AGHI (d : reg) (i : Z)
| CLGR (a b : reg) | CGR (a b : reg)
| LOCGR (c : cond) (d s : reg) | SELGR (c : cond) (d a b : reg)
| IPM (d : reg)
| BCR.                                  (* bcr 14,0 / bcr 15,0: serialization, s390x.rs:43-61 *)

(** logical add/subtract: bit 1 of cc = carry (no borrow), bit 0 = result not zero *)
Definition cc_log (v : Z) (carry : bool) : Z := (if v =? 0 then 0 else 1) + (if carry then 2 else 0).
Definition cc_bit (v : Z) : Z := if v =? 0 then 0 else 1.
Definition cc_cmp (a b : Z) : Z := if a =? b then 0 else if a <? b then 1 else 2.
(** signed arithmetic: 0 / negative / positive / overflow *)
Definition cc_arith (z : Z) : Z := if ovf z then 3 else if z =? 0 then 0 else if z <? 0 then 1 else 2.

Definition alu_sem (o : alu) (a b : Z) : Z * Z :=
  match o with
  | AL => let v := (a + b) mod B64 in (v, cc_log v (B64 <=? a + b))
  | SL => let v := (a - b) mod B64 in (v, cc_log v (negb (a <? b)))
  | N => let v := Z.land a b in (v, cc_bit v)
  | O => let v := Z.lor a b in (v, cc_bit v)
  | X => let v := Z.lxor a b in (v, cc_bit v)
  end.
Definition carry (s : st) : bool := (CC s =? 2) || (CC s =? 3).
(** program mask: unknown *)
Definition exec1 (pm : Z) (i : instr) (s : st) : st :=
  match i with
  | LGR d q => set1 s d (rg s q)
  | LGHI d v => set1 s d (v mod B64)
  | OP o d q => let '(v, c) := alu_sem o (rg s d) (rg s q) in mk_st (setr (rg s) d v) c
  | OPK o d a b => let '(v, c) := alu_sem o (rg s a) (rg s b) in mk_st (setr (rg s) d v) c
  | NNGRK d a b => let v := not64 (Z.land (rg s a) (rg s b)) in mk_st (setr (rg s) d v) (cc_bit v)
  | ALCGR d q => let z := rg s d + rg s q + Z.b2z (carry s) in
      mk_st (setr (rg s) d (z mod B64)) (cc_log (z mod B64) (B64 <=? z))
  | SLBGR d q => let b := Z.b2z (negb (carry s)) in let v := (rg s d - rg s q - b) mod B64 in
      mk_st (setr (rg s) d v) (cc_log v (negb (rg s d <? rg s q + b)))
  | LCGR d q => mk_st (setr (rg s) d ((0 - rg s q) mod B64)) (cc_arith (0 - s64 (rg s q)))
  | AGHI d v => mk_st (setr (rg s) d ((rg s d + v) mod B64)) (cc_arith (s64 (rg s d) + v))
  | CLGR a b => mk_st (rg s) (cc_cmp (rg s a) (rg s b))
  | CGR a b => mk_st (rg s) (cc_cmp (s64 (rg s a)) (s64 (rg s b)))
  | LOCGR c d q => set1 s d (if holds c s then rg s q else rg s d)
  | SELGR c d a b => set1 s d (if holds c s then rg s a else rg s b)
  | IPM d => (* bits 31,30 := 0; 29,28 := cc; 27..24 := program mask; the others unchanged *)
      let r := rg s d in set1 s d (r / 2 ^ 32 * 2 ^ 32 + CC s * 2 ^ 28 + pm * 2 ^ 24 + r mod 2 ^ 24)
  | BCR => s
  end.

(** Branches: jl; j; compare-and-branch (which leaves the condition code alone). *)
Inductive jump :=
| JL | JMP
| CGRJ (c : cond) (a b : reg)                    (* signed, h or l *)
| CLGRJ (c : cond) (or_equal : bool) (a b : reg). (* unsigned, h/l or he/le *)
Definition cmp_is (c : cond) (or_equal : bool) (a b : Z) : bool :=
  match c with E => a =? b | L => a <? b | H => b <? a end || (or_equal && (a =? b)).
Definition test (j : jump) (s : st) : bool :=
  match j with
  | JL => holds L s
  | JMP => true
  | CGRJ c a b => cmp_is c false (s64 (rg s a)) (s64 (rg s b))
  | CLGRJ c e a b => cmp_is c e (rg s a) (rg s b)
  end.

(** Memory instructions.  Big endian: offset 0 is the upper half.  Register 0 as a base means
    address 0. *)
Inductive minstr :=
| LG (d : reg) (off : Z) (b : reg)
| CDSG (old_hi old_lo new_hi new_lo b : reg)     (* the pairs are written by their even register *)
| LPQ (hi lo b : reg)
| STPQ (hi lo b : reg).
Definition addr (s : st) (b : reg) : Z := match b with R0 => 0 | _ => rg s b end.
Definition access (i : minstr) (s : st) : action st res :=
  match i with
  | LG d off b => ARead (addr s b) 64 (if off =? 0 then 1%nat else 0%nat) (fun v => set1 s d v)
  | CDSG oh ol nh nl b =>
      let old := join64 (rg s ol) (rg s oh) in
      let new := join64 (rg s nl) (rg s nh) in
      AAtomic (addr s b)
        (fun _ x => if x =? old then (Some new, (x, true)) else (None, (x, false)))
        (fun xo => if snd xo then mk_st (rg s) 0
                   else mk_st (setr (setr (rg s) oh (hi64 (fst xo))) ol (lo64 (fst xo))) 1)
  | LPQ h l b => AAtomic (addr s b) (fun _ x => (None, (x, true)))
                   (fun xo => set1 (set1 s h (hi64 (fst xo))) l (lo64 (fst xo)))
  | STPQ h l b => AAtomic (addr s b) (fun _ _ => (Some (join64 (rg s l) (rg s h)), (0, true))) (fun _ => s)
  end.

(** Target features: distinct-ops, load-store-on-cond, miscellaneous-extensions-3; z/OS; which
    register the compiler picks for the [lateout(reg)] operand of compare_exchange. *)
Record target := mk_target { dops : bool; lsoc : bool; misc3 : bool; zos : bool; cc_reg : reg }.

Section Code.
  Variable g : target.
  (** s390x.rs:63-76 *)
  Definition distinct_op (o : alu) (a0 a1 a2 : reg) : list instr :=
    if dops g then [OPK o a0 a1 a2] else [LGR a0 a1; OP o a0 a2].
  (** s390x.rs:78-103 *)
  Definition select_op (c : cond) (a0 a1 a2 : reg) : list instr :=
    if misc3 g then [SELGR c a0 a1 a2] else [LGR a0 a2; LOCGR c a0 a1].

  (** Loop bodies: add 327, sub 333, and 339, nand 350/359, or 369, xor 374, max 386, umax 395,
      min 405, umin 414, not 505, neg 514/521.  [None]: not of this shape. *)
  Definition sel_max (c : cond) : list instr :=
    [CLGR R1 ValLo] ++ select_op c R12 R1 ValLo ++ [CGR R0 ValHi] ++ select_op c R13 R1 ValLo ++
    [LOCGR E R13 R12] ++ select_op c R12 R0 ValHi.
  Definition sel_umax (c : cond) : list instr :=
    [CLGR R1 ValLo] ++ select_op c Tmp R1 ValLo ++ [CLGR R0 ValHi] ++ select_op c R12 R0 ValHi ++
    select_op c R13 R1 ValLo ++ [CGR R0 ValHi; LOCGR E R13 Tmp].
  Definition body (t : ity) (r : rmw) : option (list instr) :=
    match r with
    | Swap _ => None
    | Add _ => Some (distinct_op AL R13 R1 ValLo ++ [LGR R12 R0; ALCGR R12 ValHi])
    | Sub _ => Some (distinct_op SL R13 R1 ValLo ++ [LGR R12 R0; SLBGR R12 ValHi])
    | And _ => Some (distinct_op N R13 R1 ValLo ++ distinct_op N R12 R0 ValHi)
    | Nand _ => Some (if misc3 g then [NNGRK R13 R1 ValLo; NNGRK R12 R0 ValHi]
                      else distinct_op N R13 R1 ValLo ++ distinct_op N R12 R0 ValHi ++
                           [LCGR R13 R13; AGHI R13 (-1); LCGR R12 R12; AGHI R12 (-1)])
    | Or _ => Some (distinct_op O R13 R1 ValLo ++ distinct_op O R12 R0 ValHi)
    | Xor _ => Some (distinct_op X R13 R1 ValLo ++ distinct_op X R12 R0 ValHi)
    | Max _ => if lsoc g then Some (if isigned t then sel_max H else sel_umax H) else None
    | Min _ => if lsoc g then Some (if isigned t then sel_max L else sel_umax L) else None
    | Not => Some [LCGR R13 R1; AGHI R13 (-1); LCGR R12 R0; AGHI R12 (-1)]
    | Neg => Some (if dops g then [OPK SL R13 Zero R1; LGHI R12 0; SLBGR R12 R0]
                   else [LGHI R13 0; OP SL R13 R1; LGHI R12 0; SLBGR R12 R0])
    end.

  Local Notation binstr := (binstr instr jump minstr).
  (** 253-325: both loop macros; 208-241 swap with an empty body. *)
  Definition loop_block (p : list instr) (nh nl : reg) : list binstr :=
    [BM (LG R1 8 Dst); BM (LG R0 0 Dst)] ++ map BI p ++ [BM (CDSG R0 R1 nh nl Dst); BJ JL 2].
  (** 425-500 [atomic_cmp!]; labels 2 = instruction 2, 3 = 5, 4 = 8, 5 = 10. *)
  Definition cmp_block (j1 j2 : reg -> reg -> jump) (j3 : reg -> reg -> jump) (vh vl : reg) : list binstr :=
    [BM (LG R1 8 Dst); BM (LG R0 0 Dst);
     BJ (j1 vh R0) 8; BJ (j2 vh R0) 5; BJ (j3 vl R1) 8;
     BM (CDSG R0 R1 R0 R1 Dst); BJ JL 2; BJ JMP 10;
     BM (CDSG R0 R1 vh vl Dst); BJ JL 2].
  Definition cmp_of (t : ity) (r : rmw) (vh vl : reg) : list binstr :=
    match r with
    | Max _ => if isigned t then cmp_block (CGRJ H) (CGRJ L) (CLGRJ H true) vh vl
               else cmp_block (CLGRJ H false) (CLGRJ L false) (CLGRJ H true) vh vl
    | _ => if isigned t then cmp_block (CGRJ L) (CGRJ H) (CLGRJ L true) vh vl
           else cmp_block (CLGRJ L false) (CLGRJ H false) (CLGRJ L true) vh vl
    end.
  (** 106-109 *)
  Definition extract_cc (r : Z) : bool := negb (Z.land ((r - 268435456) mod B64) (2 ^ 31) =? 0).

  (** r4:r5, on z/OS r12:r13 (201-205, 236-240, 466-470) *)
  Definition pair_hi : reg := if zos g then R12 else R4.
  Definition pair_lo : reg := if zos g then R13 else R5.

  Definition in_pair (hi lo : reg) (v : Z) (s : st) : st := set1 (set1 s hi (hi64 v)) lo (lo64 v).
  Definition prev (t : ity) (s : st) : Z := of_bits t (join64 (rg s R1) (rg s R0)).

  (** load 112-129, store 132-158, compare_exchange(_weak) 161-205, the rest 208-525 and macros.rs.
      The serialization instruction of a SeqCst store has no effect in this memory model; see C31. *)
  Definition store_block (ord : ordering) : list binstr :=
    BM (STPQ R0 R1 Dst) :: match ord with SeqCst => [BI BCR] | _ => [] end.
  Definition code_of (ty : Z -> ity) (junk : Z -> wop -> st) (a : Z) (o : wop)
    : option (bconf instr jump minstr st res) :=
    let t := ty a in let j := set1 (junk a o) Dst a in
    if negb ((ibits t =? 128) && callable t o && (0 <=? a) && (a <? 2 ^ 64)) then None else
    match o with
    | WOp (OLoad _) => Some (mk_bconf [BM (LPQ R0 R1 Dst)] 0 j (fun s => RVal (prev t s)))
    | WOp (OStore v ord) =>
        Some (mk_bconf (store_block ord) 0 (in_pair R0 R1 (to_bits t v) j) (fun _ => RUnit))
    | WOp (OCas c n _ _) | WCasWeak c n _ _ =>
        Some (mk_bconf [BM (CDSG R0 R1 pair_hi pair_lo Dst); BI (IPM (cc_reg g))] 0
                (in_pair pair_hi pair_lo (to_bits t n) (in_pair R0 R1 (to_bits t c) j))
                (fun s => if extract_cc (rg s (cc_reg g)) then ROk (prev t s) else RErr (prev t s)))
    | WOp (ORmw (Swap v) _) =>
        Some (mk_bconf (loop_block [] pair_hi pair_lo) 0 (in_pair pair_hi pair_lo (to_bits t v) j)
                (fun s => RVal (prev t s)))
    | WOp (ORmw r _) =>
        match body t r with
        | Some p =>
            Some (mk_bconf (loop_block p R12 R13) 0
                    (if two_arg r then set1 j Zero 0 else in_pair ValHi ValLo (operand t r) j)
                    (fun s => RVal (prev t s)))
        | None =>
            Some (mk_bconf (cmp_of t r pair_hi pair_lo) 0 (in_pair pair_hi pair_lo (operand t r) j)
                    (fun s => RVal (prev t s)))
        end
    end.
End Code.
