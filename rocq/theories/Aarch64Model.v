(** * aarch64: the inline-assembly blocks of src/imp/atomic128/aarch64.rs

    Registers hold numbers in [0, 2^64).  Instruction semantics follow the Arm Architecture Reference
    Manual; they are not taken from the crate.  Barriers and acquire/release suffixes are kept in the
    blocks (without effect in this memory model) so that C31 can be stated about the same blocks.
    The [.inst] spellings of the same instructions for old assemblers are in EncodeModel.v. *)
From Coq Require Import ZArith List Bool.
From Verif Require Import Words Spec WideSpec Halves LoopModel AsmModel BlockModel OrderingModel.
Import ListNotations.
Open Scope Z_scope.

(** Named operands of the blocks; [Xzr] reads as zero. *)
Inductive reg := X2 | X3 | X4 | X5 | X6 | X7 | PrevLo | PrevHi | NewLo | NewHi | OldLo | OldHi
               | ValLo | ValHi | TmpLo | TmpHi | Rr | Dst | Xzr.
Definition reg_eqb (a b : reg) : bool :=
  match a, b with
  | X2, X2 | X3, X3 | X4, X4 | X5, X5 | X6, X6 | X7, X7 | PrevLo, PrevLo | PrevHi, PrevHi | NewLo, NewLo
  | NewHi, NewHi | OldLo, OldLo | OldHi, OldHi | ValLo, ValLo | ValHi, ValHi | TmpLo, TmpLo | TmpHi, TmpHi
  | Rr, Rr | Dst, Dst | Xzr, Xzr => true
  | _, _ => false
  end.
Record st := mk_st { rg : reg -> Z; fN : bool; fZ : bool; fC : bool; fV : bool }.
Definition setr (f : reg -> Z) (r : reg) (v : Z) : reg -> Z := fun q => if reg_eqb q r then v else f q.
Definition set1 (s : st) (r : reg) (v : Z) : st := mk_st (setr (rg s) r v) (fN s) (fZ s) (fC s) (fV s).
Definition rd (s : st) (r : reg) : Z := match r with Xzr => 0 | _ => rg s r end.

(** AddWithCarry: result, and the flags it defines *)
Definition awc_val (x y : Z) (c : bool) : Z := (x + y + Z.b2z c) mod B64.
Definition awc (s : st) (d : reg) (flags : bool) (x y : Z) (c : bool) : st :=
  let v := awc_val x y c in let f := setr (rg s) d v in
  if flags then mk_st f (2 ^ 63 <=? v) (v =? 0) (B64 <=? x + y + Z.b2z c)
                  (negb (s64 v =? s64 x + s64 y + Z.b2z c))
  else mk_st f (fN s) (fZ s) (fC s) (fV s).

Inductive cond := Eq | Lo | Hs | Lt | Ge.
Definition holds (c : cond) (s : st) : bool :=
  match c with
  | Eq => fZ s
  | Lo => negb (fC s)
  | Hs => fC s
  | Lt => negb (Bool.eqb (fN s) (fV s))
  | Ge => Bool.eqb (fN s) (fV s)
  end.
Inductive dmb := Ish | Ishld.
Inductive instr :=
| ADDS (d a b : reg) | ADC (d a b : reg) | SUBS (d a b : reg) | SBC (d a b : reg) | SBCS (d a b : reg)
| CMP (a b : reg) | CCMP0 (a b : reg) (c : cond)     (* ccmp a, b, #0, c *)
| NEGS (d a : reg) | NGC (d a : reg)
| AND (d a b : reg) | ORR (d a b : reg) | EOR (d a b : reg) | MVN (d a : reg) | MOV (d a : reg)
| CSEL (d a b : reg) (c : cond)
| DMB (f : dmb).
Definition exec1 (i : instr) (s : st) : st :=
  match i with
  | ADDS d a b => awc s d true (rd s a) (rd s b) false
  | ADC d a b => awc s d false (rd s a) (rd s b) (fC s)
  | SUBS d a b => awc s d true (rd s a) (not64 (rd s b)) true
  | SBC d a b => awc s d false (rd s a) (not64 (rd s b)) (fC s)
  | SBCS d a b => awc s d true (rd s a) (not64 (rd s b)) (fC s)
  | CMP a b => awc s Xzr true (rd s a) (not64 (rd s b)) true
  | CCMP0 a b c => if holds c s then awc s Xzr true (rd s a) (not64 (rd s b)) true
                   else mk_st (rg s) false false false false
  | NEGS d a => awc s d true 0 (not64 (rd s a)) true
  | NGC d a => awc s d false 0 (not64 (rd s a)) (fC s)
  | AND d a b => set1 s d (Z.land (rd s a) (rd s b))
  | ORR d a b => set1 s d (Z.lor (rd s a) (rd s b))
  | EOR d a b => set1 s d (Z.lxor (rd s a) (rd s b))
  | MVN d a => set1 s d (not64 (rd s a))
  | MOV d a => set1 s d (rd s a)
  | CSEL d a b c => set1 s d (if holds c s then rd s a else rd s b)
  | DMB _ => s
  end.
Inductive jump := CBNZ (r : reg)   (* cbnz {r:w} *) | BNE.
Definition test (j : jump) (s : st) : bool :=
  match j with CBNZ r => negb (rd s r mod 2 ^ 32 =? 0) | BNE => negb (fZ s) end.

(** What the CPU does.  [h_lse], [h_lse2], [h_lse128], [h_rcpc3]: the features it has.  Without FEAT_LSE2
    ldp is two separate 64-bit reads; [h_xp_single]: whether ldxp reads both halves at once;
    [h_up_first]: which of the two halves is read first when they are read separately. *)
Record hw := mk_hw { h_lse : bool; h_lse2 : bool; h_lse128 : bool; h_rcpc3 : bool; h_xp_single : bool; h_up_first : bool }.

(** A pair of registers names the two halves in address order (utils.rs:505-541 [Pair], [U128]):
    on big-endian the first register holds the most significant half. *)
Definition pair (be : bool) (lo hi : reg) (s : st) : Z :=
  if be then join64 (rd s hi) (rd s lo) else join64 (rd s lo) (rd s hi).
Definition addr_lo (be : bool) (v : Z) : Z := if be then hi64 v else lo64 v.
Definition addr_hi (be : bool) (v : Z) : Z := if be then lo64 v else hi64 v.
Definition put (be : bool) (lo hi : reg) (v : Z) (s : st) : st := set1 (set1 s lo (addr_lo be v)) hi (addr_hi be v).
(** piece number (from the least significant end) of the half at the lower / upper address *)
Definition piece (be upper : bool) : nat := if xorb be upper then 1%nat else 0%nat.

(** [acq], [rel]: the "a" / "l" suffixes. *)
Inductive minstr :=
| LDP (lo hi b : reg)                       (* ldp that is one single-copy atomic read *)
| LDP64 (upper : bool) (d b : reg)          (* one of the two reads of an ldp that is not *)
| LDIAPP (lo hi b : reg) | LDAR (d b : reg)
| STP (lo hi b : reg) | STILP (lo hi b : reg)
| LDXP (acq : bool) (lo hi b : reg)
| LDXP64 (acq first upper : bool) (d b : reg)
| STXP (rel : bool) (r lo hi b : reg)
| CASP (acq rel : bool) (slo shi tlo thi b : reg)
| SWPP (acq rel : bool) (lo hi b : reg)
| LDCLRP (acq rel : bool) (lo hi b : reg)
| LDSETP (acq rel : bool) (lo hi b : reg).
(** [AStuck]: the CPU does not have the instruction, or does not perform it as one access. *)
Definition access (be : bool) (h : hw) (i : minstr) (s : st) : action st res :=
  let rmw f lo hi b := AAtomic (rd s b) (fun _ x => (Some (f x), (x, true))) (fun xo => put be lo hi (fst xo) s) in
  match i with
  | LDP lo hi b => if h_lse2 h then ARead (rd s b) 128 0 (fun v => put be lo hi v s) else AStuck
  | LDP64 u d b => ARead (rd s b) 64 (piece be u) (fun v => set1 s d v)
  | LDIAPP lo hi b => if h_rcpc3 h && h_lse2 h then ARead (rd s b) 128 0 (fun v => put be lo hi v s) else AStuck
  | LDAR d b => ARead (rd s b) 64 (piece be false) (fun v => set1 s d v)
  | STP lo hi b => if h_lse2 h then AAtomic (rd s b) (fun _ _ => (Some (pair be lo hi s), (0, true))) (fun _ => s) else AStuck
  | STILP lo hi b => if h_rcpc3 h && h_lse2 h
                     then AAtomic (rd s b) (fun _ _ => (Some (pair be lo hi s), (0, true))) (fun _ => s) else AStuck
  | LDXP _ lo hi b => if h_xp_single h then ALoadLinked true (rd s b) 128 0 (fun v => put be lo hi v s) else AStuck
  | LDXP64 _ f u d b => ALoadLinked f (rd s b) 64 (piece be u) (fun v => set1 s d v)
  | STXP _ r lo hi b => AStoreCond (rd s b) (pair be lo hi s) (fun ok => set1 s r (if ok then 0 else 1))
  | CASP _ _ slo shi tlo thi b =>
      if h_lse h then
        AAtomic (rd s b)
          (fun _ x => (if x =? pair be slo shi s then Some (pair be tlo thi s) else None, (x, true)))
          (fun xo => put be slo shi (fst xo) s)
      else AStuck
  | SWPP _ _ lo hi b => if h_lse128 h then rmw (fun _ => pair be lo hi s) lo hi b else AStuck
  | LDCLRP _ _ lo hi b => if h_lse128 h then rmw (fun x => Z.land x (2 ^ 128 - 1 - pair be lo hi s)) lo hi b else AStuck
  | LDSETP _ _ lo hi b => if h_lse128 h then rmw (fun x => Z.lor x (pair be lo hi s)) lo hi b else AStuck
  end.

Local Notation binstr := (binstr instr jump minstr).
Local Notation BIm := (map (@BI instr jump minstr)).
(** ldp and ld{a}xp as the accesses the CPU performs *)
Definition ldp (h : hw) (lo hi : reg) : list binstr :=
  if h_lse2 h then [BM (LDP lo hi Dst)]
  else if h_up_first h then [BM (LDP64 true hi Dst); BM (LDP64 false lo Dst)]
  else [BM (LDP64 false lo Dst); BM (LDP64 true hi Dst)].
Definition ldxp (h : hw) (acq : bool) (lo hi : reg) : list binstr :=
  if h_xp_single h then [BM (LDXP acq lo hi Dst)]
  else if h_up_first h then [BM (LDXP64 acq true true hi Dst); BM (LDXP64 acq false false lo Dst)]
  else [BM (LDXP64 acq true false lo Dst); BM (LDXP64 acq false true hi Dst)].

(** ** Compile-time configuration and the outcome of run-time detection.
    [c_*]: the feature is enabled at compile time ([target_feature]); [det_lse], [det_lse2]: the platform is in
    the list at 518-543 (without fuchsia) / 1271-1295 and outline-atomics are not disabled;
    [d_*]: what [detect::detect()] answers. *)
Record target := mk_target {
  be : bool; msvc : bool; ll_sc_rmw : bool;
  c_lse : bool; c_lse2 : bool; c_lse128 : bool; c_rcpc3 : bool;
  det_lse : bool; det_lse2 : bool;
  d_lse : bool; d_lse2 : bool; d_lse128 : bool; d_rcpc3 : bool }.

Section Code.
  Variables (g : target) (h : hw) (t : ity).
  Local Notation conf := (bconf instr jump minstr st res).
  Local Notation start P s rt := (Some (mk_bconf (P : list binstr) 0 (s : st) (rt : st -> res))).
  Definition ret (lo hi : reg) (s : st) : res := RVal (of_bits t (pair (be g) lo hi s)).

  (** 430-452 [atomic_rmw!]: ($acquire, $release, $msvc_fence) *)
  Definition rmw_sfx (order write : ordering) : bool * bool * list instr :=
    match order with
    | Relaxed => (false, false, [])
    | Acquire => (true, false, [])
    | Release => (false, true, [])
    | AcqRel => (true, true, [])
    | SeqCst => (true, true, if msvc g && match write with SeqCst => true | _ => false end then [DMB Ish] else [])
    end.

  (** *** load *)
  (** 721-788 [_atomic_load_ldiapp] *)
  Definition load_ldiapp (ord : ordering) (s : st) : option conf :=
    match ord with
    | Acquire => start [BM (LDIAPP PrevLo PrevHi Dst)] s (ret PrevLo PrevHi)
    | SeqCst => start [BM (LDAR TmpLo Dst); BM (LDIAPP PrevLo PrevHi Dst)] s (ret PrevLo PrevHi)
    | _ => None
    end.
  (** 654-712 [_atomic_load_ldp] *)
  Definition load_ldp (ord : ordering) (s : st) : option conf :=
    match ord with
    | Relaxed => start (ldp h PrevLo PrevHi) s (ret PrevLo PrevHi)
    | Acquire => if c_rcpc3 g then load_ldiapp ord s
                 else start (ldp h PrevLo PrevHi ++ [BI (DMB Ishld)]) s (ret PrevLo PrevHi)
    | SeqCst => if c_rcpc3 g then load_ldiapp ord s
                else start ([BM (LDAR TmpLo Dst)] ++ ldp h PrevLo PrevHi ++ [BI (DMB Ishld)]) s (ret PrevLo PrevHi)
    | _ => None
    end.
  (** 814-820, 855-861: suffixes of the two loads below *)
  Definition load_sfx (ord : ordering) : option (bool * bool) :=
    match ord with
    | Relaxed => Some (false, false)
    | Acquire => Some (true, false)
    | SeqCst => Some (true, true)
    | _ => None
    end.
  (** 794-824 [_atomic_load_casp] *)
  Definition load_casp (ord : ordering) (s : st) : option conf :=
    match load_sfx ord with
    | Some (acq, rel) => start [BM (CASP acq rel X2 X3 X2 X3 Dst)] (set1 (set1 s X2 0) X3 0) (ret X2 X3)
    | None => None
    end.
  (** 833-865 [_atomic_load_ldxp_stxp] *)
  Definition load_ldxp_stxp (ord : ordering) (s : st) : option conf :=
    match load_sfx ord with
    | Some (acq, rel) =>
      start (ldxp h acq PrevLo PrevHi ++ [BM (STXP rel Rr PrevLo PrevHi Dst); BJ (CBNZ Rr) 0]) s (ret PrevLo PrevHi)
    | None => None
    end.
  (** 632-644 *)
  Definition load_no_lse2 (ord : ordering) (s : st) : option conf :=
    if c_lse g then load_casp ord s else load_ldxp_stxp ord s.
  (** 510-630 *)
  Definition atomic_load (ord : ordering) (s : st) : option conf :=
    if c_lse2 g then load_ldp ord s
    else if det_lse2 g then
      match ord with
      | Relaxed => if d_lse2 g then load_ldp Relaxed s else load_no_lse2 Relaxed s
      | Acquire => if d_lse2 g then (if negb (c_rcpc3 g) && d_rcpc3 g then load_ldiapp Acquire s else load_ldp Acquire s)
                   else load_no_lse2 Acquire s
      | SeqCst => if d_lse2 g then (if negb (c_rcpc3 g) && d_rcpc3 g then load_ldiapp SeqCst s else load_ldp SeqCst s)
                  else load_no_lse2 SeqCst s
      | _ => None
      end
    else load_no_lse2 ord s.

  (** *** swap (also used by store); [rt]: [ret] of the previous value, or ignored *)
  Section Swap.
    Variables (v : Z) (unit_ret : bool).
    Local Notation fin lo hi := (if unit_ret then fun _ => RUnit else ret lo hi).
    (** 1604-1650 [_atomic_swap_swpp] *)
    Definition swap_swpp (ord : ordering) (s : st) : option conf :=
      let '(acq, rel, _) := rmw_sfx ord ord in
      start [BM (SWPP acq rel ValLo ValHi Dst)] (put (be g) ValLo ValHi v s) (fin ValLo ValHi).
    (** 1655-1698 [_atomic_swap_casp] *)
    Definition swap_casp (ord : ordering) (s : st) : option conf :=
      let '(acq, rel, _) := rmw_sfx ord ord in
      start (ldp h X4 X5 ++ BIm [MOV TmpLo X4; MOV TmpHi X5] ++ [BM (CASP acq rel X4 X5 X2 X3 Dst)] ++
             BIm [CMP TmpHi X5; CCMP0 TmpLo X4 Eq] ++ [BJ BNE (length (ldp h X4 X5))])
        (put (be g) X2 X3 v s) (fin X4 X5).
    (** 1708-1736 [_atomic_swap_ldxp_stxp] *)
    Definition swap_ldxp_stxp (ord : ordering) (s : st) : option conf :=
      let '(acq, rel, fence) := rmw_sfx ord ord in
      start (ldxp h acq PrevLo PrevHi ++ [BM (STXP rel Rr ValLo ValHi Dst); BJ (CBNZ Rr) 0] ++ BIm fence)
        (put (be g) ValLo ValHi v s) (fin PrevLo PrevHi).
  End Swap.
  (** 1578-1594 *)
  Definition atomic_swap (v : Z) (ord : ordering) (s : st) : option conf :=
    if c_lse128 g then swap_swpp v false ord s
    else if c_lse g && negb (ll_sc_rmw g) then swap_casp v false ord s
    else swap_ldxp_stxp v false ord s.

  (** *** store *)
  (** 1159-1206 [_atomic_store_stilp] *)
  Definition store_stilp (v : Z) (ord : ordering) (s : st) : option conf :=
    match ord with
    | Release => start [BM (STILP ValLo ValHi Dst)] (put (be g) ValLo ValHi v s) (fun _ => RUnit)
    | SeqCst => start [BM (STILP ValLo ValHi Dst); BI (DMB Ish)] (put (be g) ValLo ValHi v s) (fun _ => RUnit)
    | _ => None
    end.
  (** 1084-1145 [_atomic_store_stp] *)
  Definition store_stp (v : Z) (ord : ordering) (s : st) : option conf :=
    let stp acq rel := start (BIm rel ++ [BM (STP ValLo ValHi Dst)] ++ BIm acq) (put (be g) ValLo ValHi v s) (fun _ => RUnit) in
    match ord with
    | Relaxed => stp [] []
    | Release => if c_rcpc3 g then store_stilp v Release s
                 else if c_lse128 g then swap_swpp v true Release s else stp [] [DMB Ish]
    | SeqCst => if c_lse128 g then swap_swpp v true SeqCst s
                else if c_rcpc3 g then store_stilp v SeqCst s else stp [DMB Ish] [DMB Ish]
    | _ => None
    end.
  (** 1218-1240 [_atomic_store_ldxp_stxp] *)
  Definition store_ldxp_stxp (v : Z) (ord : ordering) (s : st) : option conf :=
    let '(acq, rel, fence) := rmw_sfx ord ord in
    start (ldxp h acq Xzr TmpLo ++ [BM (STXP rel TmpLo ValLo ValHi Dst); BJ (CBNZ TmpLo) 0] ++ BIm fence)
      (put (be g) ValLo ValHi v s) (fun _ => RUnit).
  (** 1051-1074 *)
  Definition store_no_lse2 (v : Z) (ord : ordering) (s : st) : option conf :=
    if c_lse g && negb (ll_sc_rmw g) then swap_casp v true ord s else store_ldxp_stxp v ord s.
  (** 897-1049 *)
  Definition atomic_store (v : Z) (ord : ordering) (s : st) : option conf :=
    if c_lse2 g then store_stp v ord s
    else if det_lse2 g then
      match ord with
      | Relaxed => if d_lse2 g then store_stp v Relaxed s else store_no_lse2 v Relaxed s
      | Release =>
        if d_lse2 g then
          if negb (c_rcpc3 g) && d_rcpc3 g then store_stilp v Release s
          else if negb (c_rcpc3 g) && negb (c_lse128 g) && d_lse128 g then swap_swpp v true Release s
          else store_stp v Release s
        else store_no_lse2 v Release s
      | SeqCst =>
        if d_lse2 g then
          if negb (c_lse128 g) && d_lse128 g then swap_swpp v true SeqCst s
          else if negb (c_lse128 g) && negb (c_rcpc3 g) && d_rcpc3 g then store_stilp v SeqCst s
          else store_stp v SeqCst s
        else store_no_lse2 v SeqCst s
      | _ => None
      end
    else store_no_lse2 v ord s.

  (** *** compare_exchange.  1439: [if prev == old { Ok(prev) } else { Err(prev) }] *)
  Definition cas_ret (old : Z) (lo hi : reg) (s : st) : res :=
    let p := pair (be g) lo hi s in if p =? old then ROk (of_bits t p) else RErr (of_bits t p).
  (** 1447-1485 [_atomic_compare_exchange_casp] *)
  Definition cas_casp (old new : Z) (success failure : ordering) (s : st) : option conf :=
    let '(acq, rel, _) := rmw_sfx (upgrade_success_ordering success failure) success in
    start [BM (CASP acq rel X6 X7 X4 X5 Dst)] (put (be g) X4 X5 new (put (be g) X6 X7 old s)) (cas_ret old X6 X7).
  (** 1489-1547 [_atomic_compare_exchange_ldxp_stxp] *)
  Definition cas_body : list instr :=
    [CMP PrevLo OldLo; CCMP0 PrevHi OldHi Eq; CSEL TmpLo NewLo PrevLo Eq; CSEL TmpHi NewHi PrevHi Eq].
  Definition cas_ldxp_stxp (old new : Z) (success failure : ordering) (s : st) : option conf :=
    let '(acq, rel, fence) := rmw_sfx (upgrade_success_ordering success failure) success in
    start (ldxp h acq PrevLo PrevHi ++ BIm cas_body ++ [BM (STXP rel Rr TmpLo TmpHi Dst); BJ (CBNZ Rr) 0] ++ BIm fence)
      (put (be g) NewLo NewHi new (put (be g) OldLo OldHi old s)) (cas_ret old PrevLo PrevHi).
  (** 1257-1440 [atomic_compare_exchange]; 1553 [atomic_compare_exchange_weak] is the same function *)
  Definition atomic_compare_exchange (old new : Z) (success failure : ordering) (s : st) : option conf :=
    if c_lse g then cas_casp old new success failure s
    else if det_lse g then
      match upgrade_success_ordering success failure with
      | Relaxed => if d_lse g then cas_casp old new Relaxed Relaxed s else cas_ldxp_stxp old new Relaxed Relaxed s
      | Acquire => if d_lse g then cas_casp old new Acquire Acquire s else cas_ldxp_stxp old new Acquire Acquire s
      | Release => if d_lse g then cas_casp old new Release Relaxed s else cas_ldxp_stxp old new Release Relaxed s
      | AcqRel => if d_lse g then cas_casp old new AcqRel Acquire s else cas_ldxp_stxp old new AcqRel Acquire s
      | SeqCst => if d_lse g then cas_casp old new AcqRel Acquire s
                  else if msvc g then cas_ldxp_stxp old new SeqCst SeqCst s else cas_ldxp_stxp old new AcqRel Acquire s
      end
    else cas_ldxp_stxp old new success failure s.

  (** *** the other read-modify-writes *)
  (** select_le_or_be! (417-428) *)
  Definition le_or_be (a b : instr) : instr := if be g then b else a.
  (** bodies of the exclusive-pair loops: add 1981, sub 1993, and 2005, nand 2065, or 2081, xor 2141,
      not 2152, neg 2164, max 2176, umax 2192, min 2208, umin 2224 *)
  Definition maxmin_ll (c : cond) : list instr :=
    [le_or_be (CMP ValLo PrevLo) (CMP ValHi PrevHi); le_or_be (SBCS Xzr ValHi PrevHi) (SBCS Xzr ValLo PrevLo);
     CSEL NewHi PrevHi ValHi c; CSEL NewLo PrevLo ValLo c].
  Definition body_ll (r : rmw) : option (list instr) :=
    match r with
    | Swap _ => None
    | Add _ => Some [le_or_be (ADDS NewLo PrevLo ValLo) (ADDS NewHi PrevHi ValHi);
                     le_or_be (ADC NewHi PrevHi ValHi) (ADC NewLo PrevLo ValLo)]
    | Sub _ => Some [le_or_be (SUBS NewLo PrevLo ValLo) (SUBS NewHi PrevHi ValHi);
                     le_or_be (SBC NewHi PrevHi ValHi) (SBC NewLo PrevLo ValLo)]
    | And _ => Some [AND NewLo PrevLo ValLo; AND NewHi PrevHi ValHi]
    | Nand _ => Some [AND NewLo PrevLo ValLo; AND NewHi PrevHi ValHi; MVN NewLo NewLo; MVN NewHi NewHi]
    | Or _ => Some [ORR NewLo PrevLo ValLo; ORR NewHi PrevHi ValHi]
    | Xor _ => Some [EOR NewLo PrevLo ValLo; EOR NewHi PrevHi ValHi]
    | Not => Some [MVN NewLo PrevLo; MVN NewHi PrevHi]
    | Neg => Some [le_or_be (NEGS NewLo PrevLo) (NEGS NewHi PrevHi); le_or_be (NGC NewHi PrevHi) (NGC NewLo PrevLo)]
    | Max _ => Some (maxmin_ll (if isigned t then Lt else Lo))
    | Min _ => Some (maxmin_ll (if isigned t then Ge else Hs))
    end.
  (** bodies of the compare-and-swap-pair loops, right after the ones above in the source *)
  Definition maxmin_cas (c : cond) : list instr :=
    [le_or_be (CMP ValLo X6) (CMP ValHi X7); le_or_be (SBCS Xzr ValHi X7) (SBCS Xzr ValLo X6);
     CSEL X5 X7 ValHi c; CSEL X4 X6 ValLo c].
  Definition body_cas (r : rmw) : option (list instr) :=
    match r with
    | Swap _ => None
    | Add _ => Some [le_or_be (ADDS X4 X6 ValLo) (ADDS X5 X7 ValHi); le_or_be (ADC X5 X7 ValHi) (ADC X4 X6 ValLo)]
    | Sub _ => Some [le_or_be (SUBS X4 X6 ValLo) (SUBS X5 X7 ValHi); le_or_be (SBC X5 X7 ValHi) (SBC X4 X6 ValLo)]
    | And _ => Some [AND X4 X6 ValLo; AND X5 X7 ValHi]
    | Nand _ => Some [AND X4 X6 ValLo; AND X5 X7 ValHi; MVN X4 X4; MVN X5 X5]
    | Or _ => Some [ORR X4 X6 ValLo; ORR X5 X7 ValHi]
    | Xor _ => Some [EOR X4 X6 ValLo; EOR X5 X7 ValHi]
    | Not => Some [MVN X4 X6; MVN X5 X7]
    | Neg => Some [le_or_be (NEGS X4 X6) (NEGS X5 X7); le_or_be (NGC X5 X7) (NGC X4 X6)]
    | Max _ => Some (maxmin_cas (if isigned t then Lt else Lo))
    | Min _ => Some (maxmin_cas (if isigned t then Ge else Hs))
    end.
  (** 1745-1794 [atomic_rmw_ll_sc_3!], 1869-1914 [atomic_rmw_ll_sc_2!] (no operand: [ValLo], [ValHi] unused) *)
  Definition rmw_ll_sc (r : rmw) (p : list instr) (ord : ordering) (s : st) : option conf :=
    let '(acq, rel, fence) := rmw_sfx ord ord in
    start (ldxp h acq PrevLo PrevHi ++ BIm p ++ [BM (STXP rel Rr NewLo NewHi Dst); BJ (CBNZ Rr) 0] ++ BIm fence)
      (put (be g) ValLo ValHi (operand t r) s) (ret PrevLo PrevHi).
  (** 1802-1861 [atomic_rmw_cas_3!], 1922-1977 [atomic_rmw_cas_2!] *)
  Definition rmw_casp (r : rmw) (p : list instr) (ord : ordering) (s : st) : option conf :=
    let '(acq, rel, _) := rmw_sfx ord ord in
    start (ldp h X6 X7 ++ BIm ([MOV TmpLo X6; MOV TmpHi X7] ++ p) ++ [BM (CASP acq rel X6 X7 X4 X5 Dst)] ++
           BIm [CMP TmpHi X7; CCMP0 TmpLo X6 Eq] ++ [BJ BNE (length (ldp h X6 X7))])
      (put (be g) ValLo ValHi (operand t r) s) (ret X6 X7).
  (** 2018-2063: [!val] is cleared *)
  Definition and_ldclrp (v : Z) (ord : ordering) (s : st) : option conf :=
    let '(acq, rel, _) := rmw_sfx ord ord in
    start [BM (LDCLRP acq rel ValLo ValHi Dst)] (put (be g) ValLo ValHi (2 ^ 128 - 1 - v) s) (ret ValLo ValHi).
  (** 2094-2139 *)
  Definition or_ldsetp (v : Z) (ord : ordering) (s : st) : option conf :=
    let '(acq, rel, _) := rmw_sfx ord ord in
    start [BM (LDSETP acq rel ValLo ValHi Dst)] (put (be g) ValLo ValHi v s) (ret ValLo ValHi).
  (** 1749-1753, 1806-1810: [$reexport_name]; 2004-2017, 2080-2093 for and, or *)
  Definition rmw_loop (r : rmw) (ord : ordering) (s : st) : option conf :=
    if c_lse g && negb (ll_sc_rmw g)
    then match body_cas r with Some p => rmw_casp r p ord s | None => None end
    else match body_ll r with Some p => rmw_ll_sc r p ord s | None => None end.
  Definition atomic_rmw (r : rmw) (ord : ordering) (s : st) : option conf :=
    match r with
    | Swap v => atomic_swap (to_bits t v) ord s
    | And v => if c_lse128 g then and_ldclrp (to_bits t v) ord s else rmw_loop r ord s
    | Or v => if c_lse128 g then or_ldsetp (to_bits t v) ord s else rmw_loop r ord s
    | _ => rmw_loop r ord s
    end.
End Code.

(** The function serving an operation on the 128-bit atomic at address [a] (utils.rs macro [atomic128!]:
    aarch64.rs:2245-2246 select max/min by signedness). *)
Definition code_of (g : target) (h : hw) (ty : Z -> ity) (junk : Z -> wop -> st) (a : Z) (o : wop)
  : option (bconf instr jump minstr st res) :=
  let t := ty a in let s := set1 (junk a o) Dst a in
  if negb ((ibits t =? 128) && callable t o && (0 <=? a) && (a <? 2 ^ 64)) then None else
  match o with
  | WOp (OLoad ord) => atomic_load g h t ord s
  | WOp (OStore v ord) => atomic_store g h t (to_bits t v) ord s
  | WOp (ORmw r ord) => atomic_rmw g h t r ord s
  | WOp (OCas c n sc fl) | WCasWeak c n sc fl => atomic_compare_exchange g h t (to_bits t c) (to_bits t n) sc fl s
  end.

(** The CPU has what was enabled at compile time and what detection reported.  FEAT_LSE2 etc. do not
    imply FEAT_LSE here: no block relies on that. *)
Definition sound (g : target) (h : hw) : Prop :=
  (c_lse g = true -> h_lse h = true) /\ (c_lse2 g = true -> h_lse2 h = true) /\
  (c_lse128 g = true -> h_lse128 h = true) /\ (c_rcpc3 g = true -> h_rcpc3 h = true) /\
  (d_lse g = true -> h_lse h = true) /\ (d_lse2 g = true -> h_lse2 h = true) /\
  (d_lse128 g = true -> h_lse128 h = true) /\ (d_rcpc3 g = true -> h_rcpc3 h = true).
