(** * aarch64: operand declarations of the blocks of Aarch64Model.v, and the blocks on real registers *)
From Coq Require Import ZArith List Bool PeanoNat.
From Verif Require Import Words Spec WideSpec Halves LoopModel AsmModel BlockModel OrderingModel RegModel Aarch64Model.
Import ListNotations.
Open Scope Z_scope.

(** xzr is not a register: writes to it are dropped *)
Definition regs (l : list reg) : list reg := filter (fun r => negb (reg_eqb r Xzr)) l.
Definition differ (a b : reg) : list (form reg) :=
  match a, b with
  | Xzr, Xzr => [Differ a b]
  | Xzr, _ | _, Xzr => []
  | _, _ => [Differ a b]
  end.
(** Arm ARM: a pair load whose two registers are the same is constrained unpredictable, and so is an exclusive
    store whose status register is one of the others; casp needs even registers; for the 128-bit atomics
    (swpp ...) the two registers must differ. *)
Definition aarch64_isa (big : bool) (h : hw) : isa instr jump minstr st res reg := {|
  reg_eq := reg_eqb;
  regs_of := rg;
  with_regs := fun f s => mk_st f (fN s) (fZ s) (fC s) (fV s);
  exec := exec1;
  taken := test;
  acc := access big h;
  writes_i := fun i => match i with
    | ADDS d _ _ | ADC d _ _ | SUBS d _ _ | SBC d _ _ | SBCS d _ _ | NEGS d _ | NGC d _
    | AND d _ _ | ORR d _ _ | EOR d _ _ | MVN d _ | MOV d _ | CSEL d _ _ _ => regs [d]
    | CMP _ _ | CCMP0 _ _ _ | DMB _ => []
    end;
  writes_m := fun m => match m with
    | LDP lo hi _ | LDIAPP lo hi _ | LDXP _ lo hi _ | SWPP _ _ lo hi _ | LDCLRP _ _ lo hi _ | LDSETP _ _ lo hi _ => regs [lo; hi]
    | LDP64 _ d _ | LDAR d _ | LDXP64 _ _ _ d _ => regs [d]
    | STP _ _ _ | STILP _ _ _ => []
    | STXP _ r _ _ _ => regs [r]
    | CASP _ _ slo shi _ _ _ => regs [slo; shi]
    end;
  zero_i := fun _ => [];
  zero_m := fun _ => [];
  forms := fun m => match m with
    | LDP lo hi _ | LDIAPP lo hi _ | LDXP _ lo hi _ | SWPP _ _ lo hi _ | LDCLRP _ _ lo hi _ | LDSETP _ _ lo hi _ => differ lo hi
    | LDP64 _ _ _ | LDAR _ _ | LDXP64 _ _ _ _ _ | STP _ _ _ | STILP _ _ _ => []
    | STXP _ r lo hi b => differ r lo ++ differ r hi ++ differ r b
    | CASP _ _ slo shi tlo thi _ => [EvenPair slo shi; EvenPair tlo thi]
    end |}.

(** ** The [asm!] operands of each function.  [old]: [portable_atomic_pre_llvm_16], where some blocks are
    written with [.inst] and explicit registers. *)
Inductive block :=
| B_load_ldiapp (sc : bool) | B_load_ldp (sc : bool) | B_load_casp | B_load_ldxp_stxp
| B_store_stp | B_store_stilp | B_store_ldxp_stxp
| B_swap_swpp | B_swap_casp | B_swap_ldxp_stxp
| B_cas_casp | B_cas_ldxp_stxp
| B_rmw_ll_3 | B_rmw_ll_2 | B_rmw_cas_3 | B_rmw_cas_2 | B_ldclrp | B_ldsetp.
Definition any_reg : place := Class (fun n => n <? 31)%nat.
Definition operands (old : bool) (b : block) : list (reg * operand) :=
  let dst := (Dst, mk_operand KIn any_reg) in
  let x0 := (Dst, mk_operand KIn (At 0)) in
  let in_reg r := (r, mk_operand KIn any_reg) in
  let out_reg r := (r, mk_operand KOut any_reg) in
  let late_reg r := (r, mk_operand KLateOut any_reg) in
  let io_reg r := (r, mk_operand KInOut any_reg) in
  let in_at r n := (r, mk_operand KIn (At n)) in
  let out_at r n := (r, mk_operand KOut (At n)) in
  let late_at r n := (r, mk_operand KLateOut (At n)) in
  let io_at r n := (r, mk_operand KInOut (At n)) in
  match b with
  | B_load_ldiapp sc =>
      (if old then [x0; late_at PrevHi 1%nat; late_at PrevLo 0%nat]                          (* 749-751, 779-781 *)
       else [dst; late_reg PrevHi; late_reg PrevLo]) ++                                      (* 738-740, 763-765 *)
      (if sc then [out_reg TmpLo] else [])                                                   (* 766, 778 *)
  | B_load_ldp sc => [dst; late_reg PrevHi; late_reg PrevLo] ++                              (* 669-671, 695-697 *)
      (if sc then [out_reg TmpLo] else [])                                                   (* 698 *)
  | B_load_casp => [dst; io_at X2 2%nat; io_at X3 3%nat]                                     (* 807-810 *)
  | B_load_ldxp_stxp => [dst; out_reg PrevLo; out_reg PrevHi; out_reg Rr]                    (* 847-850 *)
  | B_store_stp => [dst; in_reg ValLo; in_reg ValHi]                                         (* 1100-1102 *)
  | B_store_stilp => if old then [x0; in_at ValLo 2%nat; in_at ValHi 3%nat]                  (* 1189-1191 *)
      else [dst; in_reg ValLo; in_reg ValHi]                                                 (* 1177-1179 *)
  | B_store_ldxp_stxp => [dst; in_reg ValLo; in_reg ValHi; out_reg TmpLo]                    (* 1232-1235 *)
  | B_swap_swpp | B_ldsetp => if old then [x0; io_at ValLo 2%nat; io_at ValHi 1%nat]         (* 1639-1641, 2128-2130 *)
      else [dst; io_reg ValLo; io_reg ValHi]                                                 (* 1622-1624, 2111-2113 *)
  | B_ldclrp => if old then [x0; io_at ValLo 8%nat; io_at ValHi 1%nat]                       (* 2052-2054 *)
      else [dst; io_reg ValLo; io_reg ValHi]                                                 (* 2035-2037 *)
  | B_swap_casp => [dst; out_reg TmpLo; out_reg TmpHi; out_at X4 4%nat; out_at X5 5%nat;     (* 1681-1689 *)
                    in_at X2 2%nat; in_at X3 3%nat]
  | B_swap_ldxp_stxp => [dst; in_reg ValLo; in_reg ValHi; out_reg PrevLo; out_reg PrevHi; out_reg Rr] (* 1723-1728 *)
  | B_cas_casp => [dst; io_at X6 6%nat; io_at X7 7%nat; in_at X4 4%nat; in_at X5 5%nat]      (* 1472-1478 *)
  | B_cas_ldxp_stxp => [dst; in_reg OldLo; in_reg OldHi; in_reg NewLo; in_reg NewHi;         (* 1530-1539 *)
                        out_reg PrevLo; out_reg PrevHi; out_reg Rr; out_reg TmpLo; out_reg TmpHi]
  | B_rmw_ll_3 => [dst; in_reg ValLo; in_reg ValHi; out_reg PrevLo; out_reg PrevHi;          (* 1777-1784 *)
                   out_reg NewLo; out_reg NewHi; out_reg Rr]
  | B_rmw_ll_2 => [dst; out_reg PrevLo; out_reg PrevHi; out_reg NewLo; out_reg NewHi; out_reg Rr]     (* 1900-1905 *)
  | B_rmw_cas_3 => [dst; in_reg ValLo; in_reg ValHi; out_reg TmpLo; out_reg TmpHi;           (* 1840-1850 *)
                    out_at X6 6%nat; out_at X7 7%nat; out_at X4 4%nat; out_at X5 5%nat]
  | B_rmw_cas_2 => [dst; out_reg TmpLo; out_reg TmpHi;                                       (* 1959-1968 *)
                    out_at X6 6%nat; out_at X7 7%nat; out_at X4 4%nat; out_at X5 5%nat]
  end.

(** ** Which block serves an operation: the dispatch of [code_of] (lines as there). *)
Section Which.
  Variable g : target.
  Definition is_sc (ord : ordering) : bool := match ord with SeqCst => true | _ => false end.
  Definition which_ldp (ord : ordering) : block :=
    match ord with Relaxed => B_load_ldp false | _ => if c_rcpc3 g then B_load_ldiapp (is_sc ord) else B_load_ldp (is_sc ord) end.
  Definition which_no_lse2 : block := if c_lse g then B_load_casp else B_load_ldxp_stxp.
  Definition which_load (ord : ordering) : block :=
    if c_lse2 g then which_ldp ord
    else if det_lse2 g && d_lse2 g then
      match ord with
      | Relaxed => which_ldp Relaxed
      | _ => if negb (c_rcpc3 g) && d_rcpc3 g then B_load_ldiapp (is_sc ord) else which_ldp ord
      end
    else which_no_lse2.
  Definition which_stp (ord : ordering) : block :=
    match ord with
    | Relaxed => B_store_stp
    | SeqCst => if c_lse128 g then B_swap_swpp else if c_rcpc3 g then B_store_stilp else B_store_stp
    | _ => if c_rcpc3 g then B_store_stilp else if c_lse128 g then B_swap_swpp else B_store_stp
    end.
  Definition which_store (ord : ordering) : block :=
    if c_lse2 g then which_stp ord
    else if det_lse2 g && d_lse2 g then
      match ord with
      | Relaxed => which_stp Relaxed
      | SeqCst => if negb (c_lse128 g) && d_lse128 g then B_swap_swpp
                  else if negb (c_lse128 g) && negb (c_rcpc3 g) && d_rcpc3 g then B_store_stilp else which_stp SeqCst
      | _ => if negb (c_rcpc3 g) && d_rcpc3 g then B_store_stilp
             else if negb (c_rcpc3 g) && negb (c_lse128 g) && d_lse128 g then B_swap_swpp else which_stp ord
      end
    else if c_lse g && negb (ll_sc_rmw g) then B_swap_casp else B_store_ldxp_stxp.
  Definition which_rmw (r : rmw) : block :=
    let cas := c_lse g && negb (ll_sc_rmw g) in
    match r with
    | Swap _ => if c_lse128 g then B_swap_swpp else if cas then B_swap_casp else B_swap_ldxp_stxp
    | And _ => if c_lse128 g then B_ldclrp else if cas then B_rmw_cas_3 else B_rmw_ll_3
    | Or _ => if c_lse128 g then B_ldsetp else if cas then B_rmw_cas_3 else B_rmw_ll_3
    | Not | Neg => if cas then B_rmw_cas_2 else B_rmw_ll_2
    | _ => if cas then B_rmw_cas_3 else B_rmw_ll_3
    end.
  Definition which (o : wop) : block :=
    match o with
    | WOp (OLoad ord) => which_load ord
    | WOp (OStore _ ord) => which_store ord
    | WOp (ORmw r _) => which_rmw r
    | WOp (OCas _ _ _ _) | WCasWeak _ _ _ _ =>
        if c_lse g || det_lse g && d_lse g then B_cas_casp else B_cas_ldxp_stxp
    end.
End Which.
