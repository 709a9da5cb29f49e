(** * powerpc64: operand declarations of the blocks of PowerModel.v, and the blocks on real registers *)
From Coq Require Import ZArith List Bool PeanoNat.
From Verif Require Import Words Spec WideSpec Halves LoopModel AsmModel BlockModel OrderingModel RegModel PowerModel.
Import ListNotations.
Open Scope Z_scope.

(** Power ISA 3.1: in [isel] the second operand, and in the displacement forms (lq, stq) the base register,
    mean zero when they are register 0; [lqarx]/[stqcx.] are written with a literal 0 there and the address in
    the other operand.  Quadword accesses need an even register for the pair; a load is invalid if the pair
    contains the address register. *)
Definition power_isa : isa instr jump minstr st res reg := {|
  reg_eq := reg_eqb;
  regs_of := rg;
  with_regs := fun f s => mk_st f (cr0 s) (cr1 s) (CA s) (SO0 s) (crest s);
  exec := exec1;
  taken := test;
  acc := access;
  writes_i := fun i => match i with
    | ADDC d _ _ | ADDE d _ _ | SUBC d _ _ | SUBFE d _ _ | SUBFIC d _ _ | SUBFZE d _
    | AND d _ _ | NAND d _ _ | OR d _ _ | XOR d _ _ | ORrc d _ _ | ISEL _ d _ _ | MFCR d => [d]
    | CMPLD _ _ | CMPD1 _ _ | CMPW _ _ | FENCE _ => []
    end;
  writes_m := fun m => match m with LQ h l _ | LQARX h l _ => [h; l] | STQ _ _ _ | STQCX _ _ _ => [] end;
  zero_i := fun i => match i with ISEL _ _ a _ => [a] | _ => [] end;
  zero_m := fun m => match m with LQ _ _ b | STQ _ _ b => [b] | LQARX _ _ _ | STQCX _ _ _ => [] end;
  forms := fun m => match m with
    | LQ h l b | LQARX h l b => [EvenPair h l; Differ h b; Differ l b]
    | STQ h l _ | STQCX h l _ => [EvenPair h l]
    end |}.

(** register classes: [reg] may be any general register, [reg_nonzero] any but r0 *)
Definition any_reg : place := Class (fun n => n <? 32)%nat.
Definition nonzero_reg : place := Class (fun n => (0 <? n) && (n <? 32))%nat.
Definition operands (g : target) (o : wop) : list (reg * operand) :=
  let dst := (Dst, mk_operand KIn nonzero_reg) in
  let in_at r n := (r, mk_operand KIn (At n)) in
  let out_at r n := (r, mk_operand KOut (At n)) in
  let in_reg r := (r, mk_operand KIn any_reg) in
  let out_reg r := (r, mk_operand KOut any_reg) in
  match o with
  | WOp (OLoad _) => [dst; out_at R4 4%nat; out_at R5 5%nat]                                     (* 262-267, 278-282 *)
  | WOp (OStore _ _) => [dst; in_at R4 4%nat; in_at R5 5%nat]                                    (* 368-372 *)
  | WOp (OCas _ _ _ _) | WCasWeak _ _ _ _ =>                                                   (* 511-521, 595-605 *)
      [dst; in_reg ValHi; in_reg ValLo; out_reg TmpHi; out_reg TmpLo;
       in_at R6 6%nat; in_at R7 7%nat; out_at R8 8%nat; out_at R9 9%nat]
  | WOp (ORmw (Swap _) _) => [dst; out_at R6 6%nat; out_at R7 7%nat; in_at R8 8%nat; in_at R9 9%nat]   (* 638-644 *)
  | WOp (ORmw Neg _) =>                                                                      (* 734-741, 838 *)
      [dst; out_at R6 6%nat; out_at R7 7%nat; out_at R8 8%nat; out_at R9 9%nat] ++
      (if old_llvm g then [in_reg Zero] else [])
  | WOp (ORmw _ _) =>                                                                        (* 685-694 *)
      [dst; in_reg ValHi; in_reg ValLo; out_at R6 6%nat; out_at R7 7%nat; out_at R8 8%nat; out_at R9 9%nat]
  end.

