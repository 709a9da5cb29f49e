(** * s390x: operand declarations of the blocks of S390xModel.v, and the blocks on real registers *)
From Coq Require Import ZArith List Bool PeanoNat.
From Verif Require Import Words Spec WideSpec Halves LoopModel AsmModel BlockModel RegModel S390xModel.
Import ListNotations.
Open Scope Z_scope.

(** Principles of Operation: a base register field of 0 means no base (address 0); the quadword instructions
    need an even register for each pair. *)
Definition s390x_isa (pm : Z) : isa instr jump minstr st res reg := {|
  reg_eq := reg_eqb;
  regs_of := rg;
  with_regs := fun f s => mk_st f (CC s);
  exec := exec1 pm;
  taken := test;
  acc := access;
  writes_i := fun i => match i with
    | LGR d _ | LGHI d _ | OP _ d _ | OPK _ d _ _ | NNGRK d _ _ | ALCGR d _ | SLBGR d _ | LCGR d _ | AGHI d _
    | LOCGR _ d _ | SELGR _ d _ _ | IPM d => [d]
    | CLGR _ _ | CGR _ _ | BCR => []
    end;
  writes_m := fun m => match m with
    | LG d _ _ => [d] | CDSG oh ol _ _ _ => [oh; ol] | LPQ h l _ => [h; l] | STPQ _ _ _ => [] end;
  zero_i := fun _ => [];
  zero_m := fun m => match m with LG _ _ b | CDSG _ _ _ _ b | LPQ _ _ b | STPQ _ _ b => [b] end;
  forms := fun m => match m with
    | LG _ _ _ => []
    | CDSG oh ol nh nl _ => [EvenPair oh ol; EvenPair nh nl]
    | LPQ h l _ | STPQ h l _ => [EvenPair h l]
    end |}.

(** register class [reg]: any general register (rustc excludes some) *)
Definition any_reg : place := Class (fun n => n <? 16)%nat.
(** [Tmp] is also the [lateout] of compare_exchange ([cc_reg] of the target). *)
Definition operands (g : target) (t : ity) (o : wop) : list (reg * operand) :=
  let dst := (Dst, mk_operand KIn any_reg) in
  let in_at r n := (r, mk_operand KIn (At n)) in
  let out_at r n := (r, mk_operand KOut (At n)) in
  let in_reg r := (r, mk_operand KIn any_reg) in
  let out_reg r := (r, mk_operand KOut any_reg) in
  let prev := [out_at R0 0%nat; out_at R1 1%nat] in
  let in_pair := if zos g then [in_at R12 12%nat; in_at R13 13%nat] else [in_at R4 4%nat; in_at R5 5%nat] in
  let new := [out_at R12 12%nat; out_at R13 13%nat] in
  match o with
  | WOp (OLoad _) => dst :: prev                                                              (* 121-124 *)
  | WOp (OStore _ _) => [dst; in_at R0 0%nat; in_at R1 1%nat]                                 (* 143-146 *)
  | WOp (OCas _ _ _ _) | WCasWeak _ _ _ _ =>                                                  (* 182-188 *)
      [dst; (Tmp, mk_operand KLateOut any_reg); (R0, mk_operand KInOut (At 0)); (R1, mk_operand KInOut (At 1))] ++ in_pair
  | WOp (ORmw (Swap _) _) => dst :: prev ++ in_pair                                           (* 226-231 *)
  | WOp (ORmw Not _) => dst :: prev ++ new                                                    (* 311-317 *)
  | WOp (ORmw Neg _) => dst :: (if dops g then [in_reg Zero] else []) ++ prev ++ new          (* 311-317, 515 *)
  | WOp (ORmw (Max _ | Min _) _) =>
      if lsoc g
      then dst :: [in_reg ValHi; in_reg ValLo] ++                                             (* 271-279, 396, 415 *)
           (if isigned t then [] else [out_reg Tmp]) ++ prev ++ new
      else dst :: prev ++ in_pair                                                             (* 456-462 *)
  | WOp (ORmw _ _) => dst :: [in_reg ValHi; in_reg ValLo] ++ prev ++ new                      (* 271-279 *)
  end.
