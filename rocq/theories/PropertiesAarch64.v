(** * Properties C11, C13, C35 on aarch64, and C37 on aarch64, powerpc64 and s390x *)
From Coq Require Import ZArith List Bool Lia.
From Verif Require Import Words Spec WideSpec WordsFacts Halves LoopModel AsmModel BlockModel BlockClobber OrderingModel.
From Verif Require PowerModel PowerClobber S390xModel S390xClobber.
From Verif Require Import Aarch64Model Aarch64Proofs Aarch64Impl Aarch64Main Aarch64Clobber.
Import ListNotations.
Open Scope Z_scope.

(** ** C35: the bodies of the two kinds of loops, on both endiannesses.
    The least significant half of a value is in the register for the lower address on little-endian
    targets and in the other one on big-endian targets. *)
Definition holds_value (big : bool) (s : st) (first second : reg) (v : Z) : Prop :=
  if big then rg s first = hi64 v /\ rg s second = lo64 v else rg s first = lo64 v /\ rg s second = hi64 v.
Definition value_in (big : bool) (s : st) (first second : reg) : Z :=
  if big then join64 (rg s second) (rg s first) else join64 (rg s first) (rg s second).

Theorem C35_aarch64_exclusive_value : forall g t r p s x,
  ibits t = 128 -> rmw_typed t r -> in_range t x -> body_ll g t r = Some p ->
  holds_value (be g) s PrevLo PrevHi (to_bits t x) -> holds_value (be g) s ValLo ValHi (operand t r) ->
  let s' := bexec exec1 p s in
  of_bits t (value_in (be g) s' NewLo NewHi) = spec_rmw t r x /\
  holds_value (be g) s' PrevLo PrevHi (to_bits t x) /\ holds_value (be g) s' ValLo ValHi (operand t r) /\
  rg s' Dst = rg s Dst.
Proof.
  intros g t r p s x W T X P HP HV. assert (WF : wf_ity t) by (unfold wf_ity; lia).
  assert (A : rg s PrevLo = addr_lo (be g) (to_bits t x) /\ rg s PrevHi = addr_hi (be g) (to_bits t x))
    by (unfold holds_value, addr_lo, addr_hi in *; destruct (be g); exact HP).
  assert (B : rg s ValLo = addr_lo (be g) (operand t r) /\ rg s ValHi = addr_hi (be g) (operand t r))
    by (unfold holds_value, addr_lo, addr_hi in *; destruct (be g); exact HV).
  destruct A as [A1 A2], B as [B1 B2].
  destruct (body_ll_correct g t W r p s x T X P B1 B2 A1 A2) as [J K]. cbn zeta.
  refine (conj _ (conj _ (conj _ _))).
  - change (value_in (be g) (bexec exec1 p s) NewLo NewHi) with (pair (be g) NewLo NewHi (bexec exec1 p s)).
    rewrite J. apply of_to_bits; auto. now apply AtomicImplsProofs.spec_rmw_range.
  - unfold holds_value. rewrite !K by discriminate. exact HP.
  - unfold holds_value. rewrite !K by discriminate. exact HV.
  - apply K; discriminate.
Qed.
Theorem C35_aarch64_casp_value : forall g t r p s x,
  ibits t = 128 -> rmw_typed t r -> in_range t x -> body_cas g t r = Some p ->
  holds_value (be g) s X6 X7 (to_bits t x) -> holds_value (be g) s ValLo ValHi (operand t r) ->
  let s' := bexec exec1 p s in
  of_bits t (value_in (be g) s' X4 X5) = spec_rmw t r x /\
  holds_value (be g) s' X6 X7 (to_bits t x) /\ holds_value (be g) s' ValLo ValHi (operand t r) /\
  rg s' TmpLo = rg s TmpLo /\ rg s' TmpHi = rg s TmpHi /\ rg s' Dst = rg s Dst.
Proof.
  intros g t r p s x W T X P HP HV. assert (WF : wf_ity t) by (unfold wf_ity; lia).
  assert (A : rg s X6 = addr_lo (be g) (to_bits t x) /\ rg s X7 = addr_hi (be g) (to_bits t x))
    by (unfold holds_value, addr_lo, addr_hi in *; destruct (be g); exact HP).
  assert (B : rg s ValLo = addr_lo (be g) (operand t r) /\ rg s ValHi = addr_hi (be g) (operand t r))
    by (unfold holds_value, addr_lo, addr_hi in *; destruct (be g); exact HV).
  destruct A as [A1 A2], B as [B1 B2].
  destruct (body_cas_correct g t W r p s x T X P B1 B2 A1 A2) as [J K]. cbn zeta.
  refine (conj _ (conj _ (conj _ (conj _ (conj _ _))))).
  - change (value_in (be g) (bexec exec1 p s) X4 X5) with (pair (be g) X4 X5 (bexec exec1 p s)).
    rewrite J. apply of_to_bits; auto. now apply AtomicImplsProofs.spec_rmw_range.
  - unfold holds_value. rewrite !K by discriminate. exact HP.
  - unfold holds_value. rewrite !K by discriminate. exact HV.
  - apply K; discriminate.
  - apply K; discriminate.
  - apply K; discriminate.
Qed.
(** every operation but swap has both bodies *)
Theorem C35_aarch64_all_bodies : forall g t r, (forall v, r <> Swap v) ->
  (exists p, body_ll g t r = Some p) /\ (exists p, body_cas g t r = Some p).
Proof. intros g t r H. destruct r; [now destruct (H v)|..]; split; eexists; reflexivity. Qed.

(** ** C11: any number of threads executing the blocks instruction by instruction, on any CPU that has
    the enabled and detected features, with pair loads torn where the CPU may tear them, in either order. *)
Theorem C11_aarch64_atomic : forall g h ty junk m ls s hs,
  sound g h -> (forall a, 0 < ibits (ty a)) -> mem_ok ty m ->
  asm_run (bnext exec1 test (access (be g) h)) (code_of g h ty junk) (asm_init m) ls = Some (s, hs) ->
  atomic_history ty m hs (amem s).
Proof. intros g h ty junk m ls s hs SO WF. now apply v_atomic. Qed.
(** no thread ever executes an instruction the CPU does not have, or leaves its block *)
Theorem C11_aarch64_never_stuck : forall g h ty junk m ls s hs t c, sound g h -> mem_ok ty m ->
  asm_run (bnext exec1 test (access (be g) h)) (code_of g h ty junk) (asm_init m) ls = Some (s, hs) -> athr s t = Some c ->
  forall sp, exists s' e,
    asm_step (bnext exec1 test (access (be g) h)) (code_of g h ty junk) s (mk_label t None sp) = Some (s', e).
Proof. intros g h ty junk m ls s hs t c SO. now apply v_never_stuck. Qed.
(** every call that does not panic has a block: no ordering combination reaches unreachable!() *)
Theorem C11_aarch64_total : forall g h ty junk a o, sound g h -> ibits (ty a) = 128 -> callable (ty a) o = true ->
  0 <= a < 2 ^ 64 -> exists c, code_of g h ty junk a o = Some c.
Proof.
  intros g h ty junk a o SO W C A. apply v_total; [exact SO|]. unfold v_impl.
  rewrite W, C, (proj2 (Z.leb_le 0 a)), (proj2 (Z.ltb_lt a _)) by lia. cbn [Z.eqb Pos.eqb andb negb].
  destruct o as [[ord|v ord|r ord|cu nw sc fl]|cu nw sc fl]; discriminate.
Qed.

(** ** C13 *)
Theorem C13_aarch64_lock_free : forall g h ty junk T m ls s hs,
  sound g h -> NoDup T -> (forall a, 0 < ibits (ty a)) -> mem_ok ty m ->
  asm_run (bnext exec1 test (access (be g) h)) (code_of g h ty junk) (asm_init m) ls = Some (s, hs) ->
  exists n, forall ts s' h', Forall (fun t => In t T) ts -> (n <= length ts)%nat ->
    asm_run (bnext exec1 test (access (be g) h)) (code_of g h ty junk) s
      (map (fun t => mk_label t None false) ts) = Some (s', h') -> h' <> [].
Proof. intros g h ty junk T m ls s hs SO NT WF. now apply v_lock_free. Qed.
Theorem C13_aarch64_solo : forall g h ty junk m ls s hs t c,
  sound g h -> (forall a, 0 < ibits (ty a)) -> mem_ok ty m ->
  asm_run (bnext exec1 test (access (be g) h)) (code_of g h ty junk) (asm_init m) ls = Some (s, hs) -> athr s t = Some c ->
  exists j s' r, asm_run (bnext exec1 test (access (be g) h)) (code_of g h ty junk) s
    (repeat (mk_label t None false) j) = Some (s', [Return t r]).
Proof. intros g h ty junk m ls s hs t c SO WF. now apply v_solo. Qed.

(** ** C37.  [keeps outs fl s s']: registers outside [outs] are unchanged, and with [fl] the flags too.
    The lists are the [out]/[inout]/[lateout] operands of the [asm!] of each function, [fl] is
    [preserves_flags]: aarch64.rs 670-672, 696-699, 739-741, 764-767, 809-811, 848-851, 1103, 1180, 1192,
    1235, 1474-1479, 1535-1541, 1623-1625, 1682-1691, 1726-1729, 1780-1785, 1843-1852, 1901-1906,
    1960-1969, 2036-2038, 2112-2114. *)
Theorem C37_aarch64_registers : forall g h t s ord k,
  (load_ldiapp g t ord s = Some k -> respects (be g) h [PrevLo; PrevHi; TmpLo] true k) /\
  (load_ldp g h t ord s = Some k -> respects (be g) h [PrevLo; PrevHi; TmpLo] true k) /\
  (load_casp g t ord s = Some k -> respects (be g) h [X2; X3] true k) /\
  (load_ldxp_stxp g h t ord s = Some k -> respects (be g) h [PrevLo; PrevHi; Rr] true k) /\
  (forall v, store_stilp g v ord s = Some k -> respects (be g) h [] true k) /\
  (forall v, store_stp g t v ord s = Some k -> respects (be g) h [ValLo; ValHi] true k) /\
  (forall v, store_ldxp_stxp g h v ord s = Some k -> respects (be g) h [TmpLo] true k) /\
  (forall v u, swap_swpp g t v u ord s = Some k -> respects (be g) h [ValLo; ValHi] true k) /\
  (forall v u, swap_casp g h t v u ord s = Some k -> respects (be g) h [TmpLo; TmpHi; X4; X5] false k) /\
  (forall v u, swap_ldxp_stxp g h t v u ord s = Some k -> respects (be g) h [PrevLo; PrevHi; Rr] true k) /\
  (forall old new fl, cas_casp g t old new ord fl s = Some k -> respects (be g) h [X6; X7] true k) /\
  (forall old new fl, cas_ldxp_stxp g h t old new ord fl s = Some k ->
     respects (be g) h [PrevLo; PrevHi; Rr; TmpLo; TmpHi] false k) /\
  (forall r p, body_ll g t r = Some p -> rmw_ll_sc g h t r p ord s = Some k ->
     respects (be g) h [PrevLo; PrevHi; NewLo; NewHi; Rr]
       (match r with And _ | Nand _ | Or _ | Xor _ | Not => true | _ => false end) k) /\
  (forall r p, body_cas g t r = Some p -> rmw_casp g h t r p ord s = Some k ->
     respects (be g) h [TmpLo; TmpHi; X6; X7; X4; X5] false k) /\
  (forall v, and_ldclrp g t v ord s = Some k -> respects (be g) h [ValLo; ValHi] true k) /\
  (forall v, or_ldsetp g t v ord s = Some k -> respects (be g) h [ValLo; ValHi] true k).
Proof.
  intros g h t s ord k. repeat match goal with |- _ /\ _ => split end; intros.
  - eapply ldiapp_rsp; eauto.
  - eapply ldp_rsp; eauto.
  - eapply lcasp_rsp; eauto.
  - eapply lldxp_rsp; eauto.
  - eapply stilp_rsp; eauto.
  - eapply stp_rsp; eauto.
  - eapply store_ll_rsp; eauto.
  - eapply swpp_rsp; eauto.
  - eapply swap_casp_rsp; eauto.
  - eapply swap_ll_rsp; eauto.
  - eapply cas_casp_rsp; eauto.
  - eapply cas_ll_rsp; eauto.
  - eapply rmw_ll_rsp; eauto.
  - eapply rmw_casp_rsp; eauto.
  - eapply ldclrp_rsp; eauto.
  - eapply ldsetp_rsp; eauto.
Qed.
(** [declared]: the operands and [out("cr0")], [out("cr1")], [out("xer")] of each block; the rest of the
    condition register and the summary-overflow bit never change. *)
Theorem C37_power_registers : forall g ty junk a o c c', PowerModel.code_of g ty junk a o = Some c ->
  steps (bnext PowerModel.exec1 PowerModel.test PowerModel.access) c c' ->
  let w := PowerClobber.declared g (ty a) o in let s := bst c in let s' := bst c' in
  (forall r, ~ In r (PowerClobber.w_regs w) -> PowerModel.rg s' r = PowerModel.rg s r) /\
  PowerModel.SO0 s' = PowerModel.SO0 s /\ PowerModel.crest s' = PowerModel.crest s /\
  (PowerClobber.w_cr0 w = false -> PowerModel.cr0 s' = PowerModel.cr0 s) /\
  (PowerClobber.w_cr1 w = false -> PowerModel.cr1 s' = PowerModel.cr1 s) /\
  (PowerClobber.w_xer w = false -> PowerModel.CA s' = PowerModel.CA s).
Proof. exact PowerClobber.power_declared. Qed.
Theorem C37_s390x_registers : forall g pm ty junk a o c c', S390xModel.code_of g ty junk a o = Some c ->
  steps (bnext (S390xModel.exec1 pm) S390xModel.test S390xModel.access) c c' ->
  (forall r, ~ In r (fst (S390xClobber.declared g (ty a) o)) -> S390xModel.rg (bst c') r = S390xModel.rg (bst c) r) /\
  (snd (S390xClobber.declared g (ty a) o) = true -> S390xModel.CC (bst c') = S390xModel.CC (bst c)).
Proof. exact S390xClobber.s390x_declared. Qed.

(** ** The hypotheses are met.  Big-endian, no FEAT_LSE2, compare-and-swap-pair loop: thread 0 reads one
    half, thread 1 completes a fetch_add that changes both halves, thread 0 reads the other half (torn),
    fails and retries. *)
Definition junk0 : Z -> wop -> st := fun _ _ => mk_st (fun _ => 77) true false true false.
Definition g_casp := mk_target true false false true false false false true true true false false false.
Definition h_casp := mk_hw true false false false false true.
Definition g_ll := mk_target false true false false false false false false false false false false false.
Definition h_ll := mk_hw false false false false false false.
Example aarch64_sound_example : sound g_casp h_casp /\ sound g_ll h_ll.
Proof. unfold sound; cbn; tauto. Qed.
Definition m0 : Z -> Z := fun a => if a =? 16 then 2 ^ 64 - 1 else 0.
Definition call0 t o := mk_label t (Some (16, WOp o)) false.
Definition tick t : label wop := mk_label t None false.
Definition sched0 : list (label wop) :=
  [call0 0%nat (ORmw (Max 5) SeqCst)] ++ repeat (tick 0%nat) 1 ++
  [call0 1%nat (ORmw (Add 1) AcqRel)] ++ repeat (tick 1%nat) 11 ++ repeat (tick 0%nat) 22.
Example aarch64_casp_example :
  match asm_run (bnext exec1 test (access true h_casp)) (code_of g_casp h_casp (fun _ => i128) junk0) (asm_init m0) sched0 with
  | Some (s, h) => amem s 16 = 2 ^ 64 /\
      h = [Call 0 16 (WOp (ORmw (Max 5) SeqCst)); Call 1 16 (WOp (ORmw (Add 1) AcqRel));
           Return 1 (RVal (2 ^ 64 - 1)); Return 0 (RVal (2 ^ 64))]
  | None => False
  end.
Proof. vm_compute. split; reflexivity. Qed.
(** Little-endian exclusive-pair loop with the MSVC fence: thread 0's store-exclusive fails once. *)
Definition sched1 : list (label wop) :=
  [call0 0%nat (ORmw (Sub 1) SeqCst)] ++ repeat (tick 0%nat) 2 ++
  [call0 1%nat (OCas (2 ^ 64 - 1) (-7) SeqCst SeqCst)] ++ repeat (tick 1%nat) 10 ++ repeat (tick 0%nat) 12.
Example aarch64_ll_example :
  match asm_run (bnext exec1 test (access false h_ll)) (code_of g_ll h_ll (fun _ => i128) junk0) (asm_init m0) sched1 with
  | Some (s, h) => of_bits i128 (amem s 16) = -8 /\
      h = [Call 0 16 (WOp (ORmw (Sub 1) SeqCst)); Call 1 16 (WOp (OCas (2 ^ 64 - 1) (-7) SeqCst SeqCst));
           Return 1 (ROk (2 ^ 64 - 1)); Return 0 (RVal (-7))]
  | None => False
  end.
Proof. vm_compute. split; reflexivity. Qed.
Example aarch64_body_example : exists p, body_ll g_casp u128 (Add 1) = Some p /\
  value_in true (bexec exec1 p (mk_st (fun r => match r with PrevHi => 2 ^ 64 - 1 | PrevLo => 3 | ValHi => 1 | _ => 0 end) true true true true))
    NewLo NewHi = 4 * 2 ^ 64.
Proof. eexists. split; [reflexivity|]. vm_compute. reflexivity. Qed.
(** a step of a block exists, and changes a declared register *)
Example aarch64_steps_example : exists k k', load_ldp g_casp h_casp u128 Relaxed (set1 (junk0 0 (WOp (OLoad Relaxed))) Dst 16) = Some k /\
  steps (bnext exec1 test (access true h_casp)) k k' /\ rg (bst k') PrevHi <> rg (bst k) PrevHi.
Proof.
  eexists. eexists. split; [reflexivity|]. split.
  - eapply ss_step; [apply ss_refl|]. eapply (s1_read _ _ _ _ _ _ 5). reflexivity.
  - vm_compute. discriminate.
Qed.

Print Assumptions C35_aarch64_exclusive_value.
Print Assumptions C35_aarch64_casp_value.
Print Assumptions C35_aarch64_all_bodies.
Print Assumptions C11_aarch64_atomic.
Print Assumptions C11_aarch64_never_stuck.
Print Assumptions C11_aarch64_total.
Print Assumptions C13_aarch64_lock_free.
Print Assumptions C13_aarch64_solo.
Print Assumptions C37_aarch64_registers.
Print Assumptions C37_power_registers.
Print Assumptions C37_s390x_registers.
