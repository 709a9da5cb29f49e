(** * Properties C11 and C16 on s390x *)
From Coq Require Import ZArith List Bool Lia.
From Verif Require Import Words Spec WideSpec WordsFacts Halves LoopModel AsmModel BlockModel S390xModel S390xProofs S390xBlocks
  S390xMain.
Import ListNotations.
Open Scope Z_scope.

(** ** C16: every loop body, for every combination of CPU features, computes the specified new
    value in r12:r13 from the previous value in r0:r1, whatever the other registers and the
    condition code hold. *)
Theorem C16_s390x_rmw_value : forall g pm t r p s x,
  ibits t = 128 -> rmw_typed t r -> in_range t x -> body g t r = Some p ->
  rg s R1 = lo64 (to_bits t x) -> rg s R0 = hi64 (to_bits t x) ->
  (two_arg r = false -> rg s ValLo = lo64 (operand t r) /\ rg s ValHi = hi64 (operand t r)) ->
  (two_arg r = true -> rg s Zero = 0) ->
  let s' := bexec (exec1 pm) p s in
  of_bits t (join64 (rg s' R13) (rg s' R12)) = spec_rmw t r x /\
  rg s' R0 = rg s R0 /\ rg s' R1 = rg s R1.
Proof.
  intros g pm t r p s x W T X P E1 E0 HV HZ. assert (WF : wf_ity t) by (unfold wf_ity; lia).
  destruct (body_correct g pm t r p s x W T X P) as (J & K). { split; auto. }
  cbn zeta. rewrite J. split.
  - apply of_to_bits; auto. now apply AtomicImplsProofs.spec_rmw_range.
  - split; apply K; discriminate.
Qed.
(** compare_exchange reports success exactly when the instruction set condition code 0, whatever
    the register held before and whatever the program mask is. *)
Theorem C16_s390x_extract_cc : forall pm r cc, 0 <= pm < 16 -> cc = 0 \/ cc = 1 ->
  extract_cc (r / 2 ^ 32 * 2 ^ 32 + cc * 2 ^ 28 + pm * 2 ^ 24 + r mod 2 ^ 24) = (cc =? 0).
Proof. intros. now apply ipm_cc. Qed.

(** ** C11 on s390x: any number of threads executing the blocks instruction by instruction on any
    CPU level: every history is one of atomic variables. *)
Theorem C11_s390x_atomic : forall g pm ty junk m ls s h,
  0 <= pm < 16 -> cc_reg g <> R0 /\ cc_reg g <> R1 ->
  (forall a, 0 < ibits (ty a)) -> mem_ok ty m ->
  asm_run (bnext (exec1 pm) test access) (code_of g ty junk) (asm_init m) ls = Some (s, h) ->
  atomic_history ty m h (amem s).
Proof. intros g pm ty junk m ls s h P G WF. exact (z_atomic g pm ty junk m ls s h P G WF). Qed.
Theorem C11_s390x_never_stuck : forall g pm ty junk m ls s h t c,
  0 <= pm < 16 -> cc_reg g <> R0 /\ cc_reg g <> R1 -> mem_ok ty m ->
  asm_run (bnext (exec1 pm) test access) (code_of g ty junk) (asm_init m) ls = Some (s, h) -> athr s t = Some c ->
  forall sp, exists s' e, asm_step (bnext (exec1 pm) test access) (code_of g ty junk) s (mk_label t None sp) = Some (s', e).
Proof. exact z_never_stuck. Qed.
Theorem C11_s390x_total : forall g ty junk a o, ibits (ty a) = 128 -> callable (ty a) o = true ->
  0 <= a < 2 ^ 64 -> exists c, code_of g ty junk a o = Some c.
Proof.
  intros g ty junk a o W C A. unfold code_of. rewrite W, C, (proj2 (Z.leb_le 0 a)), (proj2 (Z.ltb_lt a _)) by lia.
  cbn [Z.eqb Pos.eqb andb negb].
  destruct o as [[ord|v ord|r ord|cu nw sc fl]|cu nw sc fl]; eauto. destruct r; cbn [body]; eauto; destruct (lsoc g); eauto.
Qed.

(** ** The hypotheses are met: thread 0 starts fetch_add, thread 1 completes fetch_max on the
    branching (old CPU) path, thread 0 fails once and retries. *)
Definition junk0 : Z -> wop -> st := fun _ _ => mk_st (fun _ => 77) 3.
Definition g0 := mk_target false false false false Dst.
Definition m0 : Z -> Z := fun a => if a =? 16 then 2 ^ 64 - 1 else 0.
Definition call0 t o := mk_label t (Some (16, WOp o)) false.
Definition tick t : label wop := mk_label t None false.
Definition sched0 : list (label wop) :=
  [call0 0%nat (ORmw (Add 1) SeqCst)] ++ repeat (tick 0%nat) 3 ++
  [call0 1%nat (ORmw (Max (2 ^ 100)) SeqCst)] ++ repeat (tick 1%nat) 6 ++ repeat (tick 0%nat) 12.
Example s390x_run_example :
  match asm_run (bnext (exec1 5) test access) (code_of g0 (fun _ => u128) junk0) (asm_init m0) sched0 with
  | Some (s, h) => amem s 16 = 2 ^ 100 + 1 /\
      h = [Call 0 16 (WOp (ORmw (Add 1) SeqCst)); Call 1 16 (WOp (ORmw (Max (2 ^ 100)) SeqCst));
           Return 1 (RVal (2 ^ 64 - 1)); Return 0 (RVal (2 ^ 100))]
  | None => False
  end.
Proof. vm_compute. split; reflexivity. Qed.
Example s390x_body_example : exists p, body (mk_target true true true false Dst) i128 (Max (-5)) = Some p /\
  let s' := bexec (exec1 0) p (mk_st (fun r => match r with ValLo => 2 ^ 64 - 5 | ValHi => 2 ^ 64 - 1 | R1 => 3 | _ => 0 end) 2) in
  join64 (rg s' R13) (rg s' R12) = 3.
Proof. eexists. split; [reflexivity|]. vm_compute. reflexivity. Qed.

Print Assumptions C16_s390x_rmw_value.
Print Assumptions C16_s390x_extract_cc.
Print Assumptions C11_s390x_atomic.
Print Assumptions C11_s390x_never_stuck.
Print Assumptions C11_s390x_total.
