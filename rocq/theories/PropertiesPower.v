(** * Properties C11 and C36 on powerpc64 *)
From Coq Require Import ZArith List Bool Lia.
From Verif Require Import Words Spec WideSpec WordsFacts Halves LoopModel AsmModel BlockModel OrderingModel PowerModel PowerProofs
  PowerBlocks PowerMain.
Import ListNotations.
Open Scope Z_scope.

(** ** C36: every loop body computes, in r8:r9, the specified new value from the previous value in
    r6:r7, whatever the other registers, the condition register and the carry hold. *)
Theorem C36_power_rmw_value : forall old_llvm t r p s x,
  ibits t = 128 -> rmw_typed t r -> in_range t x -> body old_llvm t r = Some p ->
  rg s R7 = lo64 (to_bits t x) -> rg s R6 = hi64 (to_bits t x) ->
  rg s ValLo = lo64 (val_of t r) -> rg s ValHi = hi64 (val_of t r) -> rg s Zero = 0 ->
  let s' := bexec exec1 p s in
  of_bits t (join64 (rg s' R9) (rg s' R8)) = spec_rmw t r x /\ rg s' R6 = rg s R6 /\ rg s' R7 = rg s R7.
Proof.
  intros ol t r p s x W T X P E1 E0 HL HH HZ. assert (WF : wf_ity t) by (unfold wf_ity; lia).
  destruct (body_correct ol t r p s x W T X P) as (J & K); [split; auto|auto|auto|].
  cbn zeta. rewrite J. split.
  - apply of_to_bits; auto. now apply AtomicImplsProofs.spec_rmw_range.
  - split; apply K; discriminate.
Qed.
(** compare_exchange reports success exactly when cr0 says "equal", whatever the rest of the
    condition register holds. *)
Theorem C36_power_test_cr0_eq : forall lt gt eq so rest,
  test_cr0_eq (Z.b2z lt * 2 ^ 31 + Z.b2z gt * 2 ^ 30 + Z.b2z eq * 2 ^ 29 + Z.b2z so * 2 ^ 28 + rest mod 2 ^ 28) = eq.
Proof. exact test_cr0_eq_mfcr. Qed.

(** ** C11 on powerpc64 *)
Theorem C11_power_atomic : forall g ty junk m ls s h,
  (forall a, 0 < ibits (ty a)) -> mem_ok ty m ->
  asm_run (bnext exec1 test access) (code_of g ty junk) (asm_init m) ls = Some (s, h) ->
  atomic_history ty m h (amem s).
Proof. intros g ty junk m ls s h WF. exact (p_atomic g ty junk m ls s h WF). Qed.
Theorem C11_power_never_stuck : forall g ty junk m ls s h t c, mem_ok ty m ->
  asm_run (bnext exec1 test access) (code_of g ty junk) (asm_init m) ls = Some (s, h) -> athr s t = Some c ->
  forall sp, exists s' e, asm_step (bnext exec1 test access) (code_of g ty junk) s (mk_label t None sp) = Some (s', e).
Proof. exact p_never_stuck. Qed.
(** every call that does not panic has a block: no ordering combination reaches unreachable!() *)
Theorem C11_power_total : forall g ty junk a o, ibits (ty a) = 128 -> callable (ty a) o = true ->
  0 <= a < 2 ^ 64 -> exists c, code_of g ty junk a o = Some c.
Proof.
  intros g ty junk a o W C A. unfold code_of. rewrite W, C, (proj2 (Z.leb_le 0 a)), (proj2 (Z.ltb_lt a _)) by lia.
  cbn [Z.eqb Pos.eqb andb negb].
  assert (CF : forall sc fl, match fl with Release | AcqRel => false | _ => true end = true -> cas_fences sc fl <> None).
  { intros sc fl. destruct sc, fl; cbn; discriminate. }
  destruct o as [[ord|v ord|r ord|cu nw sc fl]|cu nw sc fl]; eauto.
  - destruct r; cbn [body]; eauto.
  - apply andb_true_iff in C as [_ C]. specialize (CF sc fl C). destruct (cas_fences sc fl) as [[[? ?] ?]|]; [eauto|easy].
  - apply andb_true_iff in C as [_ C]. specialize (CF sc fl C). destruct (cas_fences sc fl) as [[[? ?] ?]|]; [eauto|easy].
Qed.

(** ** The hypotheses are met: thread 0 starts fetch_sub and takes a reservation, thread 1 completes a
    signed fetch_min in between, thread 0's store-conditional fails and it retries. *)
Definition junk0 : Z -> wop -> st := fun _ _ => mk_st (fun _ => 77) (mk_crf true true true) (mk_crf true true true) true true 12345.
Definition g0 := mk_target false true.
Definition m0 : Z -> Z := fun a => if a =? 16 then 2 ^ 64 else 0.
Definition call0 t o := mk_label t (Some (16, WOp o)) false.
Definition tick t : label wop := mk_label t None false.
Definition sched0 : list (label wop) :=
  [call0 0%nat (ORmw (Sub 1) SeqCst)] ++ repeat (tick 0%nat) 3 ++
  [call0 1%nat (ORmw (Min (-5)) AcqRel)] ++ repeat (tick 1%nat) 13 ++ repeat (tick 0%nat) 10.
Example power_run_example :
  match asm_run (bnext exec1 test access) (code_of g0 (fun _ => i128) junk0) (asm_init m0) sched0 with
  | Some (s, h) => of_bits i128 (amem s 16) = -6 /\
      h = [Call 0 16 (WOp (ORmw (Sub 1) SeqCst)); Call 1 16 (WOp (ORmw (Min (-5)) AcqRel));
           Return 1 (RVal (2 ^ 64)); Return 0 (RVal (-5))]
  | None => False
  end.
Proof. vm_compute. split; reflexivity. Qed.
Example power_body_example : exists p, body false u128 Neg = Some p /\
  let s' := bexec exec1 p (mk_st (fun r => match r with R7 => 1 | _ => 0 end) (mk_crf true true true) (mk_crf true true true) true true 0) in
  join64 (rg s' R9) (rg s' R8) = 2 ^ 128 - 1.
Proof. eexists. split; [reflexivity|]. vm_compute. reflexivity. Qed.

Print Assumptions C36_power_rmw_value.
Print Assumptions C36_power_test_cr0_eq.
Print Assumptions C11_power_atomic.
Print Assumptions C11_power_never_stuck.
Print Assumptions C11_power_total.
