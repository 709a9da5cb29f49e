(** * Properties C11, C15, C37 on x86_64 *)
From Coq Require Import ZArith List Bool Lia.
From Verif Require Import Words Spec WideSpec WordsFacts Halves LoopModel AsmModel X86Model X86Proofs X86Blocks
  X86Clobber X86Main.
Import ListNotations.
Open Scope Z_scope.

(** ** C15: the loop bodies compute the right 128-bit value for every operand, every previous
    value, and every initial content of the other registers and flags. *)
Theorem C15_x86_rmw_value : forall t r p s x,
  ibits t = 128 -> rmw_typed t r -> in_range t x -> body t r = Some p ->
  rg s rax = lo64 (to_bits t x) -> rg s rdx = hi64 (to_bits t x) ->
  (two_arg r = false -> rg s r8 = lo64 (operand t r) /\ rg s r9 = hi64 (operand t r)) ->
  of_bits t (join64 (rg (exec p s) rbx) (rg (exec p s) rcx)) = spec_rmw t r x.
Proof.
  intros t r p s x W T X P A D O. assert (WF : wf_ity t) by (unfold wf_ity; lia).
  destruct (body_correct t r p s x W T X P (conj O (conj A D))) as (N & _).
  unfold new_value in N. rewrite N. apply of_to_bits; auto. now apply AtomicImplsProofs.spec_rmw_range.
Qed.

(** ** C11 on x86_64: any number of threads executing the inline-assembly blocks instruction by
    instruction, on any target variant, with any junk in registers: every history is one of
    atomic variables, and memory ends up holding the abstract values. *)
Theorem C11_x86_atomic : forall g ty junk m ls s h, (forall a, 0 < ibits (ty a)) -> mem_ok ty m ->
  asm_run next (code_of g ty junk) (asm_init m) ls = Some (s, h) ->
  atomic_history ty m h (amem s).
Proof. exact x86_atomic. Qed.

(** A thread inside a block is never stuck (so the theorem above is not about dead ends). *)
Theorem C11_x86_never_stuck : forall g ty junk m ls s h t c, mem_ok ty m ->
  asm_run next (code_of g ty junk) (asm_init m) ls = Some (s, h) -> athr s t = Some c ->
  forall sp, exists s' e, asm_step next (code_of g ty junk) s (mk_label t None sp) = Some (s', e).
Proof. exact x86_never_stuck. Qed.
(** Every call that type-checks and does not panic is served. *)
Theorem C11_x86_total : forall g ty junk a o, ibits (ty a) = 128 -> callable (ty a) o = true ->
  0 <= a < (if x32 g then 2 ^ 32 else 2 ^ 64) -> exists c, code_of g ty junk a o = Some c.
Proof.
  intros g ty junk a o W C A. unfold code_of. rewrite W, C, (proj2 (Z.leb_le 0 a)), (proj2 (Z.ltb_lt a _)) by lia.
  cbn [Z.eqb Pos.eqb andb negb].
  destruct o as [[ord|v ord|r ord|cu nw sc fl]|cu nw sc fl]; eauto. destruct r; cbn [body]; eauto.
Qed.

(** ** C37: when a block ends, every register that is not declared as an output of the [asm!]
    holds what it held when the block was entered - in particular rbx, which the compiler reserves -
    whatever memory answered in between. *)
Theorem C37_x86_registers : forall g ty junk a o c c' rr r,
  code_of g ty junk a o = Some c -> moves_star c c' -> next c' = ADone rr ->
  ~ In r (outputs g o) -> rg (stt c') r = rg (stt c) r.
Proof. exact x86_outputs. Qed.

(** ** The hypotheses are met: two concrete threads. *)
Definition junk0 : Z -> wop -> st := fun _ _ => mk_st (fun _ => 77) true false true false.
Definition g0 := mk_target false false false.
Definition m0 : Z -> Z := fun a => if a =? 16 then 2 ^ 64 - 1 else 0.
Definition call0 t o := mk_label t (Some (16, WOp o)) false.
Definition tick t : label wop := mk_label t None false.
(** thread 0 reads both halves, thread 1 runs fetch_sub(1) to completion, thread 0 fails once, retries. *)
Definition sched0 : list (label wop) :=
  [call0 0%nat (ORmw (Add 1) SeqCst)] ++ repeat (tick 0%nat) 3 ++
  [call0 1%nat (ORmw (Max (2 ^ 100)) SeqCst)] ++ repeat (tick 1%nat) 14 ++ repeat (tick 0%nat) 14.
Example x86_run_example :
  match asm_run next (code_of g0 (fun _ => u128) junk0) (asm_init m0) sched0 with
  | Some (s, h) => amem s 16 = 2 ^ 100 + 1 /\
      h = [Call 0 16 (WOp (ORmw (Add 1) SeqCst)); Call 1 16 (WOp (ORmw (Max (2 ^ 100)) SeqCst));
           Return 1 (RVal (2 ^ 64 - 1)); Return 0 (RVal (2 ^ 100))]
  | None => False
  end.
Proof. vm_compute. split; reflexivity. Qed.
(** carries, sign and minimum on literals *)
Example x86_body_example :
  new_value (exec (pick L) (mk_st (fun r => match r with r8 => 2 ^ 64 - 5 | r9 => 2 ^ 64 - 1 | rax => 3 | _ => 0 end) true true true true)) = 3
  /\ spec_rmw i128 (Max (-5)) 3 = 3.
Proof. vm_compute. split; reflexivity. Qed.

Print Assumptions C15_x86_rmw_value.
Print Assumptions C11_x86_atomic.
Print Assumptions C11_x86_never_stuck.
Print Assumptions C11_x86_total.
Print Assumptions C37_x86_registers.
