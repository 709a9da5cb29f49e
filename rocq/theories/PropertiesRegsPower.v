(** * C46 on powerpc64: the inline assembly is correct whatever registers the compiler assigns *)
From Coq Require Import ZArith List Bool Lia PeanoNat.
From Verif Require Import Words Spec WideSpec WordsFacts Halves LoopModel AsmModel BlockModel BlockClobber OrderingModel.
From Verif Require Import RegModel RegProofs RegExamples PowerModel PowerMain RegPowerModel RegPowerProofs.
Import ListNotations.
Open Scope Z_scope.

(** [compiled ... asg]: for each call, [asg] places every operand in a register its declaration allows, lets two
    operands share a register only where the declarations allow it, and loads the inputs.  The threads
    execute the blocks on the numbered registers of that assignment. *)
Theorem C46_power_any_registers : forall g ty asg m ls s h,
  (forall a, 0 < ibits (ty a)) -> mem_ok ty m ->
  compiled power_isa (code_of g ty) (fun _ o => operands g o) asg ->
  asm_run (pnext power_isa) (real_code power_isa (code_of g ty) asg) (asm_init m) ls = Some (s, h) ->
  atomic_history ty m h (amem s).
Proof.
  intros g ty asg m ls s h WF MO OK E.
  destruct (whole_run power_isa ri rj rm all (fun _ => true) power_faithful (fun r => conj (fun _ => Logic.I) (fun _ => eq_refl))
    (code_of g ty) (fun _ o => operands g o) (power_checks g ty) (power_ret g ty) (power_entry g ty) asg OK ls m s h E)
    as (s1 & E1 & EM & _).
  rewrite <- EM. exact (p_atomic g ty _ m ls s1 h WF MO E1).
Qed.
(** no invalid register combination is executed, and no thread leaves its block *)
Theorem C46_power_never_stuck : forall g ty asg m ls s h t c, mem_ok ty m ->
  compiled power_isa (code_of g ty) (fun _ o => operands g o) asg ->
  asm_run (pnext power_isa) (real_code power_isa (code_of g ty) asg) (asm_init m) ls = Some (s, h) -> athr s t = Some c ->
  forall sp, exists s' e,
    asm_step (pnext power_isa) (real_code power_isa (code_of g ty) asg) s (mk_label t None sp) = Some (s', e).
Proof.
  intros g ty asg m ls s h t c MO OK E T.
  refine (whole_never_stuck power_isa ri rj rm all (fun _ => true) power_faithful (fun r => conj (fun _ => Logic.I) (fun _ => eq_refl))
    (code_of g ty) (fun _ o => operands g o) (power_checks g ty) (power_ret g ty) (power_entry g ty) asg OK m ls s h t c _ E T).
  intros s1 c1 E1 T1. exact (p_never_stuck g ty _ m ls s1 h t c1 MO E1 T1).
Qed.
(** registers that were not given to an output keep their values, at every point of the block *)
Theorem C46_power_other_registers : forall g ty asg a o c c',
  real_code power_isa (code_of g ty) asg a o = Some c -> steps (pnext power_isa) c c' ->
  forall n, (forall r p, In (r, p) (operands g o) -> is_output p = true -> where_is (asg a o) r <> n) ->
  pfile c' n = file0 (asg a o) n.
Proof.
  intros g ty asg a o c c'.
  exact (whole_keeps power_isa ri rj rm all (fun _ => true) power_faithful
    (code_of g ty) (fun _ o => operands g o) (power_checks g ty) asg a o c c').
Qed.

(** ** The hypotheses are met: an assignment for every call (r0 serves as an input that may be r0). *)
Definition place0 (r : reg) : nat :=
  match r with
  | R4 => 4 | R5 => 5 | R6 => 6 | R7 => 7 | R8 => 8 | R9 => 9
  | Dst => 3 | ValHi => 0 | ValLo => 10 | TmpHi => 11 | TmpLo => 12 | Zero => 14
  end%nat.
Definition rest1 := mk_st (fun _ => 77) (mk_crf true true true) (mk_crf true true true) true true 12345.
Definition asg0 g ty (a : Z) (o : wop) : assignment st reg :=
  mk_assignment place0 (filled power_isa (operands g o) place0 (code_of g ty (fun _ _ => rest1) a o)) rest1.
Lemma inputs_same g ty j1 j2 a o k1 k2 : code_of g ty j1 a o = Some k1 -> code_of g ty j2 a o = Some k2 ->
  forall r p, In (r, p) (operands g o) -> is_input p = true -> rg (bst k1) r = rg (bst k2) r.
Proof.
  unfold code_of. destruct (negb _); [discriminate|]. intros E1 E2 q p.
  Local Ltac ins := repeat (let H := fresh in intros H; destruct H as [H|H]; [injection H as <- <-; intros; try discriminate; reflexivity|]; revert H); let H := fresh in intros H; destruct H.
  destruct o as [[ord|v ord|r ord|c n sc fl]|c n sc fl].
  - injection E1 as <-. injection E2 as <-. cbn [bst]. ins.
  - injection E1 as <-. injection E2 as <-. cbn [bst]. ins.
  - destruct r; [injection E1 as <-; injection E2 as <-|..]; try (destruct (body _ _ _); [|discriminate]; injection E1 as <-; injection E2 as <-);
      cbn [bst]; unfold operands; try (destruct (old_llvm g)); cbn [app]; ins.
  - destruct (cas_fences sc fl) as [[[al su] re]|]; [|discriminate]. injection E1 as <-. injection E2 as <-. cbn [bst]. ins.
  - destruct (cas_fences sc fl) as [[[al su] re]|]; [|discriminate]. injection E1 as <-. injection E2 as <-. cbn [bst]. ins.
Qed.
Example power_compiled_example : forall g ty, compiled power_isa (code_of g ty) (fun _ o => operands g o) (asg0 g ty).
Proof.
  intros g ty a o k E. unfold asg0.
  assert (exists k0, code_of g ty (fun _ _ => rest1) a o = Some k0) as [k0 E0].
  { revert E. unfold code_of. destruct (negb _); [discriminate|].
    destruct o as [[ord|v ord|r ord|c n sc fl]|c n sc fl]; eauto.
    - destruct r; eauto; (destruct (body _ _ _); [eauto|discriminate]).
    - destruct (cas_fences sc fl) as [[[al su] re]|]; [eauto|discriminate].
    - destruct (cas_fences sc fl) as [[[al su] re]|]; [eauto|discriminate]. }
  rewrite E0. apply place_ok_permitted.
  - exact reg_eqb_eq.
  - unfold operands. destruct o as [[ord|v ord|r ord|c n sc fl]|c n sc fl]; try reflexivity. destruct r; try reflexivity.
    destruct (old_llvm g); reflexivity.
  - exact (inputs_same g ty _ _ a o k k0 E E0).
Qed.
Definition g0 := mk_target false true.
Definition m0 : Z -> Z := fun a => if a =? 16 then 2 ^ 64 else 0.
Definition call0 t o := mk_label t (Some (16, WOp o)) false.
Definition tick t : label wop := mk_label t None false.
Definition sched0 : list (label wop) :=
  [call0 0%nat (ORmw (Sub 1) SeqCst)] ++ repeat (tick 0%nat) 3 ++
  [call0 1%nat (ORmw (Min (-5)) AcqRel)] ++ repeat (tick 1%nat) 13 ++ repeat (tick 0%nat) 10.
Example power_real_run_example :
  match asm_run (pnext power_isa) (real_code power_isa (code_of g0 (fun _ => i128)) (asg0 g0 (fun _ => i128))) (asm_init m0) sched0 with
  | Some (s, h) => of_bits i128 (amem s 16) = -6 /\
      h = [Call 0 16 (WOp (ORmw (Sub 1) SeqCst)); Call 1 16 (WOp (ORmw (Min (-5)) AcqRel));
           Return 1 (RVal (2 ^ 64)); Return 0 (RVal (-5))]
  | None => False
  end.
Proof. vm_compute. split; reflexivity. Qed.
(** the declarations matter: with the address in r0 (excluded by [reg_nonzero]) the block would use address 0 *)
Example power_r0_example :
  let asg a o := mk_assignment (fun r => match r with Dst => 0 | r => place0 r end%nat) (fun n => if (n =? 0)%nat then a else 77) rest1 in
  match asm_run (pnext power_isa) (real_code power_isa (code_of g0 (fun _ => u128)) asg) (asm_init m0)
          ([call0 0%nat (OLoad Relaxed)] ++ repeat (tick 0%nat) 2) with
  | Some (s, h) => h = [Call 0 16 (WOp (OLoad Relaxed)); Return 0 (RVal 0)]
  | None => False
  end.
Proof. vm_compute. reflexivity. Qed.

Print Assumptions C46_power_any_registers.
Print Assumptions C46_power_never_stuck.
Print Assumptions C46_power_other_registers.
