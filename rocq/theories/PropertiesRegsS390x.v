(** * C46 on s390x: the inline assembly is correct whatever registers the compiler assigns *)
From Coq Require Import ZArith List Bool Lia PeanoNat.
From Verif Require Import Words Spec WideSpec WordsFacts Halves LoopModel AsmModel BlockModel BlockClobber.
From Verif Require Import RegModel RegProofs RegExamples S390xModel S390xMain RegS390xModel RegS390xProofs.
Import ListNotations.
Open Scope Z_scope.

(** [cc_reg g = Tmp]: the [lateout(reg)] operand of compare_exchange is the operand called [Tmp] (where it is
    placed is up to [asg]: also in the register of the address, which is an [in] operand). *)
Theorem C46_s390x_any_registers : forall g pm ty asg m ls s h,
  cc_reg g = Tmp -> 0 <= pm < 16 -> (forall a, 0 < ibits (ty a)) -> mem_ok ty m ->
  compiled (s390x_isa pm) (code_of g ty) (fun a o => operands g (ty a) o) asg ->
  asm_run (pnext (s390x_isa pm)) (real_code (s390x_isa pm) (code_of g ty) asg) (asm_init m) ls = Some (s, h) ->
  atomic_history ty m h (amem s).
Proof.
  intros g pm ty asg m ls s h CR PM WF MO OK E.
  destruct (whole_run (s390x_isa pm) ri rj rm all (fun _ => true) (s390x_faithful pm) (fun r => conj (fun _ => Logic.I) (fun _ => eq_refl))
    (code_of g ty) (fun a o => operands g (ty a) o) (s390x_checks pm g CR ty) (s390x_ret pm g CR ty) (s390x_entry pm g CR ty) asg OK ls m s h E)
    as (s1 & E1 & EM & _).
  rewrite <- EM. refine (z_atomic g pm ty _ m ls s1 h PM _ WF MO E1). rewrite CR. split; discriminate.
Qed.
(** no invalid register combination is executed, and no thread leaves its block *)
Theorem C46_s390x_never_stuck : forall g pm ty asg m ls s h t c,
  cc_reg g = Tmp -> 0 <= pm < 16 -> mem_ok ty m ->
  compiled (s390x_isa pm) (code_of g ty) (fun a o => operands g (ty a) o) asg ->
  asm_run (pnext (s390x_isa pm)) (real_code (s390x_isa pm) (code_of g ty) asg) (asm_init m) ls = Some (s, h) -> athr s t = Some c ->
  forall sp, exists s' e,
    asm_step (pnext (s390x_isa pm)) (real_code (s390x_isa pm) (code_of g ty) asg) s (mk_label t None sp) = Some (s', e).
Proof.
  intros g pm ty asg m ls s h t c CR PM MO OK E T.
  refine (whole_never_stuck (s390x_isa pm) ri rj rm all (fun _ => true) (s390x_faithful pm) (fun r => conj (fun _ => Logic.I) (fun _ => eq_refl))
    (code_of g ty) (fun a o => operands g (ty a) o) (s390x_checks pm g CR ty) (s390x_ret pm g CR ty) (s390x_entry pm g CR ty) asg OK m ls s h t c _ E T).
  intros s1 c1 E1 T1. refine (z_never_stuck g pm ty _ m ls s1 h t c1 PM _ MO E1 T1). rewrite CR. split; discriminate.
Qed.
(** registers that were not given to an output keep their values, at every point of the block *)
Theorem C46_s390x_other_registers : forall g pm ty asg a o c c', cc_reg g = Tmp ->
  real_code (s390x_isa pm) (code_of g ty) asg a o = Some c -> steps (pnext (s390x_isa pm)) c c' ->
  forall n, (forall r p, In (r, p) (operands g (ty a) o) -> is_output p = true -> where_is (asg a o) r <> n) ->
  pfile c' n = file0 (asg a o) n.
Proof.
  intros g pm ty asg a o c c' CR.
  exact (whole_keeps (s390x_isa pm) ri rj rm all (fun _ => true) (s390x_faithful pm)
    (code_of g ty) (fun a o => operands g (ty a) o) (s390x_checks pm g CR ty) asg a o c c').
Qed.

(** ** The hypotheses are met: an assignment for every call; compare_exchange gets its condition code in the
    register that held the address. *)
Definition place0 (o : wop) (r : reg) : nat :=
  match r with
  | R0 => 0 | R1 => 1 | R4 => 4 | R5 => 5 | R12 => 12 | R13 => 13
  | Dst => 3 | ValHi => 7 | ValLo => 8 | Zero => 9 | Other => 10
  | Tmp => match o with WOp (OCas _ _ _ _) | WCasWeak _ _ _ _ => 3 | _ => 2 end
  end%nat.
Definition rest1 := mk_st (fun _ => 77) 3.
Definition asg0 pm g ty (a : Z) (o : wop) : assignment st reg :=
  mk_assignment (place0 o) (filled (s390x_isa pm) (operands g (ty a) o) (place0 o) (code_of g ty (fun _ _ => rest1) a o)) rest1.
Lemma inputs_same g ty j1 j2 a o k1 k2 : code_of g ty j1 a o = Some k1 -> code_of g ty j2 a o = Some k2 ->
  forall r p, In (r, p) (operands g (ty a) o) -> is_input p = true -> rg (bst k1) r = rg (bst k2) r.
Proof.
  destruct g as [dp ls m3 zo cr]. unfold code_of. destruct (negb _); [discriminate|]. intros E1 E2 q p.
  Local Ltac ins := repeat (let H := fresh in intros H; destruct H as [H|H]; [injection H as <- <-; intros; try discriminate; reflexivity|]; revert H); let H := fresh in intros H; destruct H.
  destruct o as [[ord|v ord|r ord|c n sc fl]|c n sc fl].
  - injection E1 as <-. injection E2 as <-. cbn [bst]. ins.
  - injection E1 as <-. injection E2 as <-. cbn [bst]. ins.
  - unfold body in E1, E2. cbn [lsoc] in E1, E2. unfold operands. cbn [lsoc zos dops].
    destruct r; try destruct ls; injection E1 as <-; injection E2 as <-; cbn [bst]; destruct zo;
      try destruct (isigned (ty a)); try destruct dp; cbn [app]; ins.
  - injection E1 as <-. injection E2 as <-. cbn [bst]. destruct zo; ins.
  - injection E1 as <-. injection E2 as <-. cbn [bst]. destruct zo; ins.
Qed.
Example s390x_compiled_example : forall pm g ty,
  compiled (s390x_isa pm) (code_of g ty) (fun a o => operands g (ty a) o) (asg0 pm g ty).
Proof.
  intros pm g ty a o k E. unfold asg0.
  assert (exists k0, code_of g ty (fun _ _ => rest1) a o = Some k0) as [k0 E0].
  { revert E. unfold code_of. destruct (negb _); [discriminate|].
    destruct o as [[ord|v ord|r ord|c n sc fl]|c n sc fl]; eauto. destruct r; eauto; destruct (body _ _ _); eauto. }
  rewrite E0. apply place_ok_permitted.
  - exact reg_eqb_eq.
  - destruct g as [dp ls m3 zo cr]. unfold operands. cbn [lsoc zos dops].
    destruct o as [[ord|v ord|r ord|c n sc fl]|c n sc fl]; try (destruct zo; reflexivity).
    destruct r; try destruct ls, zo; try destruct (isigned (ty a)); try destruct dp; reflexivity.
  - exact (inputs_same g ty _ _ a o k k0 E E0).
Qed.
Definition g0 := mk_target true true false false Tmp.
Definition m0 : Z -> Z := fun a => if a =? 16 then 2 ^ 64 - 1 else 0.
Definition call0 t o := mk_label t (Some (16, WOp o)) false.
Definition tick t : label wop := mk_label t None false.
Definition sched0 : list (label wop) :=
  [call0 0%nat (ORmw (Add 1) SeqCst)] ++ repeat (tick 0%nat) 3 ++
  [call0 1%nat (OCas (2 ^ 64 - 1) (2 ^ 100) SeqCst SeqCst)] ++ repeat (tick 1%nat) 3 ++ repeat (tick 0%nat) 10.
Example s390x_real_run_example :
  match asm_run (pnext (s390x_isa 5)) (real_code (s390x_isa 5) (code_of g0 (fun _ => u128)) (asg0 5 g0 (fun _ => u128))) (asm_init m0) sched0 with
  | Some (s, h) => amem s 16 = 2 ^ 100 + 1 /\
      h = [Call 0 16 (WOp (ORmw (Add 1) SeqCst)); Call 1 16 (WOp (OCas (2 ^ 64 - 1) (2 ^ 100) SeqCst SeqCst));
           Return 1 (ROk (2 ^ 64 - 1)); Return 0 (RVal (2 ^ 100))]
  | None => False
  end.
Proof. vm_compute. split; reflexivity. Qed.
(** the declarations matter: were the operands of fetch_umax's selection [lateout], the scratch register could be
    that of the operand's low half, and the result would be wrong *)
Example s390x_lateout_example :
  let asg a o := mk_assignment (fun r => match r with Tmp => 8%nat | r => place0 o r end)
                   (filled (s390x_isa 5) (operands g0 u128 o) (place0 o) (code_of g0 (fun _ => u128) (fun _ _ => rest1) a o)) rest1 in
  match asm_run (pnext (s390x_isa 5)) (real_code (s390x_isa 5) (code_of g0 (fun _ => u128)) asg) (asm_init m0)
          ([call0 0%nat (ORmw (Max (2 ^ 64 + 1)) SeqCst)] ++ repeat (tick 0%nat) 15) with
  | Some (s, h) => amem s 16 = 2 ^ 64 + (2 ^ 64 - 1)
  | None => False
  end.
Proof. vm_compute. reflexivity. Qed.

Print Assumptions C46_s390x_any_registers.
Print Assumptions C46_s390x_never_stuck.
Print Assumptions C46_s390x_other_registers.
