(** * C46 on aarch64: the inline assembly is correct whatever registers the compiler assigns *)
From Coq Require Import ZArith List Bool Lia PeanoNat.
From Verif Require Import Words Spec WideSpec WordsFacts Halves LoopModel AsmModel BlockModel BlockClobber OrderingModel.
From Verif Require Import RegModel RegProofs RegExamples Aarch64Model Aarch64Main RegAarch64Model RegAarch64Proofs.
Import ListNotations.
Open Scope Z_scope.

Section Thms.
  Variables (g : target) (h : hw) (old : bool) (ty : Z -> ity) (asg : Z -> wop -> assignment st reg).
  Local Notation A := (aarch64_isa (be g) h).
  Local Notation ops := (fun (_ : Z) o => operands old (which g o)).
  Hypothesis SO : sound g h.
  Lemma checks junk a o k : code_of g h ty junk a o = Some k -> check A ri rj rm (ops a o) realb (bprog k) = true.
  Proof. intros E. exact (proj1 (aarch64_good g h old ty junk a o k SO E)). Qed.
  Lemma rets junk a o k : code_of g h ty junk a o = Some k ->
    forall s1 s2, agree A (filter (output A (ops a o)) (map fst (ops a o))) s1 s2 -> bret k s1 = bret k s2.
  Proof. intros E. exact (proj1 (proj2 (aarch64_good g h old ty junk a o k SO E))). Qed.
  Lemma entries junk a o k : code_of g h ty junk a o = Some k ->
    flags_eq A (bst k) (junk a o) /\
    forall r p, In (r, p) (ops a o) -> is_input p = false -> regs_of A (bst k) r = regs_of A (junk a o) r.
  Proof. exact (aarch64_entry g h old ty junk a o k SO). Qed.
End Thms.

(** [compiled ... asg]: for each call, [asg] places every operand in a register its declaration allows, lets two
    operands share a register only where the declarations allow it, and loads the inputs; [old]: the variants
    with explicit registers for old LLVM. *)
Theorem C46_aarch64_any_registers : forall g h old ty asg m ls s hs,
  sound g h -> (forall a, 0 < ibits (ty a)) -> mem_ok ty m ->
  compiled (aarch64_isa (be g) h) (code_of g h ty) (fun _ o => operands old (which g o)) asg ->
  asm_run (pnext (aarch64_isa (be g) h)) (real_code (aarch64_isa (be g) h) (code_of g h ty) asg) (asm_init m) ls = Some (s, hs) ->
  atomic_history ty m hs (amem s).
Proof.
  intros g h old ty asg m ls s hs SO WF MO OK E.
  destruct (whole_run (aarch64_isa (be g) h) ri rj rm real realb (aarch64_faithful (be g) h) realb_real
    (code_of g h ty) (fun _ o => operands old (which g o)) (checks g h old ty SO) (rets g h old ty SO) (entries g h old ty SO) asg OK ls m s hs E)
    as (s1 & E1 & EM & _).
  rewrite <- EM. exact (v_atomic g h ty _ SO WF m ls s1 hs MO E1).
Qed.
(** no unpredictable register combination is executed, and no thread leaves its block *)
Theorem C46_aarch64_never_stuck : forall g h old ty asg m ls s hs t c, sound g h -> mem_ok ty m ->
  compiled (aarch64_isa (be g) h) (code_of g h ty) (fun _ o => operands old (which g o)) asg ->
  asm_run (pnext (aarch64_isa (be g) h)) (real_code (aarch64_isa (be g) h) (code_of g h ty) asg) (asm_init m) ls = Some (s, hs) ->
  athr s t = Some c ->
  forall sp, exists s' e,
    asm_step (pnext (aarch64_isa (be g) h)) (real_code (aarch64_isa (be g) h) (code_of g h ty) asg) s (mk_label t None sp) = Some (s', e).
Proof.
  intros g h old ty asg m ls s hs t c SO MO OK E T.
  refine (whole_never_stuck (aarch64_isa (be g) h) ri rj rm real realb (aarch64_faithful (be g) h) realb_real
    (code_of g h ty) (fun _ o => operands old (which g o)) (checks g h old ty SO) (rets g h old ty SO) (entries g h old ty SO) asg OK m ls s hs t c _ E T).
  intros s1 c1 E1 T1. exact (v_never_stuck g h ty _ SO m ls s1 hs t c1 MO E1 T1).
Qed.
(** registers that were not given to an output keep their values, at every point of the block *)
Theorem C46_aarch64_other_registers : forall g h old ty asg a o c c', sound g h ->
  real_code (aarch64_isa (be g) h) (code_of g h ty) asg a o = Some c -> steps (pnext (aarch64_isa (be g) h)) c c' ->
  forall n, (forall r p, In (r, p) (operands old (which g o)) -> is_output p = true -> where_is (asg a o) r <> n) ->
  pfile c' n = file0 (asg a o) n.
Proof.
  intros g h old ty asg a o c c' SO.
  exact (whole_keeps (aarch64_isa (be g) h) ri rj rm real realb (aarch64_faithful (be g) h)
    (code_of g h ty) (fun _ o => operands old (which g o)) (checks g h old ty SO) asg a o c c').
Qed.

(** ** The hypotheses are met: an assignment for every call, in which a load through ldp / ldiapp gets its lower
    half in the register that held the address. *)
Definition place0 (old : bool) (b : block) (r : reg) : nat :=
  match r with
  | X2 => 2 | X3 => 3 | X4 => 4 | X5 => 5 | X6 => 6 | X7 => 7
  | Dst => if old then 0 else 10
  | PrevLo => match b with B_load_ldiapp _ => if old then 0 else 10 | B_load_ldp _ => if old then 0 else 10 | _ => 11 end
  | PrevHi => if old then 1 else 12
  | NewLo => 13 | NewHi => 14 | OldLo => 15 | OldHi => 16
  | ValLo => if old then match b with B_ldclrp => 8 | _ => 2 end else 17
  | ValHi => if old then match b with B_store_stilp => 3 | _ => 1 end else 18
  | TmpLo => 19 | TmpHi => 20 | Rr => 21 | Xzr => 22
  end%nat.
(** with explicit operands everywhere the other blocks need theirs elsewhere *)
Definition inst (b : block) : bool :=
  match b with B_load_ldiapp _ | B_store_stilp | B_swap_swpp | B_ldclrp | B_ldsetp => true | _ => false end.
Definition rest1 := mk_st (fun _ => 77) true false true false.
Definition asg0 (old : bool) (g : target) (h : hw) ty (a : Z) (o : wop) : assignment st reg :=
  let b := which g o in let w := place0 (old && inst b) b in
  mk_assignment w (filled (aarch64_isa (be g) h) (operands old b) w (code_of g h ty (fun _ _ => rest1) a o)) rest1.
(** FEAT_LSE2, LRCPC3 and LSE128; nothing (exclusive loops, torn pair loads) *)
Definition g1 := mk_target false false false true true true true false false false false false false.
Definition h1 := mk_hw true true true true true true.
Definition g2 := mk_target true false false false false false false false false false false false false.
Definition h2 := mk_hw false false false false false true.
Lemma pair_inj {T U} (a b : T) (c d : U) : (a, c) = (b, d) -> a = b /\ c = d.
Proof. intros H. split; congruence. Qed.
Ltac ins := let H := fresh in intros ? ? H;
  repeat (destruct H as [H|H]; [apply pair_inj in H as [<- <-]; cbn [is_input okind]; intros; first [discriminate | cbn [rg set1 put setr reg_eqb bst]; first [reflexivity | idtac]]|]); destruct H.
Ltac one E := first [discriminate E | apply some_inj in E; subst; eexists; split; [reflexivity|]; ins].
Lemma inputs_same old g h ty j1 j2 a o k1 : g = g1 /\ h = h1 \/ g = g2 /\ h = h2 -> code_of g h ty j1 a o = Some k1 ->
  exists k2, code_of g h ty j2 a o = Some k2 /\
  forall r p, In (r, p) (operands old (which g o)) -> is_input p = true -> rg (bst k1) r = rg (bst k2) r.
Proof.
  intros GH. unfold code_of. destruct (negb _); [discriminate|].
  destruct GH as [[-> ->]|[-> ->]]; destruct o as [[ord|v ord|r ord|c n sc fl]|c n sc fl]; try destruct ord; try destruct r;
    try destruct sc, fl; intros E; destruct old; one E.
Qed.
Example aarch64_compiled_example : forall old g h ty, g = g1 /\ h = h1 \/ g = g2 /\ h = h2 -> sound g h /\
  compiled (aarch64_isa (be g) h) (code_of g h ty) (fun _ o => operands old (which g o)) (asg0 old g h ty).
Proof.
  intros old g h ty GH. split; [destruct GH as [[-> ->]|[-> ->]]; unfold sound; cbn; tauto|].
  intros a o k E. unfold asg0. cbv zeta.
  destruct (inputs_same old g h ty _ (fun _ _ => rest1) a o k GH E) as (k0 & E0 & S).
  rewrite E0. apply place_ok_permitted.
  - exact reg_eqb_eq.
  - destruct GH as [[-> ->]|[-> ->]]; destruct o as [[ord|v ord|r ord|c n sc fl]|c n sc fl]; try destruct ord; try destruct r; destruct old; reflexivity.
  - exact S.
Qed.
Definition m0 : Z -> Z := fun a => if a =? 16 then 2 ^ 64 + 5 else 0.
Definition call0 t o := mk_label t (Some (16, WOp o)) false.
Definition tick t : label wop := mk_label t None false.
Definition run0 g h asg ls := asm_run (pnext (aarch64_isa (be g) h)) (real_code (aarch64_isa (be g) h) (code_of g h (fun _ => u128)) asg) (asm_init m0) ls.
Definition sched0 : list (label wop) :=
  [call0 0%nat (OLoad SeqCst)] ++ [tick 0%nat] ++ [call0 1%nat (ORmw (Or 2) SeqCst)] ++ repeat (tick 1%nat) 2 ++ repeat (tick 0%nat) 2.
Example aarch64_real_run_example : forall old,
  match run0 g1 h1 (asg0 old g1 h1 (fun _ => u128)) sched0 with
  | Some (s, h) => amem s 16 = 2 ^ 64 + 7 /\
      h = [Call 0 16 (WOp (OLoad SeqCst)); Call 1 16 (WOp (ORmw (Or 2) SeqCst)); Return 1 (RVal (2 ^ 64 + 5)); Return 0 (RVal (2 ^ 64 + 7))]
  | None => False
  end.
Proof. intros []; vm_compute; split; reflexivity. Qed.
(** the declarations matter: were the output of the exclusive-pair load [lateout], it could be placed in the
    register of the address, and the store would go elsewhere *)
Example aarch64_lateout_example :
  let asg a o := mk_assignment (fun r => match r with PrevLo => 10%nat | r => place0 false (which g2 o) r end)
                   (fun n => if (n =? 10)%nat then a else 77) rest1 in
  match run0 g2 h2 asg ([call0 0%nat (OLoad Relaxed)] ++ repeat (tick 0%nat) 2) with
  | Some (s, _) => match athr s 0 with
                   | Some c => match pnext (aarch64_isa (be g2) h2) c with AStoreCond b _ _ => Some b | _ => None end
                   | None => None end
  | None => None
  end = Some 1.
Proof. vm_compute. reflexivity. Qed.

Print Assumptions C46_aarch64_any_registers.
Print Assumptions C46_aarch64_never_stuck.
Print Assumptions C46_aarch64_other_registers.
