(** * Properties C11 (RISC-V Zacas, core), C12, C13, C14 *)
From Coq Require Import ZArith List Bool Lia PeanoNat.
From Verif Require Import Words Spec WideSpec WordsFacts LoopModel LoopProofs LoopProgress AsmModel BlockModel UpdateSpec.
From Verif Require X86Model X86Blocks S390xModel S390xBlocks PowerModel PowerBlocks RustLoopsProofs RustLoopsMain ProgressMain.
From Verif Require Import KuserModel CoreModel ZacasModel.
Import ListNotations.
Open Scope Z_scope.

(** ** C11, RISC-V Zacas: 128-bit atomics by amocas.q ([w] = 64) and 64-bit atomics by amocas.d on
    RV32 ([w] = 32).  Any number of threads, any schedule: every history is one of atomic variables. *)
Theorem C11_riscv_atomic : forall w ty m ls s h, w = 64 \/ w = 32 -> (forall a, 0 < ibits (ty a)) -> mem_ok ty m ->
  asm_run (znext w) (z_code_of w ty) (asm_init m) ls = Some (s, h) -> atomic_history ty m h (amem s).
Proof. intros w ty m ls s h W. apply RustLoopsMain.zacas_atomic. lia. Qed.
Theorem C11_riscv_never_stuck : forall w ty m ls s h t c, w = 64 \/ w = 32 -> mem_ok ty m ->
  asm_run (znext w) (z_code_of w ty) (asm_init m) ls = Some (s, h) -> athr s t = Some c ->
  forall sp, exists s' e, asm_step (znext w) (z_code_of w ty) s (mk_label t None sp) = Some (s', e).
Proof. intros w ty m ls s h t c W. apply RustLoopsMain.zacas_never_stuck. lia. Qed.
Theorem C11_riscv_total : forall w ty a o, ibits (ty a) = 2 * w -> callable (ty a) o = true ->
  exists c, z_code_of w ty a o = Some c.
Proof.
  intros w ty a o W C. unfold z_code_of. rewrite W, Z.eqb_refl, C. cbn [andb negb].
  destruct o as [[ord|v ord|r ord|cu nw sc fl]|cu nw sc fl]; eauto.
Qed.

(** ** C11, C12: the wrappers around core's atomics.  [uop] has [fetch_update] with an arbitrary,
    possibly stateful, closure; [usem] says what it may do. *)
Theorem C12_fetch_update_atomic : forall g ty m ls s h, (forall a, 0 < ibits (ty a)) -> mem_ok ty m ->
  asm_run cnext (c_code_of g ty) (asm_init m) ls = Some (s, h) -> atomic_history_u ty m h (amem s).
Proof. exact RustLoopsMain.core_atomic. Qed.
Theorem C12_fetch_update_never_stuck : forall g ty m ls s h t c, (forall a, 0 < ibits (ty a)) -> mem_ok ty m ->
  asm_run cnext (c_code_of g ty) (asm_init m) ls = Some (s, h) -> athr s t = Some c ->
  forall sp, exists s' e, asm_step cnext (c_code_of g ty) s (mk_label t None sp) = Some (s', e).
Proof. exact RustLoopsMain.core_never_stuck. Qed.
Theorem C12_fetch_update_total : forall g ty a f so fo, fo <> Release -> fo <> AcqRel ->
  exists c, c_code_of g ty a (UFetchUpdate f so fo) = Some c.
Proof. intros g ty a f so fo A B. unfold c_code_of. destruct fo; eauto; congruence. Qed.
Theorem C12_core_ops_total : forall g ty a o, callable (ty a) o = true -> exists c, c_code_of g ty a (UOp o) = Some c.
Proof.
  intros g ty a o C. unfold c_code_of. rewrite C. cbn [negb].
  destruct o as [[ord|v ord|r ord|cu nw sc fl]|cu nw sc fl]; eauto. destruct r; eauto.
Qed.

(** ** C14: 64-bit atomics through the kernel's compare-and-exchange helper, both endiannesses. *)
Theorem C14_kuser_atomic : forall be ty m ls s h, (forall a, 0 < ibits (ty a)) -> mem_ok ty m ->
  asm_run (knext be) (k_code_of ty) (asm_init m) ls = Some (s, h) -> atomic_history ty m h (amem s).
Proof. exact RustLoopsMain.kuser_atomic. Qed.
Theorem C14_kuser_never_stuck : forall be ty m ls s h t c, mem_ok ty m ->
  asm_run (knext be) (k_code_of ty) (asm_init m) ls = Some (s, h) -> athr s t = Some c ->
  forall sp, exists s' e, asm_step (knext be) (k_code_of ty) s (mk_label t None sp) = Some (s', e).
Proof. exact RustLoopsMain.kuser_never_stuck. Qed.
Theorem C14_kuser_total : forall ty a o, ibits (ty a) = 64 -> callable (ty a) o = true ->
  exists c, k_code_of ty a o = Some c.
Proof.
  intros ty a o W C. unfold k_code_of. rewrite W, C. cbn [Z.eqb Pos.eqb andb negb].
  destruct o as [[ord|v ord|r ord|cu nw sc fl]|cu nw sc fl]; eauto.
Qed.

(** ** C13 *)
(** Lock-freedom: from any reachable state, if the threads in [T] that are inside an operation are
    scheduled in any way, without new calls and without spurious hardware failures, then within a
    bounded number of instructions one of them returns. *)
Theorem C13_x86_lock_free : forall g ty junk T m ls s h, NoDup T -> (forall a, 0 < ibits (ty a)) -> mem_ok ty m ->
  asm_run X86Model.next (X86Model.code_of g ty junk) (asm_init m) ls = Some (s, h) ->
  exists n, forall ts s' h', Forall (fun t => In t T) ts -> (n <= length ts)%nat ->
    asm_run X86Model.next (X86Model.code_of g ty junk) s
      (map (fun t => mk_label t None false) ts) = Some (s', h') -> h' <> [].
Proof. exact ProgressMain.x86_lock_free. Qed.
Theorem C13_s390x_lock_free : forall g pm ty junk T m ls s h, NoDup T -> 0 <= pm < 16 ->
  S390xModel.cc_reg g <> S390xModel.R0 /\ S390xModel.cc_reg g <> S390xModel.R1 ->
  (forall a, 0 < ibits (ty a)) -> mem_ok ty m ->
  asm_run (bnext (S390xModel.exec1 pm) S390xModel.test S390xModel.access) (S390xModel.code_of g ty junk) (asm_init m) ls = Some (s, h) ->
  exists n, forall ts s' h', Forall (fun t => In t T) ts -> (n <= length ts)%nat ->
    asm_run (bnext (S390xModel.exec1 pm) S390xModel.test S390xModel.access) (S390xModel.code_of g ty junk) s
      (map (fun t => mk_label t None false) ts) = Some (s', h') -> h' <> [].
Proof. exact ProgressMain.s390x_lock_free. Qed.
Theorem C13_power_lock_free : forall g ty junk T m ls s h, NoDup T -> (forall a, 0 < ibits (ty a)) -> mem_ok ty m ->
  asm_run (bnext PowerModel.exec1 PowerModel.test PowerModel.access) (PowerModel.code_of g ty junk) (asm_init m) ls = Some (s, h) ->
  exists n, forall ts s' h', Forall (fun t => In t T) ts -> (n <= length ts)%nat ->
    asm_run (bnext PowerModel.exec1 PowerModel.test PowerModel.access) (PowerModel.code_of g ty junk) s
      (map (fun t => mk_label t None false) ts) = Some (s', h') -> h' <> [].
Proof. exact ProgressMain.power_lock_free. Qed.
Theorem C13_riscv_lock_free : forall w ty T m ls s h, NoDup T -> 0 < w -> (forall a, 0 < ibits (ty a)) -> mem_ok ty m ->
  asm_run (znext w) (z_code_of w ty) (asm_init m) ls = Some (s, h) ->
  exists n, forall ts s' h', Forall (fun t => In t T) ts -> (n <= length ts)%nat ->
    asm_run (znext w) (z_code_of w ty) s
      (map (fun t => mk_label t None false) ts) = Some (s', h') -> h' <> [].
Proof. exact ProgressMain.zacas_lock_free. Qed.
Theorem C13_kuser_lock_free : forall be ty T m ls s h, NoDup T -> (forall a, 0 < ibits (ty a)) -> mem_ok ty m ->
  asm_run (knext be) (k_code_of ty) (asm_init m) ls = Some (s, h) ->
  exists n, forall ts s' h', Forall (fun t => In t T) ts -> (n <= length ts)%nat ->
    asm_run (knext be) (k_code_of ty) s
      (map (fun t => mk_label t None false) ts) = Some (s', h') -> h' <> [].
Proof. exact ProgressMain.kuser_lock_free. Qed.
Theorem C13_core_lock_free : forall g ty T m ls s h, NoDup T -> (forall a, 0 < ibits (ty a)) -> mem_ok ty m ->
  asm_run cnext (c_code_of g ty) (asm_init m) ls = Some (s, h) ->
  exists n, forall ts s' h', Forall (fun t => In t T) ts -> (n <= length ts)%nat ->
    asm_run cnext (c_code_of g ty) s
      (map (fun t => mk_label t None false) ts) = Some (s', h') -> h' <> [].
Proof. exact ProgressMain.core_lock_free. Qed.

(** A thread that runs alone returns. *)
Theorem C13_x86_solo : forall g ty junk m ls s h t c, (forall a, 0 < ibits (ty a)) -> mem_ok ty m ->
  asm_run X86Model.next (X86Model.code_of g ty junk) (asm_init m) ls = Some (s, h) -> athr s t = Some c ->
  exists j s' r, asm_run X86Model.next (X86Model.code_of g ty junk) s
    (repeat (mk_label t None false) j) = Some (s', [Return t r]).
Proof. exact ProgressMain.x86_solo. Qed.
Theorem C13_s390x_solo : forall g pm ty junk m ls s h t c, 0 <= pm < 16 ->
  S390xModel.cc_reg g <> S390xModel.R0 /\ S390xModel.cc_reg g <> S390xModel.R1 ->
  (forall a, 0 < ibits (ty a)) -> mem_ok ty m ->
  asm_run (bnext (S390xModel.exec1 pm) S390xModel.test S390xModel.access) (S390xModel.code_of g ty junk) (asm_init m) ls = Some (s, h) -> athr s t = Some c ->
  exists j s' r, asm_run (bnext (S390xModel.exec1 pm) S390xModel.test S390xModel.access) (S390xModel.code_of g ty junk) s
    (repeat (mk_label t None false) j) = Some (s', [Return t r]).
Proof. exact ProgressMain.s390x_solo. Qed.
Theorem C13_power_solo : forall g ty junk m ls s h t c, (forall a, 0 < ibits (ty a)) -> mem_ok ty m ->
  asm_run (bnext PowerModel.exec1 PowerModel.test PowerModel.access) (PowerModel.code_of g ty junk) (asm_init m) ls = Some (s, h) -> athr s t = Some c ->
  exists j s' r, asm_run (bnext PowerModel.exec1 PowerModel.test PowerModel.access) (PowerModel.code_of g ty junk) s
    (repeat (mk_label t None false) j) = Some (s', [Return t r]).
Proof. exact ProgressMain.power_solo. Qed.
Theorem C13_riscv_solo : forall w ty m ls s h t c, 0 < w -> (forall a, 0 < ibits (ty a)) -> mem_ok ty m ->
  asm_run (znext w) (z_code_of w ty) (asm_init m) ls = Some (s, h) -> athr s t = Some c ->
  exists j s' r, asm_run (znext w) (z_code_of w ty) s
    (repeat (mk_label t None false) j) = Some (s', [Return t r]).
Proof. exact ProgressMain.zacas_solo. Qed.
Theorem C13_kuser_solo : forall be ty m ls s h t c, (forall a, 0 < ibits (ty a)) -> mem_ok ty m ->
  asm_run (knext be) (k_code_of ty) (asm_init m) ls = Some (s, h) -> athr s t = Some c ->
  exists j s' r, asm_run (knext be) (k_code_of ty) s
    (repeat (mk_label t None false) j) = Some (s', [Return t r]).
Proof. exact ProgressMain.kuser_solo. Qed.
Theorem C13_core_solo : forall g ty m ls s h t c, (forall a, 0 < ibits (ty a)) -> mem_ok ty m ->
  asm_run cnext (c_code_of g ty) (asm_init m) ls = Some (s, h) -> athr s t = Some c ->
  exists j s' r, asm_run cnext (c_code_of g ty) s
    (repeat (mk_label t None false) j) = Some (s', [Return t r]).
Proof. exact ProgressMain.core_solo. Qed.

(** For every table of retry loops ([LoopModel], which the code above refines) that is correct and
    reads the whole variable: an attempt fails without a spurious hardware failure only if somebody
    wrote the variable: failures of the running call never outnumber the writes since it started. *)
Theorem C13_failures_bounded : forall (impl_of : Z -> wop -> option (impl res)) ty m ls s h t,
  (forall a o i, impl_of a o = Some i ->
     impl_correct (fun a => ibits (ty a)) (fun a x => of_bits (ty a) x) (sem ty) a o i) ->
  (forall a o i, impl_of a o = Some i -> reads_all (fun a => ibits (ty a)) a i) ->
  mem_ok ty m -> run impl_of (init m) ls = Some (s, h) ->
  forall a o i, (exists hist n acc, pcs s t = Rd a o i hist n acc) \/ (exists hist g, pcs s t = Try a o i hist g) ->
  (fails s t + since s t <= nwrites s a)%nat.
Proof. intros impl_of ty m ls s h t C F M H. exact (failures_bounded impl_of _ _ _ C F m ls s h t M H). Qed.
(** ... and alone, at most two attempts are needed: each attempt loads the pieces and tries once. *)
Theorem C13_two_attempts : forall (impl_of : Z -> wop -> option (impl res)) ty m ls s h t,
  (forall a o i, impl_of a o = Some i ->
     impl_correct (fun a => ibits (ty a)) (fun a x => of_bits (ty a) x) (sem ty) a o i) ->
  (forall a o i, impl_of a o = Some i -> reads_all (fun a => ibits (ty a)) a i) ->
  mem_ok ty m -> run impl_of (init m) ls = Some (s, h) -> pcs s t <> Idle ->
  exists k s' r, (k <= 2 * pieces (pcs s t) + 4)%nat /\
    run impl_of s (repeat (mk_label t None false) k) = Some (s', [Return t r]).
Proof. intros impl_of ty m ls s h t C F M H N. exact (solo_finishes impl_of _ _ _ C F m ls s h t M H N). Qed.
(** A successful write always ends the call that made it. *)
Theorem C13_write_completes : forall (impl_of : Z -> wop -> option (impl res)) s l s' e a,
  step impl_of s l = Some (s', e) -> nwrites s' a <> nwrites s a ->
  (exists r, pcs s' (tid l) = Fin r) /\ nwrites s' a = S (nwrites s a).
Proof. intros impl_of s l s' e a. exact (write_completes impl_of s l s' e a). Qed.
(** The tables of the backends meet the two hypotheses. *)
Example C13_tables : forall g ty a o i, (forall a, 0 < ibits (ty a)) -> X86Blocks.x86_impl ty g a o = Some i ->
  impl_correct (fun a => ibits (ty a)) (fun a x => of_bits (ty a) x) (sem ty) a o i /\
  reads_all (fun a => ibits (ty a)) a i.
Proof. intros g ty a o i W H. split; [now apply (X86Main.x86_impl_ok g ty W)|now apply (ProgressMain.x86_reads ty g a o)]. Qed.

(** ** The hypotheses are met: concrete executions *)
Definition m0 : Z -> Z := fun a => if a =? 16 then 2 ^ 32 - 1 else 0.
Definition tick {Op} t : label Op := mk_label t None false.
Definition ex_z := [mk_label 0%nat (Some (16, WOp (ORmw (Add 1) SeqCst))) false] ++ repeat (tick 0%nat) 1 ++
  [mk_label 1%nat (Some (16, WOp (ORmw (Min (-5)) SeqCst))) false] ++ repeat (tick 1%nat) 4 ++ repeat (tick 0%nat) 4.
(** thread 0 has loaded the low half when thread 1 replaces the value; its first attempt fails *)
Example riscv_run : match asm_run (znext 32) (z_code_of 32 (fun _ => i64)) (asm_init m0) ex_z with
  | Some (s, h) => h = [Call 0 16 (WOp (ORmw (Add 1) SeqCst)); Call 1 16 (WOp (ORmw (Min (-5)) SeqCst));
                        Return 1 (RVal (2 ^ 32 - 1)); Return 0 (RVal (-5))] /\ amem s 16 = 2 ^ 64 - 4
  | None => False end.
Proof. vm_compute. split; reflexivity. Qed.
Example kuser_run : match asm_run (knext true) (k_code_of (fun _ => i64)) (asm_init m0)
    ([mk_label 0%nat (Some (16, WOp (ORmw (Add 1) SeqCst))) false] ++ repeat (tick 0%nat) 1 ++
     [mk_label 1%nat (Some (16, WOp (OStore (-5) SeqCst))) false] ++ repeat (tick 1%nat) 4 ++ repeat (tick 0%nat) 6) with
  | Some (s, h) => h = [Call 0 16 (WOp (ORmw (Add 1) SeqCst)); Call 1 16 (WOp (OStore (-5) SeqCst));
                        Return 1 RUnit; Return 0 (RVal (-5))] /\ amem s 16 = 2 ^ 64 - 4
  | None => False end.
Proof. vm_compute. split; reflexivity. Qed.
(** a closure that counts its calls: Some (x + number of earlier calls), None from the third call on *)
Definition f3 (hist : list Z) (x : Z) : option Z := if (length hist <? 2)%nat then Some (x + Z.of_nat (length hist)) else None.
Example fetch_update_run : match asm_run cnext (c_code_of (mk_cfg false false) (fun _ => mk_ity 8 true)) (asm_init (fun _ => 250))
    ([mk_label 0%nat (Some (16, UFetchUpdate f3 SeqCst Acquire)) false] ++ repeat (tick 0%nat) 1 ++
     [mk_label 1%nat (Some (16, UOp (WOp (ORmw Neg SeqCst)))) false] ++ repeat (tick 1%nat) 3 ++ repeat (tick 0%nat) 3) with
  | Some (s, h) => h = [Call 0 16 (UFetchUpdate f3 SeqCst Acquire); Call 1 16 (UOp (WOp (ORmw Neg SeqCst)));
                        Return 1 (RVal (-6)); Return 0 (ROk 6)] /\ amem s 16 = 7
  | None => False end.
Proof. vm_compute. split; reflexivity. Qed.

Print Assumptions C11_riscv_atomic.
Print Assumptions C11_riscv_never_stuck.
Print Assumptions C11_riscv_total.
Print Assumptions C12_fetch_update_atomic.
Print Assumptions C12_fetch_update_never_stuck.
Print Assumptions C12_fetch_update_total.
Print Assumptions C12_core_ops_total.
Print Assumptions C14_kuser_atomic.
Print Assumptions C14_kuser_never_stuck.
Print Assumptions C14_kuser_total.
Print Assumptions C13_x86_lock_free.
Print Assumptions C13_s390x_lock_free.
Print Assumptions C13_power_lock_free.
Print Assumptions C13_riscv_lock_free.
Print Assumptions C13_kuser_lock_free.
Print Assumptions C13_core_lock_free.
Print Assumptions C13_x86_solo.
Print Assumptions C13_s390x_solo.
Print Assumptions C13_power_solo.
Print Assumptions C13_riscv_solo.
Print Assumptions C13_kuser_solo.
Print Assumptions C13_core_solo.
Print Assumptions C13_failures_bounded.
Print Assumptions C13_two_attempts.
Print Assumptions C13_write_completes.
