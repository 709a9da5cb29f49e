(** * C31: the fences and instruction suffixes of each backend give the requested ordering

    [provides tso does]: every execution of every operation orders its accesses with everything the thread does
    before and after it as the requested ordering demands (TraceSpec.v); of a compare_exchange, the success
    or the failure ordering according to the result.  [does] gives the events of all executions of the
    backend's code, whatever memory answers (TraceBackends.v). *)
From Coq Require Import ZArith List Bool Relations Lia.
From Verif Require Import Words Spec WideSpec LoopModel AsmModel BlockModel OrderingModel
  TraceSpec TraceModel TraceFacts TraceCheck TraceBackends TracePower TraceUnit TraceS390x TraceAarch64 TraceRest TraceExec.
From Verif Require PowerModel S390xModel Aarch64Model X86Model ZacasModel KuserModel.
Import ListNotations.

Theorem C31_power_fences : forall g ty junk, provides false (Power.does g ty junk).
Proof. intros. apply (meets_provides false Lead). apply PowerP.power_meets. Qed.
Theorem C31_power_sync_between : forall g ty junk, seqcst_separated (Power.does g ty junk).
Proof. exact PowerP.power_separated. Qed.
Theorem C31_s390x_fences : forall g pm ty junk, provides true (S390x.does g pm ty junk).
Proof. intros. apply (meets_provides true Trail). apply S390xP.s390x_meets. Qed.
(** for every CPU, also where the 128-bit loads are two separate 64-bit reads *)
Theorem C31_aarch64_fences : forall g h ty junk, provides false (Aarch64.does g h ty junk).
Proof. intros. apply (meets_provides false Mixed). apply Aarch64P.aarch64_meets. Qed.
Theorem C31_x86_64_fences : forall g ty junk, provides true (X86.does g ty junk).
Proof. intros. apply (meets_provides true Trail). apply X86P.x86_meets. Qed.
Theorem C31_riscv_zacas_fences : forall xlen detected ty, provides false (Zacas.does xlen detected ty).
Proof. intros. apply (meets_provides false Mixed). apply ZacasP.zacas_meets. Qed.
Theorem C31_kuser_fences : forall be ty, provides false (Kuser.does be ty).
Proof. intros. apply (meets_provides false Trail). apply KuserP.kuser_meets. Qed.
Theorem C31_riscv_amo_fences : provides false Riscv.does.
Proof. apply (meets_provides false Mixed). apply riscv_meets. Qed.
Theorem C31_arm_linux_fences : provides false ArmLinux.does.
Proof. apply (meets_provides false Trail). apply arm_linux_meets. Qed.

(** ** The specification asks for something: none of these event sequences would do. *)
Lemma ppo_lt tso tr i j : ppo tso tr i j -> (i < j)%nat.
Proof. destruct 1; lia. Qed.
Lemma ordered_lt tso tr i j : ordered tso tr i j -> (i < j)%nat.
Proof. induction 1; [eapply ppo_lt; eauto|lia]. Qed.
Lemma ordered_next tso tr i : ordered tso tr i (S i) -> ppo tso tr i (S i).
Proof.
  intros H. remember (S i) as j eqn:E. destruct H as [j H|k j H1 H2]; [exact H|].
  apply ordered_lt in H1, H2. lia.
Qed.
Example relaxed_load_does_not_acquire : ~ acquires false [Rd true true ANone].
Proof.
  intros H. specialize (H [] [Rd true true ANone] 0%nat 0%nat). cbn in H. apply ordered_next in H.
  - destruct H; cbn in *; try lia; try discriminate; congruence.
  - exists true, true, ANone. split; [reflexivity|]. left. split; [reflexivity|].
    intros [|j] ? ? ? L E; [lia|destruct j; discriminate E].
  - exists (Rd true true ANone). split; reflexivity.
Qed.
Example relaxed_store_does_not_release : ~ releases false [Wr false].
Proof.
  intros H. specialize (H [Rd true true ANone] [] 0%nat 0%nat). cbn in H. apply ordered_next in H.
  - destruct H; cbn in *; try lia; try discriminate; congruence.
  - exists (Rd true true ANone). split; reflexivity.
  - exists false. reflexivity.
Qed.
(** x86-TSO without a fence after the store (message passing works, store buffering does not) *)
Example store_load_reorder : ~ stay_in_order true [Wr false] [Rd true true ANone].
Proof.
  intros H. specialize (H [] [] [] 0%nat 0%nat). cbn in H. apply ordered_next in H.
  - destruct H; cbn in *; try lia; try discriminate; try congruence.
    injection H1 as <-. injection H2 as <-. specialize (H5 eq_refl). discriminate H5.
  - right. exists false. reflexivity.
  - left. exists true, true, ANone. split; [reflexivity|]. left. split; [reflexivity|].
    intros [|j] ? ? ? L E; [lia|destruct j; discriminate E].
Qed.

(** Power: lwsync between two SeqCst writes keeps them in order but does not separate them *)
Example lwsync_does_not_separate : ~ separated [Wr false] [Fence true true false true; Wr false].
Proof.
  intros H. destruct (H [] [] [] 0%nat 1%nat) as (k & L & E).
  - right. exists false. reflexivity.
  - right. exists false. reflexivity.
  - cbn in L. assert (k = 1%nat) by lia. subst k. discriminate E.
Qed.

(** ** Executions exist. *)
Definition u128 (_ : Z) : ity := mk_ity 128 false.
(** Power: SeqCst compare_exchange whose first store-conditional fails *)
Definition pjunk (_ : Z) (_ : wop) : PowerModel.st :=
  PowerModel.mk_st (fun _ => 0%Z) (PowerModel.mk_crf false false false) (PowerModel.mk_crf false false false) false false 0.
Example power_cas_events :
  Power.does (PowerModel.mk_target false true) u128 pjunk (WOp (OCas 5 7 SeqCst Acquire))
    [full; Rd true true ANone; Branch; Branch; Rd true true ANone; Branch; Wr false; Branch; Isync] (ROk 5).
Proof.
  exists 16%Z. eapply (run_of_completes _ _ 100 [(5, true); (0, false); (5, true); (0, true)]%Z). vm_compute. reflexivity.
Qed.
(** ... and a failing one with success ordering Acquire: no acquire fence, none is asked for *)
Example power_failed_cas_events :
  Power.does (PowerModel.mk_target false true) u128 pjunk (WOp (OCas 5 7 Acquire Relaxed))
    [Rd true true ANone; Branch] (RErr 6).
Proof. exists 16%Z. eapply (run_of_completes _ _ 100 [(6, true)]%Z). vm_compute. reflexivity. Qed.
(** aarch64: SeqCst swap by ldaxp/stlxp of two 64-bit reads, one retry, with the MSVC fence; SeqCst load with FEAT_LRCPC3 *)
Definition ajunk (_ : Z) (_ : wop) : Aarch64Model.st := Aarch64Model.mk_st (fun _ => 0%Z) false false false false.
Example aarch64_swap_events :
  Aarch64.does (Aarch64Model.mk_target false true false false false false false false false false false false false)
    (Aarch64Model.mk_hw false false false false false true) u128 ajunk (WOp (ORmw (Swap 9) SeqCst))
    [Rd false true ASc; Rd true false ASc; Branch; Rd false true ASc; Rd true false ASc; Wr true; Branch; full] (RVal 5).
Proof.
  exists 16%Z. eapply (run_of_completes _ _ 100 [(0, true); (5, true); (0, false); (0, true); (5, true); (0, true)]%Z).
  vm_compute. reflexivity.
Qed.
Example aarch64_load_events :
  Aarch64.does (Aarch64Model.mk_target false false false true true true true false false true true true true)
    (Aarch64Model.mk_hw true true true true true true) u128 ajunk (WOp (OLoad SeqCst))
    [Rd true false ASc; Rd true true APc] (RVal 5).
Proof. exists 16%Z. eapply (run_of_completes _ _ 100 [(3, true); (5, true)]%Z). vm_compute. reflexivity. Qed.
(** s390x and x86_64: SeqCst store *)
Example s390x_store_events :
  S390x.does (S390xModel.mk_target true true true false S390xModel.Other) 0 u128 (fun _ _ => S390xModel.mk_st (fun _ => 0%Z) 0)
    (WOp (OStore 3 SeqCst)) [Wr false; full] RUnit.
Proof. exists 16%Z. eapply (run_of_completes _ _ 100 [(3, true)]%Z). vm_compute. reflexivity. Qed.
Example x86_store_events :
  X86.does (X86Model.mk_target false false true) u128 (fun _ _ => X86Model.mk_st (fun _ => 0%Z) false false false false)
    (WOp (OStore 3 SeqCst)) [Wr false; full] RUnit.
Proof. exists 16%Z. eapply (run_of_completes _ _ 100 [(3, true)]%Z). vm_compute. reflexivity. Qed.
(** Zacas: fetch_add that retries once; kuser: the same *)
Example zacas_add_events :
  Zacas.does 64 false u128 (WOp (ORmw (Add 1) SeqCst))
    [Rd true false ANone; Rd false true ANone; Rd true true APc; Rd true true ASc; Wr true] (RVal 5).
Proof. exists 16%Z. eapply (run_of_completes _ _ 100 [(4, true); (0, true); (5, true); (5, true)]%Z). vm_compute. reflexivity. Qed.
Example kuser_add_events :
  Kuser.does false (fun _ => mk_ity 64 false) (WOp (ORmw (Add 1) SeqCst))
    [Rd true false ANone; Rd false true ANone; Rd true true ANone; Rd true false ANone; Rd false true ANone;
     full; Rd true true ANone; Wr false; full] (RVal 5).
Proof.
  exists 16%Z. eapply (run_of_completes _ _ 100 [(4, false); (0, true); (5, false); (5, true); (0, true); (5, false)]%Z).
  vm_compute. reflexivity.
Qed.
Example riscv_store_events : Riscv.does (WOp (OStore 3 SeqCst)) [Fence false true false true; Wr false; full] RUnit.
Proof. eexists. split; reflexivity. Qed.
Example arm_linux_cas_events : ArmLinux.does (WOp (OCas 1 2 Relaxed SeqCst)) [Rd true true ANone; full] (RErr 3).
Proof. exists false. split; [reflexivity|]. split; [eauto|reflexivity]. Qed.

Print Assumptions C31_power_fences.
Print Assumptions C31_power_sync_between.
Print Assumptions C31_s390x_fences.
Print Assumptions C31_aarch64_fences.
Print Assumptions C31_x86_64_fences.
Print Assumptions C31_riscv_zacas_fences.
Print Assumptions C31_kuser_fences.
Print Assumptions C31_riscv_amo_fences.
Print Assumptions C31_arm_linux_fences.
