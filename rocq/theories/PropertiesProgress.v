(** * C55: retrying fetch_updates cannot keep everybody from finishing

    Setting as for C49 and C54.  [few_before_progress], [few_before_progress_strong], [lock_free]: ProgressSpec. *)
From Coq Require Import ZArith List Bool Lia.
From Verif Require Import Words Spec.
From Verif Require FallbackModel FallbackFacts FallbackMain PropertiesFallback.
From Verif Require Import WideSpec LoopModel AsmModel BlockModel ByteMem ByteSpec FrontSpec FloatSpec UpdateSpec CoreModel.
From Verif Require X86Model S390xModel PowerModel Aarch64Model ZacasModel KuserModel IntrinsicsModel FrontModel FrontMain RiscvModel IntModel CsSpec CsModel.
From Verif Require PropertiesX86 PropertiesS390x PropertiesPower PropertiesAarch64 PropertiesLoops PropertiesIntrinsics PropertiesFront PropertiesInt PropertiesCs.
From Verif Require Import ClientSpec ClientModel PropertiesClient EvalSpec PropertiesEval ProgressSpec.
From Verif Require ProgressProofs.
Import ListNotations.
Open Scope Z_scope.

(** ** Around any backend whose operations behave as [sem] says *)
Theorem C55_any_backend : forall Op Res (sem : Z -> Op -> Z -> Z * Res -> Prop) (F : iface Op Res) reads St progs ls c tr init fin,
  iface_ok sem F -> reads_only reads sem -> client_run F St (client_init St progs) ls = Some (c, tr) ->
  linearizable_to sem init (base_of tr) fin -> few_before_progress tr.
Proof. intros Op Res sem F reads St progs ls c tr init fin FO RO R L. exact (ProgressProofs.client_progress sem F FO reads RO St progs ls c tr init fin R L). Qed.
(** ... and whose compare_exchange_weak never fails for no reason *)
Theorem C55_any_strong_backend : forall Op Res (sem : Z -> Op -> Z -> Z * Res -> Prop) (F : iface Op Res) reads St progs ls c tr init fin,
  iface_ok sem F -> reads_only reads sem -> never_for_no_reason sem F -> client_run F St (client_init St progs) ls = Some (c, tr) ->
  linearizable_to sem init (base_of tr) fin -> few_before_progress_strong tr /\ lock_free tr.
Proof.
  intros Op Res sem F reads St progs ls c tr init fin FO RO Sg R L.
  split; [exact (ProgressProofs.client_progress_strong sem F FO reads RO St progs ls c tr init fin Sg R L)|exact (ProgressProofs.client_lock_free sem F FO reads RO St progs ls c tr init fin Sg R L)].
Qed.
(** Among [k] concurrent fetch_updates, more than k * (k + 1) calls of closures do not go by without an operation returning. *)
Theorem C55_somebody_finishes : forall Op Res (tr : list (cevent Op Res)) tr1 tr2 tr3 ids, lock_free tr -> tr = tr1 ++ tr2 ++ tr3 ->
  (forall j, open_after (tr1 ++ tr2) j <> None -> In j ids) -> (length ids * (1 + length ids) < all_evals tr2)%nat ->
  ~ forall j r, ~ In (High (Return j r)) tr2.
Proof. intros Op Res tr tr1 tr2 tr3 ids L E C G NR. pose proof (L tr1 tr2 tr3 ids E NR C). lia. Qed.

(** ** On each backend *)
(** *** The crate's own 128-bit and 64-bit implementations *)
Section Wide.
  Variables (St : Type) (ty : Z -> ity) (progs : nat -> prog wop res St) (ls' : list (nat * option res))
    (c : cstate (Op := wop) (Res := res) St) (tr : list (cevent wop res)) (m : Z -> Z).
  Hypothesis run : client_run (wide_iface ty) St (client_init St progs) ls' = Some (c, tr).
  Hypothesis sizes : forall a, 0 < ibits (ty a).
  Hypothesis Hm : mem_ok ty m.
  Lemma wide_progress s : atomic_history ty m (base_of tr) s -> few_before_progress tr.
  Proof. intros H. exact (C55_any_backend _ _ (sem ty) (wide_iface ty) wide_reads St progs ls' c tr _ _ (wide_iface_ok ty) (wide_reads_ok ty) run H). Qed.
  Theorem C55_x86 : forall g junk ls s,
    asm_run X86Model.next (X86Model.code_of g ty junk) (asm_init m) ls = Some (s, base_of tr) -> few_before_progress tr.
  Proof. intros g junk ls s H. eapply wide_progress. eapply PropertiesX86.C11_x86_atomic; eauto. Qed.
  Theorem C55_s390x : forall g pm junk ls s, 0 <= pm < 16 -> S390xModel.cc_reg g <> S390xModel.R0 /\ S390xModel.cc_reg g <> S390xModel.R1 ->
    asm_run (bnext (S390xModel.exec1 pm) S390xModel.test S390xModel.access) (S390xModel.code_of g ty junk) (asm_init m) ls = Some (s, base_of tr) ->
    few_before_progress tr.
  Proof. intros g pm junk ls s P R H. eapply wide_progress. eapply PropertiesS390x.C11_s390x_atomic; eauto. Qed.
  Theorem C55_power : forall g junk ls s,
    asm_run (bnext PowerModel.exec1 PowerModel.test PowerModel.access) (PowerModel.code_of g ty junk) (asm_init m) ls = Some (s, base_of tr) ->
    few_before_progress tr.
  Proof. intros g junk ls s H. eapply wide_progress. eapply PropertiesPower.C11_power_atomic; eauto. Qed.
  Theorem C55_aarch64 : forall g h junk ls s, Aarch64Model.sound g h ->
    asm_run (bnext Aarch64Model.exec1 Aarch64Model.test (Aarch64Model.access (Aarch64Model.be g) h)) (Aarch64Model.code_of g h ty junk) (asm_init m) ls = Some (s, base_of tr) ->
    few_before_progress tr.
  Proof. intros g h junk ls s SO H. eapply wide_progress. eapply PropertiesAarch64.C11_aarch64_atomic; eauto. Qed.
  Theorem C55_riscv : forall w ls s, w = 64 \/ w = 32 ->
    asm_run (ZacasModel.znext w) (ZacasModel.z_code_of w ty) (asm_init m) ls = Some (s, base_of tr) -> few_before_progress tr.
  Proof. intros w ls s W H. eapply wide_progress. eapply PropertiesLoops.C11_riscv_atomic; eauto. Qed.
  Theorem C55_kuser : forall be ls s,
    asm_run (KuserModel.knext be) (KuserModel.k_code_of ty) (asm_init m) ls = Some (s, base_of tr) -> few_before_progress tr.
  Proof. intros be ls s H. eapply wide_progress. eapply PropertiesLoops.C14_kuser_atomic; eauto. Qed.
  Theorem C55_intrinsics : forall g ls s,
    asm_run (IntrinsicsModel.inext g) (IntrinsicsModel.i_code_of g ty) (asm_init m) ls = Some (s, base_of tr) -> few_before_progress tr.
  Proof. intros g ls s H. eapply wide_progress. eapply PropertiesIntrinsics.C11_intrinsics_atomic; eauto. Qed.
End Wide.
(** *** core's atomics *)
Theorem C55_core : forall St ty progs ls' (c : cstate (Op := uop) (Res := res) St) tr m g ls s,
  client_run (core_iface ty) St (client_init St progs) ls' = Some (c, tr) -> (forall a, 0 < ibits (ty a)) -> mem_ok ty m ->
  asm_run cnext (c_code_of g ty) (asm_init m) ls = Some (s, base_of tr) -> few_before_progress tr.
Proof.
  intros St ty progs ls' c tr m g ls s R W M H. eapply (C55_any_backend _ _ (usem ty) (core_iface ty) core_reads St progs ls' c tr _ _ (core_iface_ok ty) (core_reads_ok ty) R).
  exact (PropertiesLoops.C12_fetch_update_atomic g ty m ls s (base_of tr) W M H).
Qed.
(** *** AtomicBool, AtomicPtr, floats and integers, side by side *)
Theorem C55_all_types : forall St kd progs ls' (c : cstate (Op := pop) (Res := pres) St) tr m g ev ls s,
  client_run (front_iface kd) St (client_init St progs) ls' = Some (c, tr) ->
  (forall a, kind_ok (kd a)) -> FrontMain.float_unit kd ev -> pmem_ok kd m ->
  asm_run FrontModel.fnext (FrontModel.p_code_of ev g kd) (asm_init m) ls = Some (s, base_of tr) -> few_before_progress tr.
Proof.
  intros St kd progs ls' c tr m g ev ls s R K U M H.
  eapply (C55_any_backend _ _ (psem kd (ieee kd)) (front_iface kd) public_reads St progs ls' c tr _ _ (front_iface_ok kd _) (public_reads_ok kd _) R).
  exact (PropertiesFront.C18_bool_atomic g kd ev m ls s (base_of tr) K U M H).
Qed.
(** *** The lock-based fallback (whose operations wait for each other: what is lock-free is the retrying around them) *)
Theorem C55_fallback : forall St cf progs ls' (c : cstate (Op := op) (Res := res) St) tr m ls s,
  client_run (fallback_iface cf) St (client_init St progs) ls' = Some (c, tr) ->
  FallbackModel.wf_config cf -> FallbackModel.wf_mem cf m ->
  FallbackModel.run cf (FallbackModel.init m) ls = Some (s, base_of tr) -> FallbackModel.windows_ok cf (FallbackModel.init m) ls ->
  few_before_progress_strong tr /\ lock_free tr.
Proof.
  intros St cf progs ls' c tr m ls s R WF WM H W.
  apply (C55_any_strong_backend _ _ (FallbackModel.atomic_var cf) (fallback_iface cf) is_load St progs ls' c tr (FallbackModel.var_value cf m) (fun _ => None)
           (fallback_iface_ok cf) (fallback_reads_ok cf) (fallback_strong cf) R).
  destruct (FallbackModel.wide cf) eqn:E.
  - destruct (PropertiesFallback.C02_fallback_wide_linearizable cf m ls s _ E WF WM H W) as [a A]. exists a. split; [exact A|discriminate].
  - destruct (PropertiesFallback.C01_fallback_linearizable cf m ls s _ E WF WM H W) as [a A]. exists a. split; [exact A|discriminate].
Qed.
(** *** Interrupts disabled around every operation *)
Theorem C55_interrupt : forall St vars progs ls' (c : cstate (Op := bop) (Res := res) St) tr ar be rd wr m s0 ls s h,
  client_run (byte_iface vars) St (client_init St progs) ls' = Some (c, tr) ->
  IntMain.arch_ok ar be vars -> layout_ok vars -> PropertiesInt.reads_all_bytes rd -> PropertiesInt.writes_exactly wr -> byte_mem m ->
  IntModel.irun ar be vars rd wr (IntModel.iinit m s0) ls = Some (s, h) -> IntModel.history h = base_of tr ->
  few_before_progress_strong tr /\ lock_free tr.
Proof.
  intros St vars progs ls' c tr ar be rd wr m s0 ls s h R AO LO RO WO M H E.
  eapply (C55_any_strong_backend _ _ (byte_sem vars) (byte_iface vars) byte_reads St progs ls' c tr _ _ (byte_iface_ok vars) (byte_reads_ok vars) (byte_strong vars) R). rewrite <- E.
  exact (PropertiesInt.C20_interrupt_atomic ar be vars rd wr m s0 ls s h AO LO RO WO M H).
Qed.
(** *** The critical-section feature *)
Theorem C55_critical_section : forall St vars progs ls' (c : cstate (Op := bop) (Res := res) St) tr be rd wr m ls s,
  client_run (byte_iface vars) St (client_init St progs) ls' = Some (c, tr) ->
  layout_ok vars -> PropertiesCs.reads_all_bytes rd -> PropertiesCs.writes_exactly wr -> byte_mem m ->
  CsModel.mruns CsModel.Feature be vars rd wr (CsModel.minit m) ls = Some (s, base_of tr) ->
  few_before_progress_strong tr /\ lock_free tr.
Proof.
  intros St vars progs ls' c tr be rd wr m ls s R LO RO WO M H.
  eapply (C55_any_strong_backend _ _ (byte_sem vars) (byte_iface vars) byte_reads St progs ls' c tr _ _ (byte_iface_ok vars) (byte_reads_ok vars) (byte_strong vars) R).
  exact (PropertiesCs.C39_critical_section_atomic be vars rd wr m ls s _ LO RO WO M H).
Qed.
(** *** ESP32 and ESP32-S3 *)
Theorem C55_psram : forall St vars progs ls' (c : cstate (Op := bop) (Res := res) St) tr ch cs be rd wr m ls s,
  client_run (byte_iface vars) St (client_init St progs) ls' = Some (c, tr) ->
  PropertiesCs.narrow vars -> layout_ok vars -> PropertiesCs.reads_all_bytes rd -> PropertiesCs.writes_exactly wr -> byte_mem m ->
  CsModel.mruns (CsModel.Esp ch cs) be vars rd wr (CsModel.minit m) ls = Some (s, base_of tr) ->
  few_before_progress tr.
Proof.
  intros St vars progs ls' c tr ch cs be rd wr m ls s R N LO RO WO M H.
  eapply (C55_any_backend _ _ (weak_byte_sem vars) (byte_iface vars) byte_reads St progs ls' c tr _ _ (weak_byte_iface_ok vars) (weak_byte_reads_ok vars) R).
  exact (PropertiesCs.C40_psram_atomic ch cs be vars rd wr m ls s _ N LO RO WO M H).
Qed.

(** ** The hypotheses are met: two threads increment the byte at 0 with fetch_update; both read 0, thread 0 wins, thread 1 tries again. *)
Definition race_progs (t : nat) : prog bop res unit :=
  if (t <? 2)%nat then Update 0 SeqCst SeqCst tt (fun _ x => Ret tt (Some (x + 1))) (fun _ _ => Ret tt None) else Ret tt None.
Definition race_ls : list (nat * option res) :=
  [(0, None); (0, Some (RVal 0)); (1, None); (1, Some (RVal 0)); (0, None); (0, Some (ROk 0)); (1, None); (1, Some (RErr 1)); (1, None); (1, Some (ROk 1))]%nat.
Definition race_tr : list (cevent bop res) := match client_run (byte_iface self_vars) unit (client_init unit race_progs) race_ls with Some (_, tr) => tr | None => [] end.
Definition race_machine : list CsModel.mlabel :=
  flat_map (fun e => match e with Call t a o => [CsModel.MCall t a o] | Return t r => repeat (CsModel.MStep t false) (match r with ROk _ => 8 | _ => 6 end) end) (base_of race_tr).
Example race_lock_free : few_before_progress_strong race_tr /\ lock_free race_tr.
Proof.
  assert (R : exists c, client_run (byte_iface self_vars) unit (client_init unit race_progs) race_ls = Some (c, race_tr)).
  { unfold race_tr. destruct (client_run (byte_iface self_vars) unit (client_init unit race_progs) race_ls) as [[c tr]|] eqn:Q; [eauto|]. exfalso.
    assert (T : match client_run (byte_iface self_vars) unit (client_init unit race_progs) race_ls with Some _ => true | None => false end = true) by (vm_compute; reflexivity).
    rewrite Q in T. discriminate T. }
  assert (M : match CsModel.mruns CsModel.Feature false self_vars (seq 0) (seq 0) (CsModel.minit (fun _ => 0)) race_machine with Some (_, h) => h = base_of race_tr | None => False end)
    by (vm_compute; reflexivity).
  destruct R as [c R]. destruct (CsModel.mruns _ _ _ _ _ _ _) as [[s h]|] eqn:E; [|contradiction M]. subst h.
  apply (C55_critical_section unit self_vars race_progs race_ls c race_tr false (seq 0) (seq 0) (fun _ => 0) race_machine s R) with (5 := E).
  - exact self_layout.
  - intros n i L. apply in_seq. lia.
  - exact (proj2 (proj2 (proj2 PropertiesCs.vars1_ok))).
  - intros x. cbn. lia.
Qed.
(** Between the two calls and thread 0's return both closures are called once (the bound is 6); after it, thread 1's once more. *)
Example race_counts :
  (exists tr2 tr3, race_tr = [] ++ tr2 ++ High (Return (id 0 0) (HOk 0 1)) :: tr3 /\ all_evals tr2 = 2%nat /\ all_evals tr3 = 1%nat /\
     (forall j r, ~ In (High (Return j r)) tr2) /\ forall j, open_after ([] ++ tr2) j <> None -> In j [id 0 0; id 1 0]) /\
  List.last race_tr (Base (Return 0%nat RUnit)) = High (Return (id 1 0) (HOk 1 2)).
Proof.
  split; [|vm_compute; reflexivity]. exists (firstn 11 race_tr), (skipn 12 race_tr).
  split; [vm_compute; reflexivity|]. split; [vm_compute; reflexivity|]. split; [vm_compute; reflexivity|]. split.
  - intros j r. vm_compute. intuition discriminate.
  - intros j. vm_compute. destruct j as [|[|[|j]]]; auto; intros X; exfalso; apply X; reflexivity.
Qed.

Print Assumptions C55_any_backend.
Print Assumptions C55_any_strong_backend.
Print Assumptions C55_somebody_finishes.
Print Assumptions C55_x86.
Print Assumptions C55_core.
Print Assumptions C55_all_types.
Print Assumptions C55_fallback.
Print Assumptions C55_interrupt.
Print Assumptions C55_critical_section.
Print Assumptions C55_psram.
Print Assumptions C55_s390x.
Print Assumptions C55_power.
Print Assumptions C55_aarch64.
Print Assumptions C55_riscv.
Print Assumptions C55_kuser.
Print Assumptions C55_intrinsics.
