(** * C49: fetch_update on every backend, with closures that do anything

    [client_run F St (client_init St progs) ls' = Some (c, tr)]: threads running arbitrary programs [progs], interleaved in
    any way, produce the events [tr]; [base_of tr] are the calls and returns at the backend.  For each backend: if its
    machine can produce that history, the program's own history is one in which every operation, fetch_update included,
    takes effect indivisibly. *)
From Coq Require Import ZArith List Bool Lia.
From Verif Require Import Words Spec.
From Verif Require FallbackModel FallbackFacts FallbackMain PropertiesFallback.
From Verif Require Import WideSpec LoopModel AsmModel BlockModel ByteMem ByteSpec FrontSpec FloatSpec UpdateSpec CoreModel.
From Verif Require X86Model S390xModel PowerModel Aarch64Model ZacasModel KuserModel IntrinsicsModel FrontModel FrontMain RiscvModel IntModel CsSpec CsModel.
From Verif Require PropertiesX86 PropertiesS390x PropertiesPower PropertiesAarch64 PropertiesLoops PropertiesIntrinsics PropertiesFront PropertiesInt PropertiesCs.
From Verif Require Import ClientSpec ClientModel ClientProofs.
Import ListNotations.
Open Scope Z_scope.

(** Every operation of the programs takes effect indivisibly at one moment between its call and its return - for a
    fetch_update that returns Ok(x): the value goes from x to the closure's answer for x; Err(x) or a panic: no
    change, for Err(x) the value is x at that moment -; the results are those the closures' last answers demand; and the backend is called only
    as documented. *)
Definition updates_atomic {Op Res} (sem : Z -> Op -> Z -> Z * Res -> Prop) (F : iface Op Res) (init : Z -> Z) (tr : list (cevent Op Res)) (fin : Z -> option Z) : Prop :=
  linearizable_to (hsem sem) init (high_of tr) fin /\ answers_ok (fun _ => Never) tr /\ calls_ok F (fun _ => Never) None tr.

(** ** The interfaces *)
Definition got_res (r : res) : option Z := match r with RVal v => Some v | _ => None end.
Definition swapped_res (r : res) : option (bool * Z) := match r with ROk v => Some (true, v) | RErr v => Some (false, v) | _ => None end.
(** integers of type [ty a] at [a] *)
Definition wide_iface (ty : Z -> ity) : iface wop res :=
  mk_iface (fun _ o => WOp (OLoad o)) (fun _ c n s f => WCasWeak c n s f) got_res swapped_res (fun a => in_rangeb (ty a)) (fun _ _ => true).
Definition core_iface (ty : Z -> ity) : iface uop res :=
  mk_iface (fun _ o => UOp (WOp (OLoad o))) (fun _ c n s f => UOp (WCasWeak c n s f)) got_res swapped_res (fun a => in_rangeb (ty a)) (fun _ _ => true).
(** fallback/mod.rs:297-305 [compare_exchange_weak] is [compare_exchange] *)
Definition fallback_iface (c : FallbackModel.config) : iface op res :=
  mk_iface (fun _ o => OLoad o) (fun _ c n s f => OCas c n s f) got_res swapped_res
    (fun a n => match FallbackModel.objs c a with Some t => in_rangeb t n | None => false end) (fun _ _ => true).
Definition byte_iface (vars : layout) : iface bop res :=
  mk_iface (fun _ o => BOp (OLoad o)) (fun _ c n s f => BCasWeak c n s f) got_res swapped_res
    (fun a n => match vars a with Some t => in_rangeb t n | None => false end) (fun _ _ => true).
(** the public types: integers, bool (as 0 and 1), pointers, floats (as bit patterns) *)
Definition front_iface (kd : Z -> kind) : iface pop pres :=
  mk_iface
    (fun a o => match kd a with KInt _ | KPtr _ _ => Plain (OLoad o) | KBool => BoolLoad o | KFloat _ _ => FlLoad o end)
    (fun a c n s f => match kd a with
                      | KInt _ | KPtr _ _ => PlainCasWeak c n s f
                      | KBool => BoolCasWeak (c =? 1) (n =? 1) s f
                      | KFloat _ _ => FlCasWeak c n s f end)
    (fun r => match r with PPlain (RVal v) | PVal v => Some v | PBool b => Some (Z.b2z b) | _ => None end)
    (fun r => match r with
              | PPlain (ROk v) | POk v => Some (true, v) | PPlain (RErr v) | PErr v => Some (false, v)
              | POkB b => Some (true, Z.b2z b) | PErrB b => Some (false, Z.b2z b) | _ => None end)
    (fun a n => match kd a with
                | KInt t => in_rangeb t n
                | KBool => (n =? 0) || (n =? 1)
                | KPtr w _ => (0 <=? n) && (n <? 2 ^ w)
                | KFloat mw ew => (0 <=? n) && (n <? 2 ^ (1 + mw + ew)) end)
    (fun a n => match kd a with KBool => (n =? 0) || (n =? 1) | _ => true end).

Lemma load_meaning t o x : spec_op t (OLoad o) x = (x, RVal x) \/ spec_op t (OLoad o) x = (x, RPanic) /\ load_panics o.
Proof. unfold load_panics. destruct o; cbn; auto. Qed.
Lemma cas_meaning t c n s f x :
  (x = c /\ spec_op t (OCas c n s f) x = (n, ROk x)) \/ spec_op t (OCas c n s f) x = (x, RErr x) \/
  spec_op t (OCas c n s f) x = (x, RPanic) /\ load_panics f.
Proof. unfold load_panics. destruct f; cbn; auto; destruct (Z.eqb_spec x c); auto. Qed.

Ltac by_load H := destruct H as [H|[H ?]]; rewrite H; intros E; injection E as -> ->; cbn; auto.
Lemma wide_iface_ok ty : iface_ok (sem ty) (wide_iface ty).
Proof.
  split; cbn [op_load op_cas got swapped wide_iface sem].
  - intros a fo x x' r. destruct (load_meaning (ty a) fo x) as [->|[-> P]]; intros E; injection E as -> ->; cbn; auto.
  - intros a c n so fo x x' r _ _ [E|E]; [|injection E as -> ->; cbn; auto]. revert E.
    destruct (cas_meaning (ty a) c n so fo x) as [[-> ->]|[->|[-> P]]]; intros E; injection E as -> ->; cbn; auto.
Qed.
Lemma core_iface_ok ty : iface_ok (usem ty) (core_iface ty).
Proof. split; [exact (proj1 (wide_iface_ok ty))|exact (proj2 (wide_iface_ok ty))]. Qed.
Lemma fallback_iface_ok c : iface_ok (FallbackModel.atomic_var c) (fallback_iface c).
Proof.
  split; cbn [op_load op_cas got swapped fallback_iface].
  - intros a fo x x' r (t & _ & E). revert E. destruct (load_meaning t fo x) as [->|[-> P]]; intros E; injection E as -> ->; cbn; auto.
  - intros a cu n so fo x x' r _ _ (t & _ & E). revert E.
    destruct (cas_meaning t cu n so fo x) as [[-> ->]|[->|[-> P]]]; intros E; injection E as -> ->; cbn; auto.
Qed.
Definition weak_byte_sem (vars : layout) (a : Z) (o : bop) (x : Z) (out : Z * res) : Prop :=
  exists t, vars a = Some t /\ (out = bsem t o x \/ (exists cu nw su fa, o = BCasWeak cu nw su fa) /\ out = (x, RErr x)).
Definition byte_sem (vars : layout) (a : Z) (o : bop) (x : Z) (out : Z * res) : Prop := exists t, vars a = Some t /\ out = bsem t o x.
Lemma weak_byte_iface_ok vars : iface_ok (weak_byte_sem vars) (byte_iface vars).
Proof.
  split; cbn [op_load op_cas got swapped byte_iface].
  - intros a fo x x' r (t & _ & [E|[(? & ? & ? & ? & E) _]]); [|discriminate E]. revert E. cbn [bsem].
    destruct (load_meaning t fo x) as [->|[-> P]]; intros E; injection E as -> ->; cbn; auto.
  - intros a cu n so fo x x' r _ _ (t & _ & [E|[_ E]]); [|injection E as -> ->; cbn; auto]. revert E. cbn [bsem].
    destruct (cas_meaning t cu n so fo x) as [[-> ->]|[->|[-> P]]]; intros E; injection E as -> ->; cbn; auto.
Qed.
Lemma byte_iface_ok vars : iface_ok (byte_sem vars) (byte_iface vars).
Proof.
  destruct (weak_byte_iface_ok vars) as [A B]. split.
  - intros a fo x x' r (t & V & E). apply A. exists t. auto.
  - intros a cu n so fo x x' r R T (t & V & E). apply (B a cu n so fo); auto. exists t. auto.
Qed.
Lemma front_iface_ok kd arith : iface_ok (psem kd arith) (front_iface kd).
Proof.
  split; cbn [op_load op_cas got swapped typed readable front_iface]; unfold psem.
  - intros a fo x x' r. destruct (kd a) as [t| |w sz|mw ew].
    + intros E. apply pair_equal_spec in E as [-> ->]. destruct (load_meaning t fo x) as [->|[-> P]]; cbn; auto.
    + intros (c & -> & E). injection E as -> ->. cbn. destruct c; auto.
    + intros E. apply pair_equal_spec in E as [-> ->]. destruct (load_meaning (mk_ity w false) fo x) as [->|[-> P]]; cbn; auto.
    + intros E. injection E as -> ->. auto.
  - intros a c n so fo x x' r R T. destruct (kd a) as [t| |w sz|mw ew].
    + intros [E|E]; [destruct (Z.eqb_spec x c) as [->|]|]; injection E as -> ->; cbn; auto.
    + assert (C : c = 0 \/ c = 1) by lia. assert (N : n = 0 \/ n = 1) by lia.
      intros (b & -> & [E|E]); [|injection E as -> ->; cbn; split; [reflexivity|]; split; [reflexivity|]; now destruct b].
      destruct C as [-> | ->], N as [-> | ->], b; cbn in E; injection E as -> ->; cbn; auto.
    + intros [E|E]; [destruct (Z.eqb_spec x c) as [->|]|]; injection E as -> ->; cbn; auto.
    + intros [E|E]; [destruct (Z.eqb_spec x c) as [->|]|]; injection E as -> ->; cbn; auto.
Qed.

(** ** C49 *)
(** Around any backend whose operations behave as [sem] says: *)
Theorem C49_any_backend : forall Op Res (sem : Z -> Op -> Z -> Z * Res -> Prop) (F : iface Op Res) St progs ls c tr init fin,
  iface_ok sem F -> client_run F St (client_init St progs) ls = Some (c, tr) ->
  linearizable_to sem init (base_of tr) fin -> updates_atomic sem F init tr fin.
Proof. intros Op Res sem F St progs ls c tr init fin FO H L. exact (client_correct sem F FO St progs ls c tr init fin H L). Qed.
(** No closure is ever called, or runs, inside an operation of the backend: no lock is held, no interrupt disabled, no
    reservation open that the closure, by using the same variable or panicking, could disturb. *)
Theorem C49_outside : forall Op Res (F : iface Op Res) St progs ls c tr,
  client_run F St (client_init St progs) ls = Some (c, tr) -> outside tr.
Proof. intros Op Res F St progs ls c tr. apply client_outside. Qed.

(** Every thread does what its program says: closures are called in the state their previous call left, and what a call
    returned is what the program goes on with; a panic in a closure comes out of the fetch_update that called it. *)
Theorem C49_follows : forall Op Res (F : iface Op Res) St progs ls c tr t,
  client_run F St (client_init St progs) ls = Some (c, tr) -> follows (progs t) t tr.
Proof. intros Op Res F St progs ls c tr t. apply client_follows. Qed.
(** No program ever gets stuck: one that is not waiting for the backend can go on (a closure's answer is of the variable's
    type), one that is can go on with whatever it is given. *)
Theorem C49_continues : forall Op Res (F : iface Op Res) St progs ls c tr t,
  client_run F St (client_init St progs) ls = Some (c, tr) ->
  match tmode St (c t), tframes St (c t) with
  | Run _ (Ret _ _), [] | Run _ (Unwind _), [] => True          (* the thread's program has ended *)
  | Run _ (Ret _ (Some y)), f :: _ => typed F (fa St f) y = true -> client_step F St c (t, None) <> None
  | Run _ _, _ => client_step F St c (t, None) <> None
  | _, _ => forall r, client_step F St c (t, Some r) <> None
  end.
Proof. intros Op Res F St progs ls c tr t. apply client_continues. Qed.

(** *** The crate's own 128-bit and 64-bit implementations *)
Section Wide.
  Variables (St : Type) (ty : Z -> ity) (progs : nat -> prog wop res St) (ls' : list (nat * option res))
    (c : cstate (Op := wop) (Res := res) St) (tr : list (cevent wop res)) (m : Z -> Z).
  Hypothesis run : client_run (wide_iface ty) St (client_init St progs) ls' = Some (c, tr).
  Hypothesis sizes : forall a, 0 < ibits (ty a).
  Hypothesis Hm : mem_ok ty m.
  Definition atomic_to (s : Z -> Z) : Prop :=
    updates_atomic (sem ty) (wide_iface ty) (fun a => of_bits (ty a) (m a)) tr (fun a => Some (of_bits (ty a) (s a))).
  Lemma wide_lift s : atomic_history ty m (base_of tr) s -> atomic_to s.
  Proof. intros H. exact (client_correct (sem ty) (wide_iface ty) (wide_iface_ok ty) St progs ls' c tr _ _ run H). Qed.
  Theorem C49_x86 : forall g junk ls s,
    asm_run X86Model.next (X86Model.code_of g ty junk) (asm_init m) ls = Some (s, base_of tr) -> atomic_to (amem s).
  Proof. intros g junk ls s H. apply wide_lift. eapply PropertiesX86.C11_x86_atomic; eauto. Qed.
  Theorem C49_s390x : forall g pm junk ls s, 0 <= pm < 16 -> S390xModel.cc_reg g <> S390xModel.R0 /\ S390xModel.cc_reg g <> S390xModel.R1 ->
    asm_run (bnext (S390xModel.exec1 pm) S390xModel.test S390xModel.access) (S390xModel.code_of g ty junk) (asm_init m) ls = Some (s, base_of tr) ->
    atomic_to (amem s).
  Proof. intros g pm junk ls s P R H. apply wide_lift. eapply PropertiesS390x.C11_s390x_atomic; eauto. Qed.
  Theorem C49_power : forall g junk ls s,
    asm_run (bnext PowerModel.exec1 PowerModel.test PowerModel.access) (PowerModel.code_of g ty junk) (asm_init m) ls = Some (s, base_of tr) ->
    atomic_to (amem s).
  Proof. intros g junk ls s H. apply wide_lift. eapply PropertiesPower.C11_power_atomic; eauto. Qed.
  Theorem C49_aarch64 : forall g h junk ls s, Aarch64Model.sound g h ->
    asm_run (bnext Aarch64Model.exec1 Aarch64Model.test (Aarch64Model.access (Aarch64Model.be g) h)) (Aarch64Model.code_of g h ty junk) (asm_init m) ls = Some (s, base_of tr) ->
    atomic_to (amem s).
  Proof. intros g h junk ls s SO H. apply wide_lift. eapply PropertiesAarch64.C11_aarch64_atomic; eauto. Qed.
  Theorem C49_riscv : forall w ls s, w = 64 \/ w = 32 ->
    asm_run (ZacasModel.znext w) (ZacasModel.z_code_of w ty) (asm_init m) ls = Some (s, base_of tr) -> atomic_to (amem s).
  Proof. intros w ls s W H. apply wide_lift. eapply PropertiesLoops.C11_riscv_atomic; eauto. Qed.
  Theorem C49_kuser : forall be ls s,
    asm_run (KuserModel.knext be) (KuserModel.k_code_of ty) (asm_init m) ls = Some (s, base_of tr) -> atomic_to (amem s).
  Proof. intros be ls s H. apply wide_lift. eapply PropertiesLoops.C14_kuser_atomic; eauto. Qed.
  Theorem C49_intrinsics : forall g ls s,
    asm_run (IntrinsicsModel.inext g) (IntrinsicsModel.i_code_of g ty) (asm_init m) ls = Some (s, base_of tr) -> atomic_to (amem s).
  Proof. intros g ls s H. apply wide_lift. eapply PropertiesIntrinsics.C11_intrinsics_atomic; eauto. Qed.
End Wide.

(** *** core's atomics *)
Theorem C49_core : forall St ty progs ls' (c : cstate (Op := uop) (Res := res) St) tr m g ls s,
  client_run (core_iface ty) St (client_init St progs) ls' = Some (c, tr) -> (forall a, 0 < ibits (ty a)) -> mem_ok ty m ->
  asm_run cnext (c_code_of g ty) (asm_init m) ls = Some (s, base_of tr) ->
  updates_atomic (usem ty) (core_iface ty) (fun a => of_bits (ty a) (m a)) tr (fun a => Some (of_bits (ty a) (amem s a))).
Proof.
  intros St ty progs ls' c tr m g ls s R W M H. apply (client_correct (usem ty) (core_iface ty) (core_iface_ok ty) St progs ls' c tr _ _ R).
  exact (PropertiesLoops.C12_fetch_update_atomic g ty m ls s (base_of tr) W M H).
Qed.

(** *** AtomicBool, AtomicPtr, floats and integers, side by side *)
Theorem C49_all_types : forall St kd progs ls' (c : cstate (Op := pop) (Res := pres) St) tr m g ev ls s,
  client_run (front_iface kd) St (client_init St progs) ls' = Some (c, tr) ->
  (forall a, kind_ok (kd a)) -> FrontMain.float_unit kd ev -> pmem_ok kd m ->
  asm_run FrontModel.fnext (FrontModel.p_code_of ev g kd) (asm_init m) ls = Some (s, base_of tr) ->
  updates_atomic (psem kd (ieee kd)) (front_iface kd) (fun a => kval (kd a) (m a)) tr (fun a => Some (kval (kd a) (amem s a))).
Proof.
  intros St kd progs ls' c tr m g ev ls s R K U M H.
  apply (client_correct (psem kd (ieee kd)) (front_iface kd) (front_iface_ok kd _) St progs ls' c tr _ _ R).
  exact (PropertiesFront.C18_bool_atomic g kd ev m ls s (base_of tr) K U M H).
Qed.

(** *** The lock-based fallback *)
Theorem C49_fallback : forall St cf progs ls' (c : cstate (Op := op) (Res := res) St) tr m ls s,
  client_run (fallback_iface cf) St (client_init St progs) ls' = Some (c, tr) ->
  FallbackModel.wf_config cf -> FallbackModel.wf_mem cf m ->
  FallbackModel.run cf (FallbackModel.init m) ls = Some (s, base_of tr) -> FallbackModel.windows_ok cf (FallbackModel.init m) ls ->
  updates_atomic (FallbackModel.atomic_var cf) (fallback_iface cf) (FallbackModel.var_value cf m) tr (fun _ => None).
Proof.
  intros St cf progs ls' c tr m ls s R WF WM H W.
  apply (client_correct (FallbackModel.atomic_var cf) (fallback_iface cf) (fallback_iface_ok cf) St progs ls' c tr _ _ R).
  destruct (FallbackModel.wide cf) eqn:E.
  - destruct (PropertiesFallback.C02_fallback_wide_linearizable cf m ls s _ E WF WM H W) as [a A]. exists a. split; [exact A|discriminate].
  - destruct (PropertiesFallback.C01_fallback_linearizable cf m ls s _ E WF WM H W) as [a A]. exists a. split; [exact A|discriminate].
Qed.
(** ... with the values left in memory, once nobody is inside it *)
Theorem C49_fallback_final : forall St cf progs ls' (c : cstate (Op := op) (Res := res) St) tr m ls s,
  client_run (fallback_iface cf) St (client_init St progs) ls' = Some (c, tr) ->
  FallbackModel.wf_config cf -> FallbackModel.wf_mem cf m ->
  FallbackModel.run cf (FallbackModel.init m) ls = Some (s, base_of tr) -> FallbackModel.windows_ok cf (FallbackModel.init m) ls ->
  (forall t, FallbackModel.pcs s t = FallbackModel.Idle) ->
  updates_atomic (FallbackModel.atomic_var cf) (fallback_iface cf) (FallbackModel.var_value cf m) tr
    (fun a => match FallbackModel.objs cf a with Some _ => Some (FallbackModel.var_value cf (FallbackModel.mem s) a) | None => None end).
Proof.
  intros St cf progs ls' c tr m ls s R WF WM H W Q.
  apply (client_correct (FallbackModel.atomic_var cf) (fallback_iface cf) (fallback_iface_ok cf) St progs ls' c tr _ _ R).
  destruct (FallbackModel.wide cf) eqn:E;
    [exact (PropertiesFallback.C02_fallback_wide_final_memory cf m ls s _ E WF WM H W Q)|exact (PropertiesFallback.C01_fallback_final_memory cf m ls s _ E WF WM H W Q)].
Qed.

(** *** Interrupts disabled around every operation: main program and handlers; thread [t] is nesting depth [t] *)
Theorem C49_interrupt : forall St vars progs ls' (c : cstate (Op := bop) (Res := res) St) tr ar be rd wr m s0 ls s h,
  client_run (byte_iface vars) St (client_init St progs) ls' = Some (c, tr) ->
  IntMain.arch_ok ar be vars -> layout_ok vars -> PropertiesInt.reads_all_bytes rd -> PropertiesInt.writes_exactly wr -> byte_mem m ->
  IntModel.irun ar be vars rd wr (IntModel.iinit m s0) ls = Some (s, h) -> IntModel.history h = base_of tr ->
  updates_atomic (byte_sem vars) (byte_iface vars) (fun a => match vars a with Some t => value_at be m t a | None => 0 end) tr
    (match IntModel.stack s with x :: _ => match IntModel.cur x with None => values be vars (IntModel.imem s) | Some _ => fun _ => None end | [] => fun _ => None end).
Proof.
  intros St vars progs ls' c tr ar be rd wr m s0 ls s h R AO LO RO WO M H E.
  apply (client_correct (byte_sem vars) (byte_iface vars) (byte_iface_ok vars) St progs ls' c tr _ _ R). rewrite <- E.
  exact (PropertiesInt.C20_interrupt_atomic ar be vars rd wr m s0 ls s h AO LO RO WO M H).
Qed.
(** *** The critical-section feature *)
Theorem C49_critical_section : forall St vars progs ls' (c : cstate (Op := bop) (Res := res) St) tr be rd wr m ls s,
  client_run (byte_iface vars) St (client_init St progs) ls' = Some (c, tr) ->
  layout_ok vars -> PropertiesCs.reads_all_bytes rd -> PropertiesCs.writes_exactly wr -> byte_mem m ->
  CsModel.mruns CsModel.Feature be vars rd wr (CsModel.minit m) ls = Some (s, base_of tr) ->
  updates_atomic (byte_sem vars) (byte_iface vars) (fun a => match vars a with Some t => value_at be m t a | None => 0 end) tr
    (match CsModel.mlock s with None => values be vars (CsModel.mmem s) | Some _ => fun _ => None end).
Proof.
  intros St vars progs ls' c tr be rd wr m ls s R LO RO WO M H.
  apply (client_correct (byte_sem vars) (byte_iface vars) (byte_iface_ok vars) St progs ls' c tr _ _ R).
  exact (PropertiesCs.C39_critical_section_atomic be vars rd wr m ls s _ LO RO WO M H).
Qed.
(** *** ESP32 and ESP32-S3 *)
Theorem C49_psram : forall St vars progs ls' (c : cstate (Op := bop) (Res := res) St) tr ch cs be rd wr m ls s,
  client_run (byte_iface vars) St (client_init St progs) ls' = Some (c, tr) ->
  PropertiesCs.narrow vars -> layout_ok vars -> PropertiesCs.reads_all_bytes rd -> PropertiesCs.writes_exactly wr -> byte_mem m ->
  CsModel.mruns (CsModel.Esp ch cs) be vars rd wr (CsModel.minit m) ls = Some (s, base_of tr) ->
  updates_atomic (weak_byte_sem vars) (byte_iface vars) (fun a => match vars a with Some t => value_at be m t a | None => 0 end) tr
    (match CsModel.mlock s with None => values be vars (CsModel.mmem s) | Some _ => fun _ => None end).
Proof.
  intros St vars progs ls' c tr ch cs be rd wr m ls s R N LO RO WO M H.
  apply (client_correct (weak_byte_sem vars) (byte_iface vars) (weak_byte_iface_ok vars) St progs ls' c tr _ _ R).
  exact (PropertiesCs.C40_psram_atomic ch cs be vars rd wr m ls s _ N LO RO WO M H).
Qed.

(** ** The hypotheses are met: thread 0 updates the i8 at 0 with a closure that flips the bool at 8, calls
    fetch_update on it with a closure that panics, catches the panic, counts its own calls and answers x+1; meanwhile thread 1
    stores 5 at 0, so that thread 0's first compare_exchange fails and the closure runs a second time. *)
Definition ex_kd (a : Z) : kind := if a =? 8 then KBool else KInt (mk_ity 8 true).
Definition ex_progs (t : nat) : prog pop pres Z :=
  match t with
  | 0%nat => Update 0 Release Acquire 0
      (fun n x => Prim 8 (BoolRmw (BXor true) Relaxed) (fun _ =>
         Update 8 SeqCst Relaxed n (fun n _ => Unwind n) (fun n r => match r with UPanic => Ret (n + 1) (Some (x + 1)) | _ => Unwind n end)))
      (fun n r => match r with UOk v => Ret n (Some v) | _ => Unwind n end)
  | 1%nat => Prim 0 (Plain (OStore 5 Release)) (fun _ => Ret 0 None)
  | _ => Ret 0 None
  end.
Definition ex_ls : list (nat * option pres) :=
  let n t := (t, None) in let r t x := (t, Some x) in
  [n 0%nat; r 0%nat (PPlain (RVal 3)); n 0%nat; r 0%nat (PBool false); n 0%nat; r 0%nat (PBool true); n 0%nat;
   n 1%nat; n 0%nat; r 1%nat (PPlain RUnit); r 0%nat (PPlain (RErr 5));
   n 0%nat; r 0%nat (PBool true); n 0%nat; r 0%nat (PBool false); n 0%nat; n 0%nat; r 0%nat (PPlain (ROk 5))].
Definition ex_base (tr : list (cevent pop pres)) : list (label pop) :=
  flat_map (fun e => match e with Call t a o => [mk_label t (Some (a, o)) false] | Return t _ => [mk_label t None false; mk_label t None false] end) (base_of tr).
Definition ex_g := FrontModel.mk_cfg false false false.
Definition ex_ev : Z -> fop -> list Z -> Z -> Z := fun _ _ _ x => x.
Definition ex_tr : list (cevent pop pres) :=
  match client_run (front_iface ex_kd) Z (client_init Z ex_progs) ex_ls with Some (_, tr) => tr | None => [] end.
Example ex_high : high_of ex_tr =
  [Call (id 0 0) 0 (HUpdate Release Acquire);
   Call (id 0 1) 8 (HPrim (BoolRmw (BXor true) Relaxed)); Return (id 0 1) (HRes (PBool false));
   Call (id 0 1) 8 (HUpdate SeqCst Relaxed); Return (id 0 1) HPanic;
   Call (id 1 0) 0 (HPrim (Plain (OStore 5 Release))); Return (id 1 0) (HRes (PPlain RUnit));
   Call (id 0 1) 8 (HPrim (BoolRmw (BXor true) Relaxed)); Return (id 0 1) (HRes (PBool true));
   Call (id 0 1) 8 (HUpdate SeqCst Relaxed); Return (id 0 1) HPanic;
   Return (id 0 0) (HOk 5 6)].
Proof. vm_compute. reflexivity. Qed.
Example ex_machine : match asm_run FrontModel.fnext (FrontModel.p_code_of ex_ev ex_g ex_kd) (asm_init (fun a => if a =? 0 then 3 else 0)) (ex_base ex_tr) with
  | Some (s, h) => h = base_of ex_tr /\ amem s 0 = 6 /\ amem s 8 = 0
  | None => False end.
Proof. vm_compute. repeat split; reflexivity. Qed.
Example ex_atomic : linearizable_to (hsem (psem ex_kd (ieee ex_kd))) (fun a => kval (ex_kd a) (if a =? 0 then 3 else 0)) (high_of ex_tr)
  (fun a => if a =? 0 then Some 6 else None).
Proof.
  pose proof ex_machine as E.
  destruct (asm_run FrontModel.fnext (FrontModel.p_code_of ex_ev ex_g ex_kd) (asm_init (fun a => if a =? 0 then 3 else 0)) (ex_base ex_tr)) as [[s h]|] eqn:R;
    [|contradiction E].
  destruct E as (-> & E & _).
  assert (exists c, client_run (front_iface ex_kd) Z (client_init Z ex_progs) ex_ls = Some (c, ex_tr)) as [c C].
  { unfold ex_tr. destruct (client_run (front_iface ex_kd) Z (client_init Z ex_progs) ex_ls) as [[c tr]|] eqn:Q; [eauto|].
    exfalso. revert Q. assert (T : match client_run (front_iface ex_kd) Z (client_init Z ex_progs) ex_ls with Some _ => true | None => false end = true) by (vm_compute; reflexivity).
    intros Q. rewrite Q in T. discriminate T. }
  destruct (C49_all_types Z ex_kd ex_progs ex_ls c ex_tr (fun a => if a =? 0 then 3 else 0) ex_g ex_ev (ex_base ex_tr) s C) with (4 := R) as [(f & A & B) _].
  - intros a. unfold ex_kd. destruct (a =? 8); cbn; [exact Logic.I|]. exists 3. split; [lia|reflexivity].
  - intros a mw ew op hist x H. unfold ex_kd in H. destruct (a =? 8); discriminate H.
  - intros a. unfold ex_kd. destruct (Z.eqb_spec a 0) as [->|]; [cbn; lia|]. destruct (a =? 8); cbn; lia.
  - exists f. split; [exact A|]. intros a v H. destruct (Z.eqb_spec a 0) as [->|]; [|discriminate H]. injection H as <-. apply B.
    rewrite E. vm_compute. reflexivity.
Qed.
(** Closures' calls and answers, and the backend's calls, of that run. *)
Example ex_outer : filter (fun e => match e with Eval i _ | Answer i _ => Nat.eqb i (id 0 0) | _ => false end) ex_tr =
  [Eval (id 0 0) 3; Answer (id 0 0) (Answered (Some 4)); Eval (id 0 0) 5; Answer (id 0 0) (Answered (Some 6))].
Proof. vm_compute. reflexivity. Qed.

Print Assumptions C49_any_backend.
Print Assumptions C49_outside.
Print Assumptions C49_follows.
Print Assumptions C49_continues.
Print Assumptions C49_x86.
Print Assumptions C49_s390x.
Print Assumptions C49_power.
Print Assumptions C49_aarch64.
Print Assumptions C49_riscv.
Print Assumptions C49_kuser.
Print Assumptions C49_intrinsics.
Print Assumptions C49_core.
Print Assumptions C49_all_types.
Print Assumptions C49_fallback.
Print Assumptions C49_fallback_final.
Print Assumptions C49_interrupt.
Print Assumptions C49_critical_section.
Print Assumptions C49_psram.
