(** * C52: public operations retry only when somebody else changed the variable

    [tr]: a history of threads running the code of the public operations on a backend, as in C50.  RetrySpec says how many integer operations each public
    operation may make. *)
From Coq Require Import ZArith List Bool Lia.
From Verif Require Import Words Spec WordsFacts.
From Verif Require FallbackModel FallbackFacts FallbackMain PropertiesFallback.
From Verif Require Import WideSpec LoopModel AsmModel BlockModel ByteMem ByteSpec FrontSpec FloatSpec UpdateSpec CoreModel OrderSpec EntrySpec EntryModel EntryLts.
From Verif Require X86Model S390xModel PowerModel Aarch64Model ZacasModel KuserModel IntrinsicsModel FrontModel FrontMain RiscvModel IntModel CsSpec CsModel.
From Verif Require PropertiesRiscv PropertiesInt PropertiesCs PropertiesFloat PropertiesEntry PropertiesClient.
From Verif Require Import LayerSpec LayerModel PropertiesPublic RetrySpec.
From Verif Require RetryMain.
Import ListNotations.
Open Scope Z_scope.

(** ** Around any integer type *)
Theorem C52_any_backend : forall g kd ev Op (base : Z -> Op -> Z -> Z * res -> Prop) enc ls q tr init fin,
  (forall a, kind_ok (kd a)) -> FrontMain.float_unit kd ev -> backend_ok (fun a => int_of (kd a)) base enc ->
  (forall a, value_ok (kd a) (init a)) ->
  layer_run (public_code ev g kd) layer_init ls = Some (q, tr) -> linearizable_to base init (rename enc (inner_of tr)) fin ->
  few_retries tr.
Proof. intros g kd ev Op base enc ls q tr init fin K U B V R L. exact (proj1 (RetryMain.public_few_retries g kd ev Op base enc ls q tr init fin K U B V R L)). Qed.
(** ... whose weak compare_exchange is as good as compare_exchange *)
Theorem C52_any_strong_backend : forall g kd ev Op (base : Z -> Op -> Z -> Z * res -> Prop) enc ls q tr init fin,
  (forall a, kind_ok (kd a)) -> FrontMain.float_unit kd ev -> backend_ok (fun a => int_of (kd a)) base enc ->
  (forall a c n s f x x' v, base a (enc (BCasWeak c n s f)) x (x', RErr v) -> v <> c) ->
  (forall a, value_ok (kd a) (init a)) ->
  layer_run (public_code ev g kd) layer_init ls = Some (q, tr) -> linearizable_to base init (rename enc (inner_of tr)) fin ->
  few_retries_strong tr.
Proof.
  intros g kd ev Op base enc ls q tr init fin K U B St V R L. apply (proj2 (RetryMain.public_few_retries g kd ev Op base enc ls q tr init fin K U B V R L)).
  intros a [o|c n s f|r o] x x' [|v|v|v|] H; cbn; try reflexivity. apply Z.eqb_neq. exact (St _ _ _ _ _ _ _ _ H).
Qed.
(** A public operation during which others only load its variable makes at most two integer operations, unless its weak
    compare_exchange fails for no reason. *)
Theorem C52_undisturbed : forall HRes (tr : list (levent pop HRes bop res)) tr1 t a o tr2 tr3, few_retries tr ->
  tr = tr1 ++ Outer (Call t a o) :: tr2 ++ tr3 -> (forall r, ~ In (Outer (Return t r)) tr2) ->
  (forall u, u <> t -> ~ busy_on only_reads a tr1 u) -> (forall u o', u <> t -> In (Outer (Call u a o')) tr2 -> only_reads o' = true) ->
  (answers t tr2 <= 2 + spurious for_no_reason t None tr2)%nat.
Proof.
  intros HRes tr tr1 t a o tr2 tr3 F E NR Q1 Q2.
  pose proof (F tr1 t a o tr2 tr3 [] E NR (fun u N B => False_ind _ (Q1 u N B))) as L. cbn [length Nat.add] in L.
  assert (Z0 : rivals only_reads a t tr2 = 0%nat); [|rewrite Z0 in L; exact L].
  clear - Q2. induction tr2 as [|e tr2 IH]; [reflexivity|]. assert (IH' : rivals only_reads a t tr2 = 0%nat) by (apply IH; intros u o' N H; apply (Q2 u o' N); now right).
  destruct e as [[u b o'|u r]|e]; cbn [rivals]; rewrite ?IH'; try reflexivity.
  destruct (Nat.eqb_spec u t) as [->|N]; [reflexivity|]. cbn [negb andb]. destruct (Z.eqb_spec b a) as [->|]; [|reflexivity].
  now rewrite (Q2 u o' N) by now left.
Qed.

(** ** On each backend *)
Section Any.
  Variables (g : pcfg) (kd : Z -> kind) (ev : Z -> fop -> list Z -> Z -> Z).
  Variables (ls' : list (llabel pop res)) (q : lstate (option pres) bop res) (tr : list (levent pop (option pres) bop res)).
  Hypothesis run : layer_run (public_code ev g kd) layer_init ls' = Some (q, tr).
  Hypothesis kinds : forall a, kind_ok (kd a).
  Hypothesis unit : FrontMain.float_unit kd ev.

  (** *** The crate's own 128-bit and 64-bit implementations *)
  Section Wide.
    Variable m : Z -> Z.
    Hypothesis Hm : mem_ok (ints kd) m.
    Hypothesis Hv : forall a, value_ok (kd a) (of_bits (ints kd a) (m a)).
    Lemma wide_retries s : atomic_history_all (ints kd) m (rename wide_enc (inner_of tr)) s -> few_retries tr.
    Proof. intros H. exact (C52_any_backend g kd ev wop (with_panics forbidden_w RPanic (sem (ints kd))) wide_enc ls' q tr _ _ kinds unit (wide_ok _) Hv run H). Qed.
    Let sizes : forall a, 0 < ibits (ints kd a) := fun a => ints_wf kd a (kinds a).
    Theorem C52_x86 : forall gx junk ls s,
      asm_run (enext X86Model.next RPanic) (ecode (X86Model.code_of gx (ints kd) junk) check_w) (asm_init m) ls = Some (s, rename wide_enc (inner_of tr)) -> few_retries tr.
    Proof. intros gx junk ls s H. eapply wide_retries. eapply PropertiesEntry.C08_x86_any_ordering; eauto. Qed.
    Theorem C52_s390x : forall gs pm junk ls s, 0 <= pm < 16 -> S390xModel.cc_reg gs <> S390xModel.R0 /\ S390xModel.cc_reg gs <> S390xModel.R1 ->
      asm_run (enext (bnext (S390xModel.exec1 pm) S390xModel.test S390xModel.access) RPanic) (ecode (S390xModel.code_of gs (ints kd) junk) check_w) (asm_init m) ls = Some (s, rename wide_enc (inner_of tr)) ->
      few_retries tr.
    Proof. intros gs pm junk ls s P R H. eapply wide_retries. eapply PropertiesEntry.C08_s390x_any_ordering; eauto. Qed.
    Theorem C52_power : forall gp junk ls s,
      asm_run (enext (bnext PowerModel.exec1 PowerModel.test PowerModel.access) RPanic) (ecode (PowerModel.code_of gp (ints kd) junk) check_w) (asm_init m) ls = Some (s, rename wide_enc (inner_of tr)) ->
      few_retries tr.
    Proof. intros gp junk ls s H. eapply wide_retries. eapply PropertiesEntry.C08_power_any_ordering; eauto. Qed.
    Theorem C52_aarch64 : forall ga hw junk ls s, Aarch64Model.sound ga hw ->
      asm_run (enext (bnext Aarch64Model.exec1 Aarch64Model.test (Aarch64Model.access (Aarch64Model.be ga) hw)) RPanic) (ecode (Aarch64Model.code_of ga hw (ints kd) junk) check_w) (asm_init m) ls
        = Some (s, rename wide_enc (inner_of tr)) -> few_retries tr.
    Proof. intros ga hw junk ls s SO H. eapply wide_retries. eapply PropertiesEntry.C08_aarch64_any_ordering; eauto. Qed.
    Theorem C52_riscv_zacas : forall w ls s, w = 64 \/ w = 32 ->
      asm_run (enext (ZacasModel.znext w) RPanic) (ecode (ZacasModel.z_code_of w (ints kd)) check_w) (asm_init m) ls = Some (s, rename wide_enc (inner_of tr)) -> few_retries tr.
    Proof. intros w ls s W H. eapply wide_retries. eapply PropertiesEntry.C08_riscv_any_ordering; eauto. Qed.
    Theorem C52_kuser : forall be ls s,
      asm_run (enext (KuserModel.knext be) RPanic) (ecode (KuserModel.k_code_of (ints kd)) check_w) (asm_init m) ls = Some (s, rename wide_enc (inner_of tr)) -> few_retries tr.
    Proof. intros be ls s H. eapply wide_retries. eapply PropertiesEntry.C08_kuser_any_ordering; eauto. Qed.
    Theorem C52_intrinsics : forall gi ls s,
      asm_run (enext (IntrinsicsModel.inext gi) RPanic) (ecode (IntrinsicsModel.i_code_of gi (ints kd)) check_w) (asm_init m) ls = Some (s, rename wide_enc (inner_of tr)) -> few_retries tr.
    Proof. intros gi ls s H. eapply wide_retries. eapply PropertiesEntry.C08_intrinsics_any_ordering; eauto. Qed.
    (** *** core's atomics *)
    Theorem C52_core : forall gc ls s,
      asm_run (enext cnext RPanic) (ecode (c_code_of gc (ints kd)) check_u) (asm_init m) ls = Some (s, rename (fun o => UOp (wide_enc o)) (inner_of tr)) -> few_retries tr.
    Proof.
      intros gc ls s H.
      apply (C52_any_backend g kd ev uop (with_panics forbidden_u RPanic (usem (ints kd))) (fun o => UOp (wide_enc o)) ls' q tr (fun a => of_bits (ints kd a) (m a))
               (fun a => Some (of_bits (ints kd a) (amem s a))) kinds unit (core_ok _) Hv run).
      exact (PropertiesEntry.C08_core_any_ordering gc (ints kd) m ls s _ sizes Hm H).
    Qed.
  End Wide.

  (** *** The lock-based fallback *)
  Theorem C52_fallback : forall cf m ls s, at_types kd (FallbackModel.objs cf) -> (forall a, value_ok (kd a) (FallbackModel.var_value cf m a)) ->
    FallbackModel.wf_config cf -> FallbackModel.wf_mem cf m ->
    FallbackModel.run cf (FallbackModel.init m) ls = Some (s, rename fallback_enc (inner_of tr)) -> FallbackModel.windows_ok cf (FallbackModel.init m) ls ->
    few_retries_strong tr.
  Proof.
    intros cf m ls s T V WF WM H W.
    apply (C52_any_strong_backend g kd ev op _ fallback_enc ls' q tr (FallbackModel.var_value cf m) (fun _ => None) kinds unit (fallback_ok kd cf T)); [|exact V|exact run|].
    - intros a c n s0 f x x' v (t & E & B). cbn [fallback_enc spec_op] in B. destruct f; try discriminate B; destruct (Z.eqb_spec x c); congruence.
    - destruct (FallbackModel.wide cf) eqn:E.
      + destruct (PropertiesFallback.C02_fallback_wide_linearizable cf m ls s _ E WF WM H W) as [a A]. exists a. split; [exact A|discriminate].
      + destruct (PropertiesFallback.C01_fallback_linearizable cf m ls s _ E WF WM H W) as [a A]. exists a. split; [exact A|discriminate].
  Qed.

  (** *** The backends for small variables *)
  Section Bytes.
    Variables (vars : layout) (be : bool) (m : memory).
    Hypothesis types : at_types kd vars.
    Hypothesis Hl : layout_ok vars.
    Hypothesis Hm : byte_mem m.
    Hypothesis Hv : forall a, value_ok (kd a) (init_bytes vars be m a).
    Lemma byte_strong : forall a c n s f x x' v, with_panics forbidden_b RPanic (PropertiesClient.byte_sem vars) a (same_enc (BCasWeak c n s f)) x (x', RErr v) -> v <> c.
    Proof.
      intros a c n s f x x' v [[_ H]|[_ (t & _ & H)]]; [discriminate H|]. cbn [same_enc bsem spec_op] in H. destruct f; try discriminate H; destruct (Z.eqb_spec x c); congruence.
    Qed.
    Lemma byte_retries fin : linearizable_to (with_panics forbidden_b RPanic (PropertiesClient.byte_sem vars)) (init_bytes vars be m) (inner_of tr) fin -> few_retries_strong tr.
    Proof.
      intros L. rewrite <- (rename_same (inner_of tr)) in L.
      exact (C52_any_strong_backend g kd ev bop _ same_enc ls' q tr _ _ kinds unit (byte_ok kd vars types) byte_strong Hv run L).
    Qed.
    (** RISC-V: loads, stores and AMOs, sub-word ones by shifting *)
    Theorem C52_riscv : forall c ls s, RiscvModel.xlen c = 32 \/ RiscvModel.xlen c = 64 -> RiscvModel.rv_be c = be ->
      (forall a t, vars a = Some t -> 0 <= a < 2 ^ RiscvModel.xlen c) ->
      r_run c vars (winit (RiscvModel.rv_init m)) ls = Some (s, inner_of tr) -> few_retries_strong tr.
    Proof.
      intros c ls s X B A H. pose proof (PropertiesEntry.C08_riscv_amo_any_ordering c vars m ls s _ X Hl A Hm H) as P. rewrite B in P. exact (byte_retries _ P).
    Qed.
    (** interrupts disabled *)
    Theorem C52_interrupt : forall ar rd wr s0 ls s,
      IntMain.arch_ok ar be vars -> PropertiesInt.reads_all_bytes rd -> PropertiesInt.writes_exactly wr ->
      i_run ar be vars rd wr (winit (IntModel.iinit m s0)) ls = Some (s, inner_of tr) -> few_retries_strong tr.
    Proof. intros ar rd wr s0 ls s AO RO WO H. exact (byte_retries _ (PropertiesEntry.C08_interrupt_any_ordering ar be vars rd wr m s0 ls s _ AO Hl RO WO Hm H)). Qed.
    (** the critical-section feature *)
    Theorem C52_critical_section : forall rd wr ls s, PropertiesCs.reads_all_bytes rd -> PropertiesCs.writes_exactly wr ->
      m_run CsModel.Feature be vars rd wr (winit (CsModel.minit m)) ls = Some (s, inner_of tr) -> few_retries_strong tr.
    Proof. intros rd wr ls s RO WO H. exact (byte_retries _ (PropertiesEntry.C08_critical_section_any_ordering be vars rd wr m ls s _ Hl RO WO Hm H)). Qed.
    (** ESP32 and ESP32-S3 *)
    Theorem C52_psram : forall ch cs rd wr ls s, PropertiesCs.narrow vars -> PropertiesCs.reads_all_bytes rd -> PropertiesCs.writes_exactly wr ->
      m_run (CsModel.Esp ch cs) be vars rd wr (winit (CsModel.minit m)) ls = Some (s, inner_of tr) -> few_retries tr.
    Proof.
      intros ch cs rd wr ls s N RO WO H. pose proof (PropertiesEntry.C08_esp_any_ordering ch cs be vars rd wr m ls s _ N Hl RO WO Hm H) as L.
      rewrite <- (rename_same (inner_of tr)) in L.
      exact (C52_any_backend g kd ev bop _ same_enc ls' q tr _ _ kinds unit (weak_byte_ok kd vars types) Hv run L).
    Qed.
  End Bytes.
End Any.

(** ** The hypotheses are met, and the bound is reached *)
(** C50's f64 on the kernel helpers: thread 1's fetch_update is disturbed once, by thread 0's negation, and makes three integer
    operations; the bound is 2 + 1. *)
Definition ex_stretch : nat * nat * nat * nat * bool :=
  match layer_run (public_code (fun _ _ _ x => x) (mk_pcfg false false) ex_fkd) layer_init ex_fls with
  | Some (_, Outer (Call t a o) :: tr) =>
      let tr2 := removelast tr in
      (t, answers t tr2, rivals only_reads a t tr2, spurious for_no_reason t None tr2,
       match last tr (Outer (Call 0%nat 0 o)) with Outer (Return 1%nat _) => true | _ => false end)
  | _ => (0, 0, 0, 0, false)%nat
  end.
Example ex_reached : ex_stretch = (1, 3, 1, 0, true)%nat.
Proof. vm_compute. reflexivity. Qed.
(** ... and [few_retries] really follows for it, with all of C52_kuser's hypotheses. *)
Example ex_kuser_retries : exists ev q tr, layer_run (public_code ev (mk_pcfg false false) ex_fkd) layer_init ex_fls = Some (q, tr) /\ inner_of tr = ex_inner /\ few_retries tr.
Proof.
  destruct ex_float as (ev & U & K & M & R). exists ev.
  destruct (layer_run (public_code ev (mk_pcfg false false) ex_fkd) layer_init ex_fls) as [[q tr]|] eqn:E; [|contradiction R]. destruct R as [_ In].
  exists q, tr. split; [reflexivity|]. split; [exact In|]. pose proof ex_kuser as KU.
  destruct (asm_run (enext (KuserModel.knext false) RPanic) (ecode (KuserModel.k_code_of (ints ex_fkd)) check_w) (asm_init (fun _ => 5)) ex_kls) as [[s h]|] eqn:A; [|contradiction KU].
  destruct KU as [-> _]. apply (C52_kuser (mk_pcfg false false) ex_fkd ev ex_fls q tr E K U (fun _ => 5) M) with (be := false) (ls := ex_kls) (s := s).
  - intros a. vm_compute. repeat split; discriminate || reflexivity.
  - rewrite In. exact A.
Qed.
(** C50's AtomicBool on RISC-V: thread 0's fetch_update makes three integer operations, with two public operations of others starting meanwhile, a store and a
    load; only the store counts. *)
Example ex_bool : match ex_tr with
  | Outer (Call t a o) :: tr => (answers t tr = 3 /\ rivals only_reads a t (removelast tr) = 1)%nat
  | _ => False end.
Proof. vm_compute. split; reflexivity. Qed.
Example ex_bool_retries : few_retries_strong ex_tr.
Proof.
  destruct ex_run_ok as [q R]. pose proof (ex_machine false) as E.
  destruct (r_run _ _ _ _) as [[s h]|] eqn:M; [|contradiction E]. destruct E as [-> F].
  destruct PropertiesRiscv.vars0_ok as (LO & A & _).
  exact (C52_riscv ex_g ex_kd ex_ev ex_ls q ex_tr R ex_kinds ex_unit PropertiesRiscv.vars0 false ex_mem ex_types LO ex_bytes (ex_values false)
              (RiscvModel.mk_rv 32 false true false) (ex_rv (inner_of ex_tr)) s (or_introl eq_refl) eq_refl A M).
Qed.

Print Assumptions C52_any_backend.
Print Assumptions C52_any_strong_backend.
Print Assumptions C52_undisturbed.
Print Assumptions C52_x86.
Print Assumptions C52_fallback.
Print Assumptions C52_psram.
