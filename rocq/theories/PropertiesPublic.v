(** * C50: the public types on every backend

    [layer_run (public_code ev g kd) layer_init ls' = Some (q, tr)]: threads running the code of the public operations, interleaved in any
    way and given any answers by the integer operations below, produce the events [tr]; [inner_of tr] are the calls and returns of those
    integer operations.  For each backend: if its machine - with the ordering check of each entry point in front, as in C08 - can produce that
    history, the public operations are atomic. *)
From Coq Require Import ZArith List Bool Lia ZifyBool.
From Verif Require Import Words Spec WordsFacts.
From Verif Require FallbackModel FallbackFacts FallbackMain PropertiesFallback.
From Verif Require Import WideSpec LoopModel AsmModel BlockModel ByteMem ByteSpec FrontSpec FloatSpec UpdateSpec CoreModel OrderSpec EntrySpec EntryModel EntryLts.
From Verif Require X86Model S390xModel PowerModel Aarch64Model ZacasModel KuserModel IntrinsicsModel FrontModel FrontMain RiscvModel IntModel CsSpec CsModel.
From Verif Require PropertiesX86 PropertiesS390x PropertiesPower PropertiesAarch64 PropertiesLoops PropertiesIntrinsics PropertiesRiscv PropertiesInt PropertiesCs PropertiesFloat PropertiesEntry.
From Verif Require ClientSpec ClientModel ClientProofs PropertiesClient.
From Verif Require Import LayerSpec LayerModel.
From Verif Require LayerProofs PublicProofs.
Import ListNotations.
Open Scope Z_scope.

(** Every public operation takes effect indivisibly at one moment between its call and its return, with the
    documented meaning (a panic changes nothing); integer operations are made only for it, on its variable, with operands of its type, one at a
    time, a second one only where retrying is documented; and the one that decides has an ordering at least as strong
    as the one asked for. *)
Definition public_atomic (kd : Z -> kind) (miri : bool) (init : Z -> Z) (tr : list (levent pop (option pres) bop res)) (fin : Z -> option Z) : Prop :=
  linearizable_to (fsem kd (ieee kd)) init (outer_of tr) fin /\ calls_ok (front_call miri kd) front_return (fun _ => None) tr.

(** ** Around any integer type *)
Theorem C50_any_backend : forall g kd ev Op (base : Z -> Op -> Z -> Z * res -> Prop) enc ls q tr init fin,
  (forall a, kind_ok (kd a)) -> FrontMain.float_unit kd ev -> backend_ok (fun a => int_of (kd a)) base enc ->
  (forall a, value_ok (kd a) (init a)) ->
  layer_run (public_code ev g kd) layer_init ls = Some (q, tr) -> linearizable_to base init (rename enc (inner_of tr)) fin ->
  public_atomic kd (miri g) init tr fin.
Proof.
  intros g kd ev Op base enc ls q tr init fin K U B V R L.
  exact (PublicProofs.public_correct g kd ev K U base enc B ls q tr init fin V R L).
Qed.
(** Exactly the documented operations exist. *)
Theorem C50_offered : forall ev g kd a o, public_code ev g kd a o <> None <-> offered (kd a) o.
Proof.
  intros ev g kd a o. unfold public_code.
  assert (IR : forall t v, in_rangeb t v = true <-> in_range t v) by (intros; apply in_rangeb_iff).
  assert (IB : forall w v, FrontModel.in_bits w v = true <-> in_range (mk_ity w false) v).
  { intros w v. unfold FrontModel.in_bits, in_range, imin, imax. cbn [isigned ibits]. lia. }
  assert (NF : forall t r, FrontModel.nofetch_typed t r = true <-> rmw_args t r) by (intros t r; destruct r; cbn [FrontModel.nofetch_typed rmw_args]; rewrite ?IR; tauto).
  assert (B32 : forall b, ((0 <=? b) && (b <? 2 ^ 32) = true) <-> in_range u32 b).
  { intros b. unfold in_range. change (imin u32) with 0. change (imax u32) with (2 ^ 32 - 1). lia. }
  assert (IF : forall (b : bool) (c : pcode), (if b then Some c else None) <> None <-> b = true) by (intros [] c; split; congruence).
  assert (SO : forall c : pcode, Some c <> None <-> True) by (intros; split; [auto|discriminate]).
  assert (NO : (@None pcode) <> None <-> False) by (split; [congruence|tauto]).
  destruct (kd a) as [t| |w z|mw ew]; destruct o as [p| | | | | | | | | | |op| | | | | | | |op| ]; rewrite ?IF, ?SO, ?NO; unfold offered, int_of;
    rewrite ?andb_true_iff, ?IR, ?IB, ?NF; try tauto; try apply B32; try (rewrite <- andb_true_iff; apply B32).
  - destruct p as [| |r|]; cbn [op_ok]; rewrite ?andb_true_iff, ?IR, ?NF; try tauto. destruct r; cbn; tauto.
  - destruct r; cbn; intuition discriminate.
  - destruct op; cbn [b_no_fetch]; rewrite ?SO, ?NO; tauto.
  - destruct p as [| |r|]; cbn [op_ok]; rewrite ?andb_true_iff, ?IR, ?NF; unfold FrontModel.usize; try tauto. destruct r; cbn [rmw_args]; intuition discriminate.
  - destruct op; cbn [FrontModel.ptr_typed]; apply IB.
  - destruct op; cbn [FrontModel.fop_typed]; apply IB.
Qed.
(** No operation gets stuck: a thread that is not waiting for an integer operation can go on, one that is can go on with
    whatever it is given, an idle one can call anything that exists. *)
Theorem C50_continues : forall g kd ev ls q tr t,
  layer_run (public_code ev g kd) layer_init ls = Some (q, tr) ->
  match q t with
  | LIdle => forall a o, offered (kd a) o -> layer_step (public_code ev g kd) q (LCall t a o) <> None
  | LRun _ _ => layer_step (public_code ev g kd) q (LStep t) <> None
  | LWait _ _ => forall r, layer_step (public_code ev g kd) q (LAnswer t r) <> None
  end.
Proof.
  intros g kd ev ls q tr t _. destruct (q t) as [|a c|a k] eqn:Q.
  - intros a o O. apply (C50_offered ev g) in O. unfold layer_step. rewrite Q. destruct (public_code ev g kd a o); congruence.
  - unfold layer_step. rewrite Q. destruct c; discriminate.
  - intros r. unfold layer_step. rewrite Q. discriminate.
Qed.

(** ** The backends: how their operations are named, and that they behave as an integer type *)
(** the no-result operations are the fetch ones with the result dropped: utils.rs:222-245, atomic128/macros.rs:229, 245,
    atomic64/macros.rs:206, 220 *)
Definition wide_enc (o : bop) : wop := match o with BOp o => WOp o | BCasWeak c n s f => WCasWeak c n s f | BNoFetch r o => WOp (ORmw r o) end.
(** fallback/mod.rs:251-310 *)
Definition fallback_enc (o : bop) : op := match o with BOp o => o | BCasWeak c n s f => OCas c n s f | BNoFetch r o => ORmw r o end.
Definition same_enc (o : bop) : bop := o.
Definition ints (kd : Z -> kind) (a : Z) : ity := int_of (kd a).
Definition at_types (kd : Z -> kind) (vars : Z -> option ity) : Prop := forall a t, vars a = Some t -> t = int_of (kd a).

Lemma forbidden_meaning t o x : forbidden_op o -> spec_op t o x = (x, RPanic).
Proof. destruct o as [ord|v ord|r ord|c n su fa]; cbn; [intros [-> | ->]|intros [-> | ->]|intros []|intros [-> | ->]]; reflexivity. Qed.
Lemma wide_ok ty : backend_ok ty (with_panics forbidden_w RPanic (sem ty)) wide_enc.
Proof.
  intros a o x x' r H. destruct o as [o|c n s f|q o]; destruct H as [[F H]|[F H]]; cbn [wide_enc forbidden_w sem] in *.
  - now rewrite forbidden_meaning.
  - exact H.
  - left. rewrite (forbidden_meaning (ty a) (OCas c n s f)); [exact H|exact F].
  - destruct H as [H|H]; [left|right]; auto.
  - destruct F.
  - cbn [spec_op] in H. injection H as -> ->. auto.
Qed.
Lemma core_ok ty : backend_ok ty (with_panics forbidden_u RPanic (usem ty)) (fun o => UOp (wide_enc o)).
Proof. intros a o x x' r H. exact (wide_ok ty a o x x' r H). Qed.
Lemma fallback_ok kd c : at_types kd (FallbackModel.objs c) -> backend_ok (ints kd) (FallbackModel.atomic_var c) fallback_enc.
Proof.
  intros T a o x x' r (t & E & H). apply T in E as ->. fold (ints kd a) in H. destruct o as [o|cu n s f|q o]; cbn [fallback_enc] in H; auto.
  cbn [spec_op] in H. injection H as -> ->. auto.
Qed.
Lemma weak_byte_ok kd vars : at_types kd vars -> backend_ok (ints kd) (with_panics forbidden_b RPanic (PropertiesClient.weak_byte_sem vars)) same_enc.
Proof.
  intros T a o x x' r [[F H]|[F (t & E & H)]]; unfold same_enc in *.
  - destruct o as [o|cu n s f|q o]; [now rewrite forbidden_meaning| |destruct F]. left. now rewrite (forbidden_meaning (ints kd a) (OCas cu n s f)).
  - apply T in E as ->. fold (ints kd a) in H. destruct H as [H|[(cu & nw & su & fa & ->) H]]; [|right; auto].
    destruct o as [o|cu n s f|q o]; cbn [bsem] in H; auto. injection H as -> ->. auto.
Qed.
Lemma byte_ok kd vars : at_types kd vars -> backend_ok (ints kd) (with_panics forbidden_b RPanic (PropertiesClient.byte_sem vars)) same_enc.
Proof.
  intros T a o x x' r H. apply (weak_byte_ok kd vars T). destruct H as [H|[F (t & E & H)]]; [left; exact H|right]. split; [exact F|]. exists t. auto.
Qed.
Lemma ints_wf kd a : kind_ok (kd a) -> 0 < ibits (ints kd a).
Proof.
  unfold ints. destruct (kd a) as [t| |w z|mw ew]; cbn [int_of ibits kind_ok].
  - intros (e & E & ->). apply Z.pow_pos_nonneg; lia.
  - intros _. reflexivity.
  - intros [(e & E & ->) _]. apply Z.pow_pos_nonneg; lia.
  - intros [M E]. lia.
Qed.
Lemma rename_same {Res} (h : list (event bop Res)) : rename same_enc h = h.
Proof. unfold rename, same_enc. induction h as [|[t a o|t r] h IH]; cbn; congruence. Qed.

Section Any.
  Variables (g : pcfg) (kd : Z -> kind) (ev : Z -> fop -> list Z -> Z -> Z).
  Variables (ls' : list (llabel pop res)) (q : lstate (option pres) bop res) (tr : list (levent pop (option pres) bop res)).
  Hypothesis run : layer_run (public_code ev g kd) layer_init ls' = Some (q, tr).
  Hypothesis kinds : forall a, kind_ok (kd a).
  Hypothesis unit : FrontMain.float_unit kd ev.

  (** *** The crate's own 128-bit and 64-bit implementations *)
  Section Wide.
    Variable m : Z -> Z.
    Hypothesis Hm : mem_ok (ints kd) m.
    Definition init_of (a : Z) : Z := of_bits (ints kd a) (m a).
    Hypothesis Hv : forall a, value_ok (kd a) (init_of a).
    Definition atomic_to (s : Z -> Z) : Prop := public_atomic kd (miri g) init_of tr (fun a => Some (of_bits (ints kd a) (s a))).
    Let h : list (event wop res) := rename wide_enc (inner_of tr).
    Lemma wide_lift s : atomic_history_all (ints kd) m h s -> atomic_to s.
    Proof. intros H. exact (C50_any_backend g kd ev wop (with_panics forbidden_w RPanic (sem (ints kd))) wide_enc ls' q tr init_of _ kinds unit (wide_ok _) Hv run H). Qed.
    Let sizes : forall a, 0 < ibits (ints kd a) := fun a => ints_wf kd a (kinds a).
    Theorem C50_x86 : forall gx junk ls s,
      asm_run (enext X86Model.next RPanic) (ecode (X86Model.code_of gx (ints kd) junk) check_w) (asm_init m) ls = Some (s, rename wide_enc (inner_of tr)) -> atomic_to (amem s).
    Proof. intros gx junk ls s H. apply wide_lift. eapply PropertiesEntry.C08_x86_any_ordering; eauto. Qed.
    Theorem C50_s390x : forall gs pm junk ls s, 0 <= pm < 16 -> S390xModel.cc_reg gs <> S390xModel.R0 /\ S390xModel.cc_reg gs <> S390xModel.R1 ->
      asm_run (enext (bnext (S390xModel.exec1 pm) S390xModel.test S390xModel.access) RPanic) (ecode (S390xModel.code_of gs (ints kd) junk) check_w) (asm_init m) ls = Some (s, rename wide_enc (inner_of tr)) ->
      atomic_to (amem s).
    Proof. intros gs pm junk ls s P R H. apply wide_lift. eapply PropertiesEntry.C08_s390x_any_ordering; eauto. Qed.
    Theorem C50_power : forall gp junk ls s,
      asm_run (enext (bnext PowerModel.exec1 PowerModel.test PowerModel.access) RPanic) (ecode (PowerModel.code_of gp (ints kd) junk) check_w) (asm_init m) ls = Some (s, rename wide_enc (inner_of tr)) ->
      atomic_to (amem s).
    Proof. intros gp junk ls s H. apply wide_lift. eapply PropertiesEntry.C08_power_any_ordering; eauto. Qed.
    Theorem C50_aarch64 : forall ga hw junk ls s, Aarch64Model.sound ga hw ->
      asm_run (enext (bnext Aarch64Model.exec1 Aarch64Model.test (Aarch64Model.access (Aarch64Model.be ga) hw)) RPanic) (ecode (Aarch64Model.code_of ga hw (ints kd) junk) check_w) (asm_init m) ls
        = Some (s, rename wide_enc (inner_of tr)) -> atomic_to (amem s).
    Proof. intros ga hw junk ls s SO H. apply wide_lift. eapply PropertiesEntry.C08_aarch64_any_ordering; eauto. Qed.
    Theorem C50_riscv_zacas : forall w ls s, w = 64 \/ w = 32 ->
      asm_run (enext (ZacasModel.znext w) RPanic) (ecode (ZacasModel.z_code_of w (ints kd)) check_w) (asm_init m) ls = Some (s, rename wide_enc (inner_of tr)) -> atomic_to (amem s).
    Proof. intros w ls s W H. apply wide_lift. eapply PropertiesEntry.C08_riscv_any_ordering; eauto. Qed.
    Theorem C50_kuser : forall be ls s,
      asm_run (enext (KuserModel.knext be) RPanic) (ecode (KuserModel.k_code_of (ints kd)) check_w) (asm_init m) ls = Some (s, rename wide_enc (inner_of tr)) -> atomic_to (amem s).
    Proof. intros be ls s H. apply wide_lift. eapply PropertiesEntry.C08_kuser_any_ordering; eauto. Qed.
    Theorem C50_intrinsics : forall gi ls s,
      asm_run (enext (IntrinsicsModel.inext gi) RPanic) (ecode (IntrinsicsModel.i_code_of gi (ints kd)) check_w) (asm_init m) ls = Some (s, rename wide_enc (inner_of tr)) -> atomic_to (amem s).
    Proof. intros gi ls s H. apply wide_lift. eapply PropertiesEntry.C08_intrinsics_any_ordering; eauto. Qed.
    (** *** core's atomics *)
    Theorem C50_core : forall gc ls s,
      asm_run (enext cnext RPanic) (ecode (c_code_of gc (ints kd)) check_u) (asm_init m) ls = Some (s, rename (fun o => UOp (wide_enc o)) (inner_of tr)) -> atomic_to (amem s).
    Proof.
      intros gc ls s H.
      apply (C50_any_backend g kd ev uop (with_panics forbidden_u RPanic (usem (ints kd))) (fun o => UOp (wide_enc o)) ls' q tr init_of _ kinds unit (core_ok _) Hv run).
      exact (PropertiesEntry.C08_core_any_ordering gc (ints kd) m ls s _ sizes Hm H).
    Qed.
  End Wide.

  (** *** The lock-based fallback *)
  Theorem C50_fallback : forall cf m ls s, at_types kd (FallbackModel.objs cf) -> (forall a, value_ok (kd a) (FallbackModel.var_value cf m a)) ->
    FallbackModel.wf_config cf -> FallbackModel.wf_mem cf m ->
    FallbackModel.run cf (FallbackModel.init m) ls = Some (s, rename fallback_enc (inner_of tr)) -> FallbackModel.windows_ok cf (FallbackModel.init m) ls ->
    public_atomic kd (miri g) (FallbackModel.var_value cf m) tr (fun _ => None).
  Proof.
    intros cf m ls s T V WF WM H W.
    apply (C50_any_backend g kd ev op _ fallback_enc ls' q tr _ _ kinds unit (fallback_ok kd cf T) V run).
    destruct (FallbackModel.wide cf) eqn:E.
    - destruct (PropertiesFallback.C02_fallback_wide_linearizable cf m ls s _ E WF WM H W) as [a A]. exists a. split; [exact A|discriminate].
    - destruct (PropertiesFallback.C01_fallback_linearizable cf m ls s _ E WF WM H W) as [a A]. exists a. split; [exact A|discriminate].
  Qed.
  (** ... with the values left in memory, once nobody is inside it *)
  Theorem C50_fallback_final : forall cf m ls s, at_types kd (FallbackModel.objs cf) -> (forall a, value_ok (kd a) (FallbackModel.var_value cf m a)) ->
    FallbackModel.wf_config cf -> FallbackModel.wf_mem cf m ->
    FallbackModel.run cf (FallbackModel.init m) ls = Some (s, rename fallback_enc (inner_of tr)) -> FallbackModel.windows_ok cf (FallbackModel.init m) ls ->
    (forall t, FallbackModel.pcs s t = FallbackModel.Idle) ->
    public_atomic kd (miri g) (FallbackModel.var_value cf m) tr
      (fun a => match FallbackModel.objs cf a with Some _ => Some (FallbackModel.var_value cf (FallbackModel.mem s) a) | None => None end).
  Proof.
    intros cf m ls s T V WF WM H W Q.
    apply (C50_any_backend g kd ev op _ fallback_enc ls' q tr _ _ kinds unit (fallback_ok kd cf T) V run).
    destruct (FallbackModel.wide cf) eqn:E;
      [exact (PropertiesFallback.C02_fallback_wide_final_memory cf m ls s _ E WF WM H W Q)|exact (PropertiesFallback.C01_fallback_final_memory cf m ls s _ E WF WM H W Q)].
  Qed.

  (** *** The backends for small variables *)
  Section Bytes.
    Variables (vars : layout) (be : bool) (m : memory).
    Hypothesis types : at_types kd vars.
    Hypothesis Hl : layout_ok vars.
    Hypothesis Hm : byte_mem m.
    Definition init_bytes (a : Z) : Z := match vars a with Some t => value_at be m t a | None => 0 end.
    Hypothesis Hv : forall a, value_ok (kd a) (init_bytes a).
    (** RISC-V: loads, stores and AMOs, sub-word ones by shifting *)
    Theorem C50_riscv : forall c ls s, RiscvModel.xlen c = 32 \/ RiscvModel.xlen c = 64 -> RiscvModel.rv_be c = be ->
      (forall a t, vars a = Some t -> 0 <= a < 2 ^ RiscvModel.xlen c) ->
      r_run c vars (winit (RiscvModel.rv_init m)) ls = Some (s, inner_of tr) ->
      public_atomic kd (miri g) init_bytes tr (values be vars (RiscvModel.rmem (wbase s))).
    Proof.
      intros c ls s X B A H. apply (C50_any_backend g kd ev bop _ same_enc ls' q tr _ _ kinds unit (byte_ok kd vars types) Hv run). rewrite rename_same.
      pose proof (PropertiesEntry.C08_riscv_amo_any_ordering c vars m ls s _ X Hl A Hm H) as P. rewrite B in P. exact P.
    Qed.
    (** interrupts disabled *)
    Theorem C50_interrupt : forall ar rd wr s0 ls s,
      IntMain.arch_ok ar be vars -> PropertiesInt.reads_all_bytes rd -> PropertiesInt.writes_exactly wr ->
      i_run ar be vars rd wr (winit (IntModel.iinit m s0)) ls = Some (s, inner_of tr) ->
      public_atomic kd (miri g) init_bytes tr
        (match IntModel.stack (wbase s) with x :: _ => match IntModel.cur x with None => values be vars (IntModel.imem (wbase s)) | Some _ => fun _ => None end | [] => fun _ => None end).
    Proof.
      intros ar rd wr s0 ls s AO RO WO H. apply (C50_any_backend g kd ev bop _ same_enc ls' q tr _ _ kinds unit (byte_ok kd vars types) Hv run).
      rewrite rename_same. exact (PropertiesEntry.C08_interrupt_any_ordering ar be vars rd wr m s0 ls s _ AO Hl RO WO Hm H).
    Qed.
    (** the critical-section feature *)
    Theorem C50_critical_section : forall rd wr ls s, PropertiesCs.reads_all_bytes rd -> PropertiesCs.writes_exactly wr ->
      m_run CsModel.Feature be vars rd wr (winit (CsModel.minit m)) ls = Some (s, inner_of tr) ->
      public_atomic kd (miri g) init_bytes tr (match CsModel.mlock (wbase s) with None => values be vars (CsModel.mmem (wbase s)) | Some _ => fun _ => None end).
    Proof.
      intros rd wr ls s RO WO H. apply (C50_any_backend g kd ev bop _ same_enc ls' q tr _ _ kinds unit (byte_ok kd vars types) Hv run).
      rewrite rename_same. exact (PropertiesEntry.C08_critical_section_any_ordering be vars rd wr m ls s _ Hl RO WO Hm H).
    Qed.
    (** ESP32 and ESP32-S3 *)
    Theorem C50_psram : forall ch cs rd wr ls s, PropertiesCs.narrow vars -> PropertiesCs.reads_all_bytes rd -> PropertiesCs.writes_exactly wr ->
      m_run (CsModel.Esp ch cs) be vars rd wr (winit (CsModel.minit m)) ls = Some (s, inner_of tr) ->
      public_atomic kd (miri g) init_bytes tr (match CsModel.mlock (wbase s) with None => values be vars (CsModel.mmem (wbase s)) | Some _ => fun _ => None end).
    Proof.
      intros ch cs rd wr ls s N RO WO H. apply (C50_any_backend g kd ev bop _ same_enc ls' q tr _ _ kinds unit (weak_byte_ok kd vars types) Hv run).
      rewrite rename_same. exact (PropertiesEntry.C08_esp_any_ordering ch cs be vars rd wr m ls s _ N Hl RO WO Hm H).
    Qed.
  End Bytes.
End Any.

(** ** With fetch_update whose closures do anything (C49) on top: programs, public types, backend *)
Definition stack_iface (kd : Z -> kind) : ClientSpec.iface pop (option pres) :=
  let F := PropertiesClient.front_iface kd in
  ClientSpec.mk_iface (ClientSpec.op_load F) (ClientSpec.op_cas F)
    (fun r => match r with Some r => ClientSpec.got F r | None => None end)
    (fun r => match r with Some r => ClientSpec.swapped F r | None => None end) (ClientSpec.typed F) (ClientSpec.readable F).
Lemma stack_ok kd arith : ClientSpec.iface_ok (fsem kd arith) (stack_iface kd).
Proof.
  destruct (PropertiesClient.front_iface_ok kd arith) as [L C]. split.
  - intros a fo x x' [r|]; cbn [stack_iface ClientSpec.op_load ClientSpec.got fsem].
    + intros [P _]. exact (L a fo x x' r P).
    + intros [-> P]. split; [reflexivity|]. cbn in P. destruct (kd a); exact P.
  - intros a c n so fo x x' [r|] R T; cbn [stack_iface ClientSpec.op_cas ClientSpec.swapped fsem].
    + intros [P _]. exact (C a c n so fo x x' r R T P).
    + intros [-> P]. split; [reflexivity|]. cbn in P. destruct (kd a); exact P.
Qed.
Theorem C50_with_closures : forall kd mi init tr fin St progs ls (c : ClientModel.cstate (Op := pop) (Res := option pres) St) tr1,
  public_atomic kd mi init tr fin ->
  ClientModel.client_run (stack_iface kd) St (ClientModel.client_init St progs) ls = Some (c, tr1) -> ClientSpec.base_of tr1 = outer_of tr ->
  PropertiesClient.updates_atomic (fsem kd (ieee kd)) (stack_iface kd) init tr1 fin.
Proof.
  intros kd mi init tr fin St progs ls c tr1 [L _] R E. rewrite <- E in L.
  exact (ClientProofs.client_correct (fsem kd (ieee kd)) (stack_iface kd) (stack_ok kd _) St progs ls c tr1 init fin R L).
Qed.

(** ** The hypotheses are met *)
(** Bool as a byte in a RISC-V word next to an i8 and an i16 (no compare_exchange: [wbool]).  Thread 0 runs fetch_update with
    [|b| Some(!b)]; after its load thread 1 stores false, so that its first swap finds the value already there, it retries, and sets true.
    Thread 2 calls load(Release), which panics. *)
Definition ex_kd (a : Z) : kind := if a =? 6 then KBool else if a =? 4 then KInt i16 else if a =? 7 then KInt i8 else KInt u8.
Definition ex_g := mk_pcfg true false.
Definition ex_ev : Z -> fop -> list Z -> Z -> Z := fun _ _ _ x => x.
Definition ex_flip : list bool -> bool -> option bool := fun _ b => Some (negb b).
Definition ex_mem : memory := fun x => if x =? 6 then 1 else 255.
Definition ex_ls : list (llabel pop res) :=
  [LCall 0 6 (BoolUpdate ex_flip SeqCst Acquire); LStep 0; LAnswer 0 (RVal 1);
   LCall 1 6 (BoolStore false Release); LStep 1; LAnswer 1 RUnit; LStep 1;
   LCall 2 6 (BoolLoad Release); LStep 2; LAnswer 2 RPanic; LStep 2;
   LStep 0; LAnswer 0 (RVal 0); LStep 0; LAnswer 0 (RVal 0); LStep 0].
Definition ex_tr : list (levent pop (option pres) bop res) :=
  match layer_run (public_code ex_ev ex_g ex_kd) layer_init ex_ls with Some (_, tr) => tr | None => [] end.
Definition ex_rv (h : list (event bop res)) : list RiscvModel.rlabel :=
  flat_map (fun e => match e with Call t a o => [RiscvModel.LCall t a o] | Return t RPanic => [RiscvModel.LStep t] | Return t _ => [RiscvModel.LStep t; RiscvModel.LStep t] end) h.
Lemma run_some {A B} (o : option (A * list B)) : match o with Some _ => true | None => false end = true ->
  exists q, o = Some (q, match o with Some (_, tr) => tr | None => [] end).
Proof. destruct o as [[q tr]|]; [eauto|discriminate]. Qed.
Example ex_run_ok : exists q, layer_run (public_code ex_ev ex_g ex_kd) layer_init ex_ls = Some (q, ex_tr).
Proof. exact (run_some (layer_run (public_code ex_ev ex_g ex_kd) layer_init ex_ls) ltac:(vm_compute; reflexivity)). Qed.
Example ex_events : outer_of ex_tr =
    [Call 0%nat 6 (BoolUpdate ex_flip SeqCst Acquire); Call 1%nat 6 (BoolStore false Release); Return 1%nat (Some PUnit);
     Call 2%nat 6 (BoolLoad Release); Return 2%nat None; Return 0%nat (Some (POkB false))] /\
  inner_of ex_tr =
    [Call 0%nat 6 (BOp (OLoad Acquire)); Return 0%nat (RVal 1); Call 1%nat 6 (BOp (OStore 0 Release)); Return 1%nat RUnit;
     Call 2%nat 6 (BOp (OLoad Release)); Return 2%nat RPanic;
     Call 0%nat 6 (BOp (ORmw (And 0) SeqCst)); Return 0%nat (RVal 0); Call 0%nat 6 (BOp (ORmw (Or 1) SeqCst)); Return 0%nat (RVal 0)].
Proof. vm_compute. split; reflexivity. Qed.
Example ex_machine : forall be,
  match r_run (RiscvModel.mk_rv 32 be true false) PropertiesRiscv.vars0 (winit (RiscvModel.rv_init ex_mem)) (ex_rv (inner_of ex_tr)) with
  | Some (s, h) => h = inner_of ex_tr /\ map (RiscvModel.rmem (wbase s)) [4; 5; 6; 7; 8] = [255; 255; 1; 255; 255] | None => False end.
Proof. intros []; vm_compute; split; reflexivity. Qed.
Lemma ex_kinds a : kind_ok (ex_kd a).
Proof.
  assert (P : exists e, 0 <= e /\ 8 = 2 ^ e) by (exists 3; split; [lia|reflexivity]). assert (P' : exists e, 0 <= e /\ 16 = 2 ^ e) by (exists 4; split; [lia|reflexivity]).
  unfold ex_kd. destruct (a =? 6), (a =? 4), (a =? 7); assumption || exact Logic.I.
Qed.
Lemma ex_unit : FrontMain.float_unit ex_kd ex_ev.
Proof. intros a mw ew op hist x H. unfold ex_kd in H. destruct (a =? 6), (a =? 4), (a =? 7); discriminate H. Qed.
Lemma ex_types : at_types ex_kd PropertiesRiscv.vars0.
Proof. intros a t H. apply PropertiesRiscv.vars0_cases in H as [H|[H|H]]; injection H as -> ->; reflexivity. Qed.
Lemma ex_values be a : value_ok (ex_kd a) (init_bytes PropertiesRiscv.vars0 be ex_mem a).
Proof.
  unfold init_bytes, PropertiesRiscv.vars0. destruct (Z.eqb_spec a 4) as [->|]; [destruct be; vm_compute; repeat split; discriminate|].
  destruct (Z.eqb_spec a 6) as [->|]; [destruct be; (split; [vm_compute; repeat split; discriminate|right; vm_compute; reflexivity])|].
  destruct (Z.eqb_spec a 7) as [->|]; [destruct be; vm_compute; repeat split; discriminate|].
  unfold ex_kd. rewrite !(proj2 (Z.eqb_neq a _)) by assumption. vm_compute; repeat split; discriminate.
Qed.
Lemma ex_bytes : byte_mem ex_mem.
Proof. intros x. unfold ex_mem. destruct (x =? 6); lia. Qed.
Example ex_atomic : linearizable_to (fsem ex_kd (ieee ex_kd)) (init_bytes PropertiesRiscv.vars0 false ex_mem) (outer_of ex_tr)
  (fun a => if a =? 6 then Some 1 else None).
Proof.
  destruct ex_run_ok as [q R]. pose proof (ex_machine false) as E.
  destruct (r_run _ _ _ _) as [[s h]|] eqn:M; [|contradiction E]. destruct E as [-> F].
  destruct PropertiesRiscv.vars0_ok as (LO & A & _).
  destruct (C50_riscv ex_g ex_kd ex_ev ex_ls q ex_tr R ex_kinds ex_unit PropertiesRiscv.vars0 false ex_mem ex_types LO ex_bytes (ex_values false)
              (RiscvModel.mk_rv 32 false true false) (ex_rv (inner_of ex_tr)) s (or_introl eq_refl) eq_refl A M) as [(f & L & N) _].
  exists f. split; [exact L|]. intros a v H. destruct (Z.eqb_spec a 6) as [->|]; [|discriminate H]. injection H as <-. apply N.
  injection F as F1 F2 F3 F4 F5. unfold values. change (PropertiesRiscv.vars0 6) with (Some u8). unfold value_at.
  change (ld false (nbytes u8) (RiscvModel.rmem (wbase s)) 6) with (join_le 8 [RiscvModel.rmem (wbase s) 6]). rewrite F3. reflexivity.
Qed.

(** The same variables under a program: thread 0's fetch_update on the bool at 6 has a closure that flips the lowest bit of the i8 at 7 on every call;
    thread 1 stores false at 6 after its load. *)
Definition ex_progs (t : nat) : ClientSpec.prog pop (option pres) Z :=
  match t with
  | 0%nat => ClientSpec.Update 6 AcqRel Acquire 0
      (fun n x => ClientSpec.Prim 7 (Plain (ORmw (Xor 1) Relaxed)) (fun _ => ClientSpec.Ret (n + 1) (Some (1 - x))))
      (fun n r => ClientSpec.Ret n None)
  | 1%nat => ClientSpec.Prim 6 (BoolStore false Release) (fun _ => ClientSpec.Ret 0 None)
  | _ => ClientSpec.Ret 0 None
  end.
Definition ex_cls : list (nat * option (option pres)) :=
  let n t := (t, None) in let r t x := (t, Some (Some x)) in
  [n 0%nat; r 0%nat (PBool true); n 0%nat; r 0%nat (PPlain (RVal (-1))); n 1%nat; r 1%nat PUnit; n 0%nat; r 0%nat (PErrB false);
   n 0%nat; r 0%nat (PPlain (RVal (-2))); n 0%nat; r 0%nat (POkB false)].
Definition ex_ctr : list (ClientSpec.cevent pop (option pres)) :=
  match ClientModel.client_run (stack_iface ex_kd) Z (ClientModel.client_init Z ex_progs) ex_cls with Some (_, tr) => tr | None => [] end.
Definition ex_low (r : option pres) : res :=
  match r with Some (PBool b) | Some (POkB b) | Some (PErrB b) => RVal (Z.b2z b) | Some (PPlain r) => r | _ => RUnit end.
Definition ex_lls : list (llabel pop res) :=
  flat_map (fun e => match e with Call t a o => [LCall t a o; LStep t] | Return t r => [LAnswer t (ex_low r); LStep t] end) (ClientSpec.base_of ex_ctr).
Definition ex_ltr : list (levent pop (option pres) bop res) :=
  match layer_run (public_code ex_ev ex_g ex_kd) layer_init ex_lls with Some (_, tr) => tr | None => [] end.
Example ex_high : ClientSpec.high_of ex_ctr =
  [Call (ClientSpec.id 0 0) 6 (ClientSpec.HUpdate AcqRel Acquire);
   Call (ClientSpec.id 0 1) 7 (ClientSpec.HPrim (Plain (ORmw (Xor 1) Relaxed))); Return (ClientSpec.id 0 1) (ClientSpec.HRes (Some (PPlain (RVal (-1)))));
   Call (ClientSpec.id 1 0) 6 (ClientSpec.HPrim (BoolStore false Release)); Return (ClientSpec.id 1 0) (ClientSpec.HRes (Some PUnit));
   Call (ClientSpec.id 0 1) 7 (ClientSpec.HPrim (Plain (ORmw (Xor 1) Relaxed))); Return (ClientSpec.id 0 1) (ClientSpec.HRes (Some (PPlain (RVal (-2)))));
   Return (ClientSpec.id 0 0) (ClientSpec.HOk 0 1)].
Proof. vm_compute. reflexivity. Qed.
Example ex_stack : outer_of ex_ltr = ClientSpec.base_of ex_ctr /\
  match r_run (RiscvModel.mk_rv 32 false true false) PropertiesRiscv.vars0 (winit (RiscvModel.rv_init ex_mem)) (ex_rv (inner_of ex_ltr)) with
  | Some (s, h) => h = inner_of ex_ltr /\ map (RiscvModel.rmem (wbase s)) [4; 5; 6; 7; 8] = [255; 255; 1; 255; 255] | None => False end.
Proof. vm_compute. repeat split; reflexivity. Qed.
Lemma ex_lrun_ok : exists q, layer_run (public_code ex_ev ex_g ex_kd) layer_init ex_lls = Some (q, ex_ltr).
Proof. exact (run_some (layer_run (public_code ex_ev ex_g ex_kd) layer_init ex_lls) ltac:(vm_compute; reflexivity)). Qed.
Lemma ex_crun_ok : exists c, ClientModel.client_run (stack_iface ex_kd) Z (ClientModel.client_init Z ex_progs) ex_cls = Some (c, ex_ctr).
Proof. exact (run_some (ClientModel.client_run (stack_iface ex_kd) Z (ClientModel.client_init Z ex_progs) ex_cls) ltac:(vm_compute; reflexivity)). Qed.
Example ex_stack_atomic : linearizable_to (ClientSpec.hsem (fsem ex_kd (ieee ex_kd))) (init_bytes PropertiesRiscv.vars0 false ex_mem) (ClientSpec.high_of ex_ctr)
  (fun a => if a =? 6 then Some 1 else None).
Proof.
  destruct ex_stack as [O E].
  destruct ex_lrun_ok as [q R]. destruct ex_crun_ok as [c C].
  destruct (r_run _ _ _ _) as [[s h]|] eqn:M; [|contradiction E]. destruct E as [-> F].
  destruct PropertiesRiscv.vars0_ok as (LO & A & _).
  pose proof (C50_riscv ex_g ex_kd ex_ev ex_lls q ex_ltr R ex_kinds ex_unit PropertiesRiscv.vars0 false ex_mem ex_types LO ex_bytes (ex_values false)
              (RiscvModel.mk_rv 32 false true false) (ex_rv (inner_of ex_ltr)) s (or_introl eq_refl) eq_refl A M) as P.
  destruct (C50_with_closures _ _ _ _ _ Z ex_progs ex_cls c ex_ctr P C (eq_sym O)) as [(f & L & N) _].
  exists f. split; [exact L|]. intros a v H. destruct (Z.eqb_spec a 6) as [->|]; [|discriminate H]. injection H as <-. apply N.
  injection F as F1 F2 F3 F4 F5. unfold values. change (PropertiesRiscv.vars0 6) with (Some u8). unfold value_at.
  change (ld false (nbytes u8) (RiscvModel.rmem (wbase s)) 6) with (join_le 8 [RiscvModel.rmem (wbase s) 6]). rewrite F3. reflexivity.
Qed.

(** An f64 on Linux's kuser helpers: thread 0 negates while thread 1 is in a fetch_update that adds 1 to the bit pattern and has to retry. *)
Definition ex_fkd (_ : Z) : kind := KFloat 52 11.
Definition ex_next (_ : list Z) (x : Z) : option Z := Some (x + 1).
Definition ex_fls : list (llabel pop res) :=
  [LCall 1 8 (FlUpdate ex_next AcqRel Relaxed); LStep 1; LAnswer 1 (RVal 5);
   LCall 0 8 (FlNeg SeqCst); LStep 0; LAnswer 0 (RVal 5); LStep 0;
   LStep 1; LAnswer 1 (RErr (2 ^ 63 + 5)); LStep 1; LAnswer 1 (ROk (2 ^ 63 + 5)); LStep 1].
Definition ex_outer : list (event pop (option pres)) :=
  [Call 1%nat 8 (FlUpdate ex_next AcqRel Relaxed); Call 0%nat 8 (FlNeg SeqCst); Return 0%nat (Some (PVal 5)); Return 1%nat (Some (POk (2 ^ 63 + 5)))].
Definition ex_inner : list (event bop res) :=
  [Call 1%nat 8 (BOp (OLoad Relaxed)); Return 1%nat (RVal 5); Call 0%nat 8 (BOp (ORmw (Xor (2 ^ 63)) SeqCst)); Return 0%nat (RVal 5);
   Call 1%nat 8 (BCasWeak 5 6 AcqRel Relaxed); Return 1%nat (RErr (2 ^ 63 + 5));
   Call 1%nat 8 (BCasWeak (2 ^ 63 + 5) (2 ^ 63 + 6) AcqRel Relaxed); Return 1%nat (ROk (2 ^ 63 + 5))].
Definition ex_kls : list (label wop) :=
  flat_map (fun e => match e with Call t a o => [mk_label t (Some (a, wide_enc o)) false] | Return t _ => repeat (mk_label t None false) 4 end) ex_inner.
Example ex_float : exists ev, FrontMain.float_unit ex_fkd ev /\ (forall a, kind_ok (ex_fkd a)) /\ mem_ok (ints ex_fkd) (fun _ => 5) /\
  match layer_run (public_code ev (mk_pcfg false false) ex_fkd) layer_init ex_fls with Some (_, tr) => outer_of tr = ex_outer /\ inner_of tr = ex_inner | None => False end.
Proof.
  destruct (PropertiesFloat.C23_unit_exists ex_fkd) as [ev U]; [intros a mw ew K; injection K as <- <-; vm_compute; repeat split; reflexivity|].
  exists ev. split; [exact U|]. clear U. split; [intros a; cbn; lia|]. split; [intros a; vm_compute; split; [discriminate|reflexivity]|].
  vm_compute; split; reflexivity.
Qed.
Example ex_kuser :
  match asm_run (enext (KuserModel.knext false) RPanic) (ecode (KuserModel.k_code_of (ints ex_fkd)) check_w) (asm_init (fun _ => 5)) ex_kls with
  | Some (s, h) => h = rename wide_enc ex_inner /\ amem s 8 = 2 ^ 63 + 6 | None => False end.
Proof. vm_compute. split; reflexivity. Qed.

Print Assumptions C50_any_backend.
Print Assumptions C50_offered.
Print Assumptions C50_continues.
Print Assumptions C50_x86.
Print Assumptions C50_s390x.
Print Assumptions C50_power.
Print Assumptions C50_aarch64.
Print Assumptions C50_riscv_zacas.
Print Assumptions C50_kuser.
Print Assumptions C50_intrinsics.
Print Assumptions C50_core.
Print Assumptions C50_fallback.
Print Assumptions C50_fallback_final.
Print Assumptions C50_riscv.
Print Assumptions C50_interrupt.
Print Assumptions C50_critical_section.
Print Assumptions C50_psram.
Print Assumptions C50_with_closures.
