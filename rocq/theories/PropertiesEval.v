(** * C54: how often fetch_update calls its closure

    Setting as for C49: threads running arbitrary programs [progs], whose closures may themselves do anything, produce the events [tr], and the
    backend's machine its part [base_of tr] of it.  [few_evals] and [few_evals_strong]: EvalSpec. *)
From Coq Require Import ZArith List Bool Lia.
From Verif Require Import Words Spec.
From Verif Require FallbackModel FallbackFacts FallbackMain PropertiesFallback.
From Verif Require Import WideSpec LoopModel AsmModel BlockModel ByteMem ByteSpec FrontSpec FloatSpec UpdateSpec CoreModel.
From Verif Require X86Model S390xModel PowerModel Aarch64Model ZacasModel KuserModel IntrinsicsModel FrontModel FrontMain RiscvModel IntModel CsSpec CsModel.
From Verif Require PropertiesX86 PropertiesS390x PropertiesPower PropertiesAarch64 PropertiesLoops PropertiesIntrinsics PropertiesFront PropertiesInt PropertiesCs.
From Verif Require Import ClientSpec ClientModel PropertiesClient EvalSpec.
From Verif Require EvalProofs.
Import ListNotations.
Open Scope Z_scope.

(** ** Around any backend whose operations behave as [sem] says *)
Theorem C54_any_backend : forall Op Res (sem : Z -> Op -> Z -> Z * Res -> Prop) (F : iface Op Res) reads St progs ls c tr init fin,
  iface_ok sem F -> reads_only reads sem -> client_run F St (client_init St progs) ls = Some (c, tr) ->
  linearizable_to sem init (base_of tr) fin -> few_evals reads tr.
Proof. intros Op Res sem F reads St progs ls c tr init fin FO RO R L. exact (EvalProofs.client_few_evals sem F FO reads RO St progs ls c tr init fin R L). Qed.
(** ... and whose compare_exchange_weak never fails for no reason *)
Theorem C54_any_strong_backend : forall Op Res (sem : Z -> Op -> Z -> Z * Res -> Prop) (F : iface Op Res) reads St progs ls c tr init fin,
  iface_ok sem F -> reads_only reads sem -> never_for_no_reason sem F -> client_run F St (client_init St progs) ls = Some (c, tr) ->
  linearizable_to sem init (base_of tr) fin -> few_evals_strong reads tr.
Proof. intros Op Res sem F reads St progs ls c tr init fin FO RO Sg R L. exact (EvalProofs.client_few_evals_strong sem F FO reads RO St progs ls c tr init fin Sg R L). Qed.

(** ** If nobody else, the closure included, may change the variable: *)
Definition undisturbed {Op Res} (reads : Op -> bool) (a : Z) (i : nat) (tr1 tr2 : list (cevent Op Res)) : Prop :=
  (forall j, j <> i -> ~ rival_on reads a tr1 j) /\ forall j o, j <> i -> In (High (Call j a o)) tr2 -> changes reads o = false.
Lemma no_rivals Op Res (reads : Op -> bool) a i (tr2 : list (cevent Op Res)) :
  (forall j o, j <> i -> In (High (Call j a o)) tr2 -> changes reads o = false) -> rival_calls reads a i tr2 = 0%nat.
Proof.
  induction tr2 as [|e tr2 IH]; intros H; [reflexivity|]. assert (IH' : rival_calls reads a i tr2 = 0%nat) by (apply IH; intros j o N X; apply (H j o N); now right).
  destruct e as [[j b o|j r]|j x|j y|e]; cbn [rival_calls]; rewrite ?IH'; try reflexivity.
  destruct (Nat.eqb_spec j i) as [->|N]; [reflexivity|]. cbn [negb andb]. destruct (Z.eqb_spec b a) as [->|]; [|reflexivity]. now rewrite (H j o N) by now left.
Qed.
Lemma same_values Op Res i (tr : list (cevent Op Res)) : forall v, new_values i (Some v) tr = 0%nat -> forall w, In (Eval i w) tr -> w = v.
Proof.
  induction tr as [|e tr IH]; intros v N w X; [contradiction X|]. destruct X as [X|X]; [subst e|].
  - cbn [new_values] in N. rewrite Nat.eqb_refl in N. cbn [differs] in N. destruct (Z.eqb_spec v w); [congruence|discriminate N].
  - destruct e as [e|j x|j y|e]; cbn [new_values] in N; try (now apply (IH v N)). destruct (Nat.eqb_spec j i) as [->|]; [|now apply (IH v N)].
    cbn [differs] in N. destruct (Z.eqb_spec v x) as [Ev|]; [|discriminate N]. rewrite Ev. now apply (IH x N).
Qed.
Lemma one_value Op Res i (tr : list (cevent Op Res)) : (new_values i None tr <= 1)%nat -> forall v w, In (Eval i v) tr -> In (Eval i w) tr -> v = w.
Proof.
  induction tr as [|e tr IH]; intros N v w X Y; [contradiction X|].
  assert (Skip : forall e', e = e' -> (forall x, e' <> Eval i x) -> new_values i None (e :: tr) = new_values i None tr -> v = w).
  { intros e' -> Ne En. rewrite En in N. apply IH; [exact N| |]; [destruct X as [X|X]; [now apply Ne in X|exact X]|destruct Y as [Y|Y]; [now apply Ne in Y|exact Y]]. }
  destruct e as [e|j x|j y|e]; try (eapply Skip; [reflexivity|intros; discriminate|reflexivity]).
  cbn [new_values] in N. destruct (Nat.eqb_spec j i) as [->|Nj].
  - cbn [differs] in N. assert (Z0 : new_values i (Some x) tr = 0%nat) by lia. pose proof (same_values _ _ _ _ _ Z0) as Sv.
    destruct X as [X|X]; destruct Y as [Y|Y]; try (injection X as <-); try (injection Y as <-); try apply Sv in X; try apply Sv in Y; congruence.
  - eapply Skip; [reflexivity| |]; [intros z E; injection E as E _; contradiction|]. cbn [new_values]. now destruct (Nat.eqb_spec j i).
Qed.
(** all calls of the closure get the same value; *)
Theorem C54_undisturbed : forall Op Res (reads : Op -> bool) (tr : list (cevent Op Res)) tr1 i a so fo tr2 tr3, few_evals reads tr ->
  tr = tr1 ++ High (Call i a (HUpdate so fo)) :: tr2 ++ tr3 -> (forall r, ~ In (High (Return i r)) tr2) -> undisturbed reads a i tr1 tr2 ->
  forall v w, In (Eval i v) tr2 -> In (Eval i w) tr2 -> v = w.
Proof.
  intros Op Res reads tr tr1 i a so fo tr2 tr3 Fe E NR [Q1 Q2]. apply one_value.
  pose proof (Fe tr1 i a so fo tr2 tr3 [] E NR (fun j N B => False_ind _ (Q1 j N B))) as L. now rewrite (no_rivals _ _ _ _ _ _ Q2) in L.
Qed.
(** where compare_exchange_weak never fails for no reason, there is only one. *)
Theorem C54_undisturbed_once : forall Op Res (reads : Op -> bool) (tr : list (cevent Op Res)) tr1 i a so fo tr2 tr3, few_evals_strong reads tr ->
  tr = tr1 ++ High (Call i a (HUpdate so fo)) :: tr2 ++ tr3 -> (forall r, ~ In (High (Return i r)) tr2) -> undisturbed reads a i tr1 tr2 ->
  (evals i tr2 <= 1)%nat.
Proof.
  intros Op Res reads tr tr1 i a so fo tr2 tr3 Fe E NR [Q1 Q2].
  pose proof (Fe tr1 i a so fo tr2 tr3 [] E NR (fun j N B => False_ind _ (Q1 j N B))) as L. now rewrite (no_rivals _ _ _ _ _ _ Q2) in L.
Qed.

(** ** On each backend *)
Definition is_load (o : op) : bool := match o with OLoad _ => true | _ => false end.
Definition wide_reads (o : wop) : bool := match o with WOp o => is_load o | _ => false end.
Definition core_reads (o : uop) : bool := match o with UOp o => wide_reads o | _ => false end.
Definition byte_reads (o : bop) : bool := match o with BOp o => is_load o | _ => false end.
Definition public_reads (o : pop) : bool := match o with Plain o => is_load o | BoolLoad _ | FlLoad _ => true | _ => false end.
Lemma load_keeps t o x x' r : is_load o = true -> (x', r) = spec_op t o x -> x' = x.
Proof. destruct o; try discriminate. intros _. destruct (load_meaning t o x) as [->|[-> _]]; congruence. Qed.
Lemma wide_reads_ok ty : reads_only wide_reads (sem ty).
Proof. intros a [o|c n s f] x x' r E; [|discriminate E]. cbn in E |- *. now apply (load_keeps (ty a)). Qed.
Lemma core_reads_ok ty : reads_only core_reads (usem ty).
Proof. intros a [o|s f g] x x' r E; [|discriminate E]. exact (wide_reads_ok ty a o x x' r E). Qed.
Lemma fallback_reads_ok cf : reads_only is_load (FallbackModel.atomic_var cf).
Proof. intros a o x x' r E (t & _ & H). exact (load_keeps t o x x' r E H). Qed.
Lemma byte_reads_ok vars : reads_only byte_reads (byte_sem vars).
Proof. intros a [o|c n s f|k o] x x' r E (t & _ & H); try discriminate E. exact (load_keeps t o x x' r E H). Qed.
Lemma weak_byte_reads_ok vars : reads_only byte_reads (weak_byte_sem vars).
Proof.
  intros a o x x' r E (t & V & [H|[(cu & nw & su & fa & ->) H]]); [|now injection H]. apply (byte_reads_ok vars a o x x' r E). exists t. auto.
Qed.
Lemma public_reads_ok kd arith : reads_only public_reads (psem kd arith).
Proof.
  intros a o x x' r E. unfold psem. destruct (kd a) as [t| |w sz|mw ew], o; try discriminate E; try contradiction; cbn [public_reads] in E.
  - intros H. apply pair_equal_spec in H as [-> _]. eapply (load_keeps t _ x _ _ E). symmetry. apply surjective_pairing.
  - intros (b & _ & H). now injection H.
  - intros H. apply pair_equal_spec in H as [-> _]. eapply (load_keeps (mk_ity w false) _ x _ _ E). symmetry. apply surjective_pairing.
  - intros H. now injection H.
Qed.
Lemma cas_strong t c n s f x x' v : (x', RErr v) = spec_op t (OCas c n s f) x -> v <> c.
Proof. cbn [spec_op]. destruct f; try discriminate; destruct (Z.eqb_spec x c); congruence. Qed.
Lemma swapped_false r v : swapped_res r = Some (false, v) -> r = RErr v.
Proof. destruct r; try discriminate. cbn. congruence. Qed.
Lemma fallback_strong cf : never_for_no_reason (FallbackModel.atomic_var cf) (fallback_iface cf).
Proof. intros a c n so fo x x' r v _ _ (t & _ & H) S. apply swapped_false in S as ->. exact (cas_strong t c n so fo x x' v H). Qed.
Lemma byte_strong vars : never_for_no_reason (byte_sem vars) (byte_iface vars).
Proof. intros a c n so fo x x' r v _ _ (t & _ & H) S. apply swapped_false in S as ->. exact (cas_strong t c n so fo x x' v H). Qed.

(** *** The crate's own 128-bit and 64-bit implementations *)
Section Wide.
  Variables (St : Type) (ty : Z -> ity) (progs : nat -> prog wop res St) (ls' : list (nat * option res))
    (c : cstate (Op := wop) (Res := res) St) (tr : list (cevent wop res)) (m : Z -> Z).
  Hypothesis run : client_run (wide_iface ty) St (client_init St progs) ls' = Some (c, tr).
  Hypothesis sizes : forall a, 0 < ibits (ty a).
  Hypothesis Hm : mem_ok ty m.
  Lemma wide_evals s : atomic_history ty m (base_of tr) s -> few_evals wide_reads tr.
  Proof. intros H. exact (C54_any_backend _ _ (sem ty) (wide_iface ty) wide_reads St progs ls' c tr _ _ (wide_iface_ok ty) (wide_reads_ok ty) run H). Qed.
  Theorem C54_x86 : forall g junk ls s,
    asm_run X86Model.next (X86Model.code_of g ty junk) (asm_init m) ls = Some (s, base_of tr) -> few_evals wide_reads tr.
  Proof. intros g junk ls s H. eapply wide_evals. eapply PropertiesX86.C11_x86_atomic; eauto. Qed.
  Theorem C54_s390x : forall g pm junk ls s, 0 <= pm < 16 -> S390xModel.cc_reg g <> S390xModel.R0 /\ S390xModel.cc_reg g <> S390xModel.R1 ->
    asm_run (bnext (S390xModel.exec1 pm) S390xModel.test S390xModel.access) (S390xModel.code_of g ty junk) (asm_init m) ls = Some (s, base_of tr) ->
    few_evals wide_reads tr.
  Proof. intros g pm junk ls s P R H. eapply wide_evals. eapply PropertiesS390x.C11_s390x_atomic; eauto. Qed.
  Theorem C54_power : forall g junk ls s,
    asm_run (bnext PowerModel.exec1 PowerModel.test PowerModel.access) (PowerModel.code_of g ty junk) (asm_init m) ls = Some (s, base_of tr) ->
    few_evals wide_reads tr.
  Proof. intros g junk ls s H. eapply wide_evals. eapply PropertiesPower.C11_power_atomic; eauto. Qed.
  Theorem C54_aarch64 : forall g h junk ls s, Aarch64Model.sound g h ->
    asm_run (bnext Aarch64Model.exec1 Aarch64Model.test (Aarch64Model.access (Aarch64Model.be g) h)) (Aarch64Model.code_of g h ty junk) (asm_init m) ls = Some (s, base_of tr) ->
    few_evals wide_reads tr.
  Proof. intros g h junk ls s SO H. eapply wide_evals. eapply PropertiesAarch64.C11_aarch64_atomic; eauto. Qed.
  Theorem C54_riscv : forall w ls s, w = 64 \/ w = 32 ->
    asm_run (ZacasModel.znext w) (ZacasModel.z_code_of w ty) (asm_init m) ls = Some (s, base_of tr) -> few_evals wide_reads tr.
  Proof. intros w ls s W H. eapply wide_evals. eapply PropertiesLoops.C11_riscv_atomic; eauto. Qed.
  Theorem C54_kuser : forall be ls s,
    asm_run (KuserModel.knext be) (KuserModel.k_code_of ty) (asm_init m) ls = Some (s, base_of tr) -> few_evals wide_reads tr.
  Proof. intros be ls s H. eapply wide_evals. eapply PropertiesLoops.C14_kuser_atomic; eauto. Qed.
  Theorem C54_intrinsics : forall g ls s,
    asm_run (IntrinsicsModel.inext g) (IntrinsicsModel.i_code_of g ty) (asm_init m) ls = Some (s, base_of tr) -> few_evals wide_reads tr.
  Proof. intros g ls s H. eapply wide_evals. eapply PropertiesIntrinsics.C11_intrinsics_atomic; eauto. Qed.
End Wide.

(** *** core's atomics *)
Theorem C54_core : forall St ty progs ls' (c : cstate (Op := uop) (Res := res) St) tr m g ls s,
  client_run (core_iface ty) St (client_init St progs) ls' = Some (c, tr) -> (forall a, 0 < ibits (ty a)) -> mem_ok ty m ->
  asm_run cnext (c_code_of g ty) (asm_init m) ls = Some (s, base_of tr) -> few_evals core_reads tr.
Proof.
  intros St ty progs ls' c tr m g ls s R W M H. eapply (C54_any_backend _ _ (usem ty) (core_iface ty) core_reads St progs ls' c tr _ _ (core_iface_ok ty) (core_reads_ok ty) R).
  exact (PropertiesLoops.C12_fetch_update_atomic g ty m ls s (base_of tr) W M H).
Qed.

(** *** AtomicBool, AtomicPtr, floats and integers, side by side *)
Theorem C54_all_types : forall St kd progs ls' (c : cstate (Op := pop) (Res := pres) St) tr m g ev ls s,
  client_run (front_iface kd) St (client_init St progs) ls' = Some (c, tr) ->
  (forall a, kind_ok (kd a)) -> FrontMain.float_unit kd ev -> pmem_ok kd m ->
  asm_run FrontModel.fnext (FrontModel.p_code_of ev g kd) (asm_init m) ls = Some (s, base_of tr) -> few_evals public_reads tr.
Proof.
  intros St kd progs ls' c tr m g ev ls s R K U M H.
  eapply (C54_any_backend _ _ (psem kd (ieee kd)) (front_iface kd) public_reads St progs ls' c tr _ _ (front_iface_ok kd _) (public_reads_ok kd _) R).
  exact (PropertiesFront.C18_bool_atomic g kd ev m ls s (base_of tr) K U M H).
Qed.

(** *** The lock-based fallback *)
Theorem C54_fallback : forall St cf progs ls' (c : cstate (Op := op) (Res := res) St) tr m ls s,
  client_run (fallback_iface cf) St (client_init St progs) ls' = Some (c, tr) ->
  FallbackModel.wf_config cf -> FallbackModel.wf_mem cf m ->
  FallbackModel.run cf (FallbackModel.init m) ls = Some (s, base_of tr) -> FallbackModel.windows_ok cf (FallbackModel.init m) ls ->
  few_evals_strong is_load tr.
Proof.
  intros St cf progs ls' c tr m ls s R WF WM H W.
  apply (C54_any_strong_backend _ _ (FallbackModel.atomic_var cf) (fallback_iface cf) is_load St progs ls' c tr (FallbackModel.var_value cf m) (fun _ => None)
           (fallback_iface_ok cf) (fallback_reads_ok cf) (fallback_strong cf) R).
  destruct (FallbackModel.wide cf) eqn:E.
  - destruct (PropertiesFallback.C02_fallback_wide_linearizable cf m ls s _ E WF WM H W) as [a A]. exists a. split; [exact A|discriminate].
  - destruct (PropertiesFallback.C01_fallback_linearizable cf m ls s _ E WF WM H W) as [a A]. exists a. split; [exact A|discriminate].
Qed.

(** *** Interrupts disabled around every operation *)
Theorem C54_interrupt : forall St vars progs ls' (c : cstate (Op := bop) (Res := res) St) tr ar be rd wr m s0 ls s h,
  client_run (byte_iface vars) St (client_init St progs) ls' = Some (c, tr) ->
  IntMain.arch_ok ar be vars -> layout_ok vars -> PropertiesInt.reads_all_bytes rd -> PropertiesInt.writes_exactly wr -> byte_mem m ->
  IntModel.irun ar be vars rd wr (IntModel.iinit m s0) ls = Some (s, h) -> IntModel.history h = base_of tr ->
  few_evals_strong byte_reads tr.
Proof.
  intros St vars progs ls' c tr ar be rd wr m s0 ls s h R AO LO RO WO M H E.
  eapply (C54_any_strong_backend _ _ (byte_sem vars) (byte_iface vars) byte_reads St progs ls' c tr _ _ (byte_iface_ok vars) (byte_reads_ok vars) (byte_strong vars) R). rewrite <- E.
  exact (PropertiesInt.C20_interrupt_atomic ar be vars rd wr m s0 ls s h AO LO RO WO M H).
Qed.
(** *** The critical-section feature *)
Theorem C54_critical_section : forall St vars progs ls' (c : cstate (Op := bop) (Res := res) St) tr be rd wr m ls s,
  client_run (byte_iface vars) St (client_init St progs) ls' = Some (c, tr) ->
  layout_ok vars -> PropertiesCs.reads_all_bytes rd -> PropertiesCs.writes_exactly wr -> byte_mem m ->
  CsModel.mruns CsModel.Feature be vars rd wr (CsModel.minit m) ls = Some (s, base_of tr) ->
  few_evals_strong byte_reads tr.
Proof.
  intros St vars progs ls' c tr be rd wr m ls s R LO RO WO M H.
  eapply (C54_any_strong_backend _ _ (byte_sem vars) (byte_iface vars) byte_reads St progs ls' c tr _ _ (byte_iface_ok vars) (byte_reads_ok vars) (byte_strong vars) R).
  exact (PropertiesCs.C39_critical_section_atomic be vars rd wr m ls s _ LO RO WO M H).
Qed.
(** *** ESP32 and ESP32-S3 *)
Theorem C54_psram : forall St vars progs ls' (c : cstate (Op := bop) (Res := res) St) tr ch cs be rd wr m ls s,
  client_run (byte_iface vars) St (client_init St progs) ls' = Some (c, tr) ->
  PropertiesCs.narrow vars -> layout_ok vars -> PropertiesCs.reads_all_bytes rd -> PropertiesCs.writes_exactly wr -> byte_mem m ->
  CsModel.mruns (CsModel.Esp ch cs) be vars rd wr (CsModel.minit m) ls = Some (s, base_of tr) ->
  few_evals byte_reads tr.
Proof.
  intros St vars progs ls' c tr ch cs be rd wr m ls s R N LO RO WO M H.
  eapply (C54_any_backend _ _ (weak_byte_sem vars) (byte_iface vars) byte_reads St progs ls' c tr _ _ (weak_byte_iface_ok vars) (weak_byte_reads_ok vars) R).
  exact (PropertiesCs.C40_psram_atomic ch cs be vars rd wr m ls s _ N LO RO WO M H).
Qed.

(** ** The hypotheses are met, and the bound is reached *)
(** C49's run: thread 0's closure flips the bool at 8 and updates it, and is called twice, because thread 1 stores at 0 meanwhile. *)
Definition ex_call : nat := id 0 0.
Definition ex_stretch : list (cevent pop pres) := removelast (tl ex_tr).
Example ex_is_stretch : exists r, ex_tr = [] ++ High (Call ex_call 0 (HUpdate Release Acquire)) :: ex_stretch ++ [High (Return ex_call r)].
Proof. exists (HOk 5 6). vm_compute. reflexivity. Qed.
Example ex_counts : (evals ex_call ex_stretch, new_values ex_call None ex_stretch, rival_calls public_reads 0 ex_call ex_stretch) = (2, 2, 1)%nat.
Proof. vm_compute. reflexivity. Qed.
Example ex_few : few_evals public_reads ex_tr.
Proof.
  pose proof ex_machine as E.
  destruct (asm_run FrontModel.fnext (FrontModel.p_code_of ex_ev ex_g ex_kd) (asm_init (fun a => if a =? 0 then 3 else 0)) (ex_base ex_tr)) as [[s h]|] eqn:R; [|contradiction E].
  destruct E as (-> & _).
  assert (exists c, client_run (front_iface ex_kd) Z (client_init Z ex_progs) ex_ls = Some (c, ex_tr)) as [c C].
  { unfold ex_tr. destruct (client_run (front_iface ex_kd) Z (client_init Z ex_progs) ex_ls) as [[c tr]|] eqn:Q; [eauto|].
    exfalso. revert Q. assert (T : match client_run (front_iface ex_kd) Z (client_init Z ex_progs) ex_ls with Some _ => true | None => false end = true) by (vm_compute; reflexivity).
    intros Q. rewrite Q in T. discriminate T. }
  apply (C54_all_types Z ex_kd ex_progs ex_ls c ex_tr (fun a => if a =? 0 then 3 else 0) ex_g ex_ev (ex_base ex_tr) s C).
  - intros a. unfold ex_kd. destruct (a =? 8); cbn; [exact Logic.I|]. exists 3. split; [lia|reflexivity].
  - intros a mw ew op hist x H. unfold ex_kd in H. destruct (a =? 8); discriminate H.
  - intros a. unfold ex_kd. destruct (Z.eqb_spec a 0) as [->|]; [cbn; lia|]. destruct (a =? 8); cbn; lia.
  - exact R.
Qed.
(** The updates of the bool at 8 are undisturbed: its closure is called once each time. *)
Example ex_bool_once : filter (fun e => match e with Eval i _ => Nat.eqb i (id 0 1) | High (Call i 8 (HUpdate _ _)) => Nat.eqb i (id 0 1) | _ => false end) ex_tr =
  [High (Call (id 0 1) 8 (HUpdate SeqCst Relaxed)); Eval (id 0 1) 1; High (Call (id 0 1) 8 (HUpdate SeqCst Relaxed)); Eval (id 0 1) 0].
Proof. vm_compute. reflexivity. Qed.
(** A closure that itself changes the variable counts as disturbing: thread 0 updates the byte at 0 with a closure that first stores x + 1 there and then answers x + 10; with the
    answers a byte of memory gives, its n-th call gets n - 1, and it is never done. *)
Definition self_vars : layout := fun a => if a =? 0 then Some (mk_ity 8 false) else None.
Definition self_progs (t : nat) : prog bop res unit :=
  match t with
  | 0%nat => Update 0 SeqCst SeqCst tt (fun _ x => Prim 0 (BOp (OStore (x + 1) SeqCst)) (fun _ => Ret tt (Some (x + 10)))) (fun _ _ => Ret tt None)
  | _ => Ret tt None
  end.
Definition self_ls : list (nat * option res) :=
  [(0, None); (0, Some (RVal 0)); (0, None); (0, Some RUnit); (0, None); (0, Some (RErr 1)); (0, None); (0, Some RUnit); (0, None); (0, Some (RErr 2))]%nat.
Definition self_tr : list (cevent bop res) := match client_run (byte_iface self_vars) unit (client_init unit self_progs) self_ls with Some (_, tr) => tr | None => [] end.
Example self_counts : (evals (id 0 0) (tl self_tr), rival_calls byte_reads 0 (id 0 0) (tl self_tr)) = (3, 2)%nat.
Proof. vm_compute. reflexivity. Qed.

(** ... and the critical-section machine really gives those answers, so [few_evals_strong] follows. *)
Definition self_machine : list CsModel.mlabel :=
  flat_map (fun e => match e with Call t a o => [CsModel.MCall t a o] | Return t _ => repeat (CsModel.MStep t false) 6 end) (base_of self_tr).
Lemma self_layout : layout_ok self_vars.
Proof.
  assert (V : forall a t, self_vars a = Some t -> a = 0 /\ t = mk_ity 8 false).
  { intros a t. unfold self_vars. destruct (Z.eqb_spec a 0) as [->|]; [|discriminate]. intros H. injection H as <-. auto. }
  constructor; intros a t; try (intros b u x H1 H2; apply V in H1 as [-> ->]; apply V in H2 as [-> ->]; tauto);
    intros H; apply V in H as [-> ->]; cbn; auto.
Qed.
Example self_few : few_evals_strong byte_reads self_tr.
Proof.
  assert (R : exists c, client_run (byte_iface self_vars) unit (client_init unit self_progs) self_ls = Some (c, self_tr)).
  { unfold self_tr. destruct (client_run (byte_iface self_vars) unit (client_init unit self_progs) self_ls) as [[c tr]|] eqn:Q; [eauto|]. exfalso.
    assert (T : match client_run (byte_iface self_vars) unit (client_init unit self_progs) self_ls with Some _ => true | None => false end = true) by (vm_compute; reflexivity).
    rewrite Q in T. discriminate T. }
  assert (M : match CsModel.mruns CsModel.Feature false self_vars (seq 0) (seq 0) (CsModel.minit (fun _ => 0)) self_machine with Some (_, h) => h = base_of self_tr | None => False end)
    by (vm_compute; reflexivity).
  destruct R as [c R]. destruct (CsModel.mruns _ _ _ _ _ _ _) as [[s h]|] eqn:E; [|contradiction M]. subst h.
  apply (C54_critical_section unit self_vars self_progs self_ls c self_tr false (seq 0) (seq 0) (fun _ => 0) self_machine s R) with (5 := E).
  - exact self_layout.
  - intros n i L. apply in_seq. lia.
  - exact (proj2 (proj2 (proj2 PropertiesCs.vars1_ok))).
  - intros x. cbn. lia.
Qed.

Print Assumptions C54_any_backend.
Print Assumptions C54_any_strong_backend.
Print Assumptions C54_undisturbed.
Print Assumptions C54_undisturbed_once.
Print Assumptions C54_x86.
Print Assumptions C54_core.
Print Assumptions C54_all_types.
Print Assumptions C54_fallback.
Print Assumptions C54_interrupt.
Print Assumptions C54_critical_section.
Print Assumptions C54_psram.
