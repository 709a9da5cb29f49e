(** * C08 on every backend entry point: calls with any ordering at all

    [enext]/[ecode] put the ordering check of each public function in front of its body (EntryModel).
    In [atomic_history_all] (EntrySpec) a call with a forbidden ordering panics and changes nothing, any other call
    does what it does in [atomic_history]. *)
From Coq Require Import ZArith List Bool Lia.
From Verif Require Import Words Spec WideSpec WordsFacts LoopModel AsmModel BlockModel UpdateSpec FrontSpec FloatSpec
  ByteMem ByteSpec EntrySpec EntryModel EntryMain EntryLts EntryLtsProofs.
From Verif Require RiscvModel IntModel IntMain CsSpec CsModel PropertiesInt PropertiesCs.
From Verif Require X86Model S390xModel PowerModel Aarch64Model Aarch64Impl IntrinsicsModel FrontModel FrontMain.
From Verif Require Import KuserModel CoreModel ZacasModel.
From Verif Require PropertiesX86 PropertiesS390x PropertiesPower PropertiesAarch64 PropertiesIntrinsics PropertiesLoops PropertiesFront.
Import ListNotations.
Open Scope Z_scope.

(** Any number of threads, any schedule, any orderings. *)
Theorem C08_x86_any_ordering : forall g ty junk m ls s h, (forall a, 0 < ibits (ty a)) -> mem_ok ty m ->
  asm_run (enext X86Model.next RPanic) (ecode (X86Model.code_of g ty junk) check_w) (asm_init m) ls = Some (s, h) ->
  atomic_history_all ty m h (amem s).
Proof.
  intros g ty junk m ls s h W M. apply entry_atomic. intros ls0 b h0. now apply PropertiesX86.C11_x86_atomic.
Qed.
Theorem C08_s390x_any_ordering : forall g pm ty junk m ls s h, 0 <= pm < 16 ->
  S390xModel.cc_reg g <> S390xModel.R0 /\ S390xModel.cc_reg g <> S390xModel.R1 -> (forall a, 0 < ibits (ty a)) -> mem_ok ty m ->
  asm_run (enext (bnext (S390xModel.exec1 pm) S390xModel.test S390xModel.access) RPanic)
    (ecode (S390xModel.code_of g ty junk) check_w) (asm_init m) ls = Some (s, h) ->
  atomic_history_all ty m h (amem s).
Proof.
  intros g pm ty junk m ls s h P G W M. apply entry_atomic. intros ls0 b h0. now apply PropertiesS390x.C11_s390x_atomic.
Qed.
Theorem C08_power_any_ordering : forall g ty junk m ls s h, (forall a, 0 < ibits (ty a)) -> mem_ok ty m ->
  asm_run (enext (bnext PowerModel.exec1 PowerModel.test PowerModel.access) RPanic)
    (ecode (PowerModel.code_of g ty junk) check_w) (asm_init m) ls = Some (s, h) ->
  atomic_history_all ty m h (amem s).
Proof.
  intros g ty junk m ls s h W M. apply entry_atomic. intros ls0 b h0. now apply PropertiesPower.C11_power_atomic.
Qed.
Theorem C08_aarch64_any_ordering : forall g h ty junk m ls s hs, Aarch64Model.sound g h -> (forall a, 0 < ibits (ty a)) -> mem_ok ty m ->
  asm_run (enext (bnext Aarch64Model.exec1 Aarch64Model.test (Aarch64Model.access (Aarch64Model.be g) h)) RPanic)
    (ecode (Aarch64Model.code_of g h ty junk) check_w) (asm_init m) ls = Some (s, hs) ->
  atomic_history_all ty m hs (amem s).
Proof.
  intros g h ty junk m ls s hs SO W M. apply entry_atomic. intros ls0 b h0. now apply PropertiesAarch64.C11_aarch64_atomic.
Qed.
Theorem C08_riscv_any_ordering : forall w ty m ls s h, w = 64 \/ w = 32 -> (forall a, 0 < ibits (ty a)) -> mem_ok ty m ->
  asm_run (enext (znext w) RPanic) (ecode (z_code_of w ty) check_w) (asm_init m) ls = Some (s, h) ->
  atomic_history_all ty m h (amem s).
Proof.
  intros w ty m ls s h W WF M. apply entry_atomic. intros ls0 b h0. now apply PropertiesLoops.C11_riscv_atomic.
Qed.
Theorem C08_kuser_any_ordering : forall be ty m ls s h, (forall a, 0 < ibits (ty a)) -> mem_ok ty m ->
  asm_run (enext (knext be) RPanic) (ecode (k_code_of ty) check_w) (asm_init m) ls = Some (s, h) ->
  atomic_history_all ty m h (amem s).
Proof.
  intros be ty m ls s h WF M. apply entry_atomic. intros ls0 b h0. now apply PropertiesLoops.C14_kuser_atomic.
Qed.
Theorem C08_intrinsics_any_ordering : forall g ty m ls s h, (forall a, 0 < ibits (ty a)) -> mem_ok ty m ->
  asm_run (enext (IntrinsicsModel.inext g) RPanic) (ecode (IntrinsicsModel.i_code_of g ty) check_w) (asm_init m) ls = Some (s, h) ->
  atomic_history_all ty m h (amem s).
Proof.
  intros g ty m ls s h WF M. apply entry_atomic. intros ls0 b h0. now apply PropertiesIntrinsics.C11_intrinsics_atomic.
Qed.
(** The wrappers around core's atomics, with [fetch_update]. *)
Theorem C08_core_any_ordering : forall g ty m ls s h, (forall a, 0 < ibits (ty a)) -> mem_ok ty m ->
  asm_run (enext cnext RPanic) (ecode (c_code_of g ty) check_u) (asm_init m) ls = Some (s, h) ->
  atomic_history_u_all ty m h (amem s).
Proof.
  intros g ty m ls s h WF M. apply entry_atomic_u. intros ls0 b h0. now apply PropertiesLoops.C12_fetch_update_atomic.
Qed.
(** Bools, pointers, floats and the bit operations. *)
Theorem C08_types_any_ordering : forall g kd ev m ls s h, (forall a, kind_ok (kd a)) -> FrontMain.float_unit kd ev -> pmem_ok kd m ->
  asm_run (enext FrontModel.fnext (PPlain RPanic)) (ecode (FrontModel.p_code_of ev g kd) check_p) (asm_init m) ls = Some (s, h) ->
  atomic_history_p_all kd (ieee kd) m h (amem s).
Proof.
  intros g kd ev m ls s h K U M. apply entry_atomic_p. intros ls0 b h0. now apply PropertiesFront.C18_bool_atomic.
Qed.

(** The byte-level machines: RISC-V atomics by AMO instructions; atomics that disable interrupts; atomics inside
    critical sections; the ESP32s. *)
Theorem C08_riscv_amo_any_ordering : forall c vars m ls s h,
  (RiscvModel.xlen c = 32 \/ RiscvModel.xlen c = 64) -> layout_ok vars -> (forall a t, vars a = Some t -> 0 <= a < 2 ^ RiscvModel.xlen c) ->
  byte_mem m -> r_run c vars (winit (RiscvModel.rv_init m)) ls = Some (s, h) ->
  byte_history_all (RiscvModel.rv_be c) vars m h (values (RiscvModel.rv_be c) vars (RiscvModel.rmem (wbase s))).
Proof. exact riscv_all. Qed.
Theorem C08_interrupt_any_ordering : forall ar be vars rd wr m s0 ls s h,
  IntMain.arch_ok ar be vars -> layout_ok vars -> PropertiesInt.reads_all_bytes rd -> PropertiesInt.writes_exactly wr -> byte_mem m ->
  i_run ar be vars rd wr (winit (IntModel.iinit m s0)) ls = Some (s, h) ->
  byte_history_all be vars m h
    (match IntModel.stack (wbase s) with
     | c :: _ => match IntModel.cur c with None => values be vars (IntModel.imem (wbase s)) | Some _ => fun _ => None end
     | [] => fun _ => None end).
Proof. exact interrupt_all. Qed.
Theorem C08_critical_section_any_ordering : forall be vars rd wr m ls s h,
  layout_ok vars -> PropertiesCs.reads_all_bytes rd -> PropertiesCs.writes_exactly wr -> byte_mem m ->
  m_run CsModel.Feature be vars rd wr (winit (CsModel.minit m)) ls = Some (s, h) ->
  byte_history_all be vars m h
    (match CsModel.mlock (wbase s) with None => values be vars (CsModel.mmem (wbase s)) | Some _ => fun _ => None end).
Proof. exact critical_section_all. Qed.
Theorem C08_esp_any_ordering : forall ch cs be vars rd wr m ls s h,
  PropertiesCs.narrow vars -> layout_ok vars -> PropertiesCs.reads_all_bytes rd -> PropertiesCs.writes_exactly wr -> byte_mem m ->
  m_run (CsModel.Esp ch cs) be vars rd wr (winit (CsModel.minit m)) ls = Some (s, h) ->
  weak_history_all be vars m h
    (match CsModel.mlock (wbase s) with None => values be vars (CsModel.mmem (wbase s)) | Some _ => fun _ => None end).
Proof. exact esp_all. Qed.
(** There, too, a forbidden call does nothing but panic; in particular interrupts stay as they were and no critical
    section is left entered: the whole state of the machine is the same afterwards. *)
Theorem C08_bytes_panic_at_once :
  (forall c vars s t a o, wpan s t = false -> RiscvModel.rthr (wbase s) t = RiscvModel.RIdle -> vars a <> None ->
     (match o with BOp (OLoad _) | BOp (OStore _ _) => True | _ => False end) -> forbidden_b o ->
     exists s', r_run c vars s [RiscvModel.LCall t a o; RiscvModel.LStep t] = Some (s', [Call t a o; Return t RPanic]) /\
       wbase s' = wbase s /\ forall u, wpan s' u = wpan s u) /\
  (forall ar be vars rd wr s c below a o, IntModel.stack (wbase s) = c :: below -> wpan s (length below) = false ->
     IntModel.cur c = None -> vars a <> None -> forbidden_b o ->
     exists s', i_run ar be vars rd wr s [IntModel.ICall a o; IntModel.IInstr] =
         Some (s', [Call (length below) a o; Return (length below) RPanic]) /\
       wbase s' = wbase s /\ forall u, wpan s' u = wpan s u) /\
  (forall c be vars rd wr s t a o, wpan s t = false -> CsModel.mthr (wbase s) t = CsModel.MIdle -> vars a <> None -> forbidden_b o ->
     exists s', m_run c be vars rd wr s [CsModel.MCall t a o; CsModel.MStep t false] = Some (s', [Call t a o; Return t RPanic]) /\
       wbase s' = wbase s /\ forall u, wpan s' u = wpan s u).
Proof.
  split; [|split].
  - intros c vars s t a o P T V K F. apply lts_panics_at_once; auto.
    + cbn. destruct (vars a); [|congruence]. destruct o as [[| | |]| |]; try contradiction; reflexivity.
    + unfold r_idle. now rewrite T.
    + now apply check_b_ok.
  - intros ar be vars rd wr s c below a o S P T V F. apply lts_panics_at_once; auto.
    + cbn. now rewrite S.
    + cbn. destruct (vars a); [reflexivity|congruence].
    + destruct (wbase s) as [m st]. cbn in S. subst st. rewrite top_idle, PeanoNat.Nat.eqb_refl, T. reflexivity.
    + now apply check_b_ok.
    + cbn. now rewrite S.
  - intros c be vars rd wr s t a o P T V F. apply lts_panics_at_once; auto.
    + cbn. destruct (vars a); [reflexivity|congruence].
    + unfold m_idle. now rewrite T.
    + now apply check_b_ok.
Qed.

(** No thread of any of these programs is ever stuck: shown for the machine in general. *)
Theorem C08_never_stuck : forall C (next : C -> action C res) (code_of : Z -> wop -> option C) m ls s h t c,
  (forall ls b h0 t c, asm_run next code_of (asm_init m) ls = Some (b, h0) -> athr b t = Some c ->
     forall sp, exists b' e, asm_step next code_of b (mk_label t None sp) = Some (b', e)) ->
  asm_run (enext next RPanic) (ecode code_of check_w) (asm_init m) ls = Some (s, h) -> athr s t = Some c ->
  forall sp, exists s' e, asm_step (enext next RPanic) (ecode code_of check_w) s (mk_label t None sp) = Some (s', e).
Proof. intros C next code_of m ls s h t c. apply entry_never_stuck with (forbidden := forbidden_w). exact check_w_ok. Qed.

(** Every well-typed call is answered, with a panic exactly when the ordering is forbidden. *)
Theorem C08_total : forall ty a o, w_typed (ty a) o ->
  (ibits (ty a) = 128 ->
    (forall g junk, 0 <= a < (if X86Model.x32 g then 2 ^ 32 else 2 ^ 64) ->
       exists c, ecode (X86Model.code_of g ty junk) check_w a o = Some c /\ (c = EPanic <-> forbidden_w o)) /\
    (0 <= a < 2 ^ 64 ->
       (forall g junk, exists c, ecode (S390xModel.code_of g ty junk) check_w a o = Some c /\ (c = EPanic <-> forbidden_w o)) /\
       (forall g junk, exists c, ecode (PowerModel.code_of g ty junk) check_w a o = Some c /\ (c = EPanic <-> forbidden_w o)) /\
       (forall g h junk, Aarch64Model.sound g h ->
          exists c, ecode (Aarch64Model.code_of g h ty junk) check_w a o = Some c /\ (c = EPanic <-> forbidden_w o))) /\
    (forall g, exists c, ecode (IntrinsicsModel.i_code_of g ty) check_w a o = Some c /\ (c = EPanic <-> forbidden_w o)) /\
    (exists c, ecode (z_code_of 64 ty) check_w a o = Some c /\ (c = EPanic <-> forbidden_w o))) /\
  (ibits (ty a) = 64 ->
    (exists c, ecode (z_code_of 32 ty) check_w a o = Some c /\ (c = EPanic <-> forbidden_w o)) /\
    (exists c, ecode (k_code_of ty) check_w a o = Some c /\ (c = EPanic <-> forbidden_w o))).
Proof.
  intros ty a o T. split.
  - intros W. split; [|split; [|split]].
    + intros g junk A. apply (entry_total _ (ty a)); [|exact T]. intros K. now apply PropertiesX86.C11_x86_total.
    + intros A. split; [|split].
      * intros g junk. apply (entry_total _ (ty a)); [|exact T]. intros K. now apply PropertiesS390x.C11_s390x_total.
      * intros g junk. apply (entry_total _ (ty a)); [|exact T]. intros K. now apply PropertiesPower.C11_power_total.
      * intros g h junk SO. apply (entry_total _ (ty a)); [|exact T]. intros K. now apply PropertiesAarch64.C11_aarch64_total.
    + intros g. apply (entry_total _ (ty a)); [|exact T]. intros K. now apply PropertiesIntrinsics.C11_intrinsics_total.
    + apply (entry_total _ (ty a)); [|exact T]. intros K. now apply PropertiesLoops.C11_riscv_total.
  - intros W. split.
    + apply (entry_total _ (ty a)); [|exact T]. intros K. now apply PropertiesLoops.C11_riscv_total.
    + apply (entry_total _ (ty a)); [|exact T]. intros K. now apply PropertiesLoops.C14_kuser_total.
Qed.

(** A forbidden call does nothing but panic: from any state in which its thread is idle, memory and the other threads
    are untouched ... *)
Theorem C08_panics_at_once :
  (forall C (next : C -> action C res) (code_of : Z -> wop -> option C) s t a o, athr s t = None -> forbidden_w o -> exists s',
     asm_run (enext next RPanic) (ecode code_of check_w) s [mk_label t (Some (a, o)) false; mk_label t None false] =
       Some (s', [Call t a o; Return t RPanic]) /\ (forall x, amem s' x = amem s x) /\ (forall u, athr s' u = athr s u)) /\
  (forall C (next : C -> action C res) (code_of : Z -> uop -> option C) s t a o, athr s t = None -> forbidden_u o -> exists s',
     asm_run (enext next RPanic) (ecode code_of check_u) s [mk_label t (Some (a, o)) false; mk_label t None false] =
       Some (s', [Call t a o; Return t RPanic]) /\ (forall x, amem s' x = amem s x) /\ (forall u, athr s' u = athr s u)) /\
  (forall C (next : C -> action C pres) (code_of : Z -> pop -> option C) s t a o, athr s t = None -> forbidden_p o -> exists s',
     asm_run (enext next (PPlain RPanic)) (ecode code_of check_p) s [mk_label t (Some (a, o)) false; mk_label t None false] =
       Some (s', [Call t a o; Return t (PPlain RPanic)]) /\ (forall x, amem s' x = amem s x) /\ (forall u, athr s' u = athr s u)).
Proof.
  split; [|split]; intros C next code_of s t a o T F; apply panics_at_once; auto.
  - now apply check_w_ok.
  - now apply check_u_ok.
  - now apply check_p_ok.
Qed.
(** ... and nothing else panics: a history without forbidden calls has no panic in it. *)
Theorem C08_only_forbidden_panics :
  (forall ty m h m', atomic_history_all ty m h m' -> (forall t a o, In (Call t a o) h -> ~ forbidden_w o) ->
     forall t, ~ In (Return t RPanic) h) /\
  (forall ty m h m', atomic_history_u_all ty m h m' -> (forall t a o, In (Call t a o) h -> ~ forbidden_u o) ->
     forall t, ~ In (Return t RPanic) h) /\
  (forall kd arith m h m', atomic_history_p_all kd arith m h m' -> (forall t a o, In (Call t a o) h -> ~ forbidden_p o) ->
     forall t, ~ In (Return t (PPlain RPanic)) h) /\
  (forall be vars m h fin, byte_history_all be vars m h fin \/ weak_history_all be vars m h fin ->
     (forall t a o, In (Call t a o) h -> ~ forbidden_b o) -> forall t, ~ In (Return t RPanic) h).
Proof.
  split; [|split; [|split]].
  - intros ty m h m' H F. apply (all_no_panic (sem ty) forbidden_w RPanic _ h _ (sem_no_panic ty) H F).
  - intros ty m h m' H F. apply (all_no_panic (usem ty) forbidden_u RPanic _ h _ (usem_no_panic ty) H F).
  - intros kd arith m h m' H F. apply (all_no_panic (psem kd arith) forbidden_p (PPlain RPanic) _ h _ (psem_no_panic kd arith) H F).
  - intros be vars m h fin [H|H] F.
    + refine (all_no_panic _ forbidden_b RPanic _ h _ _ H F). intros a o x y r N (t & _ & E). now apply (bsem_no_panic t o x y r N).
    + refine (all_no_panic _ forbidden_b RPanic _ h _ _ H F). intros a o x y r N (t & _ & [E|[_ E]]); [now apply (bsem_no_panic t o x y r N)|].
      injection E as _ ->. discriminate.
Qed.

(** Non-vacuity: a forbidden load and a forbidden weak compare_exchange while another thread adds. *)
Module Demo.
  Definition ty (_ : Z) : ity := i128.
  Definition m (_ : Z) : Z := 5.
  Definition s (t : nat) (c : option (Z * wop)) : label wop := mk_label t c false.
  Definition g := IntrinsicsModel.mk_icfg IntrinsicsModel.IX86_64 false.
  Example runs : match asm_run (enext (IntrinsicsModel.inext g) RPanic) (ecode (IntrinsicsModel.i_code_of g ty) check_w) (asm_init m)
      [s 0 (Some (16, WOp (ORmw (Add 3) AcqRel))); s 1 (Some (16, WOp (OLoad Release))); s 0 None; s 1 None;
       s 1 (Some (16, WCasWeak 5 6 SeqCst AcqRel)); s 0 None; s 0 None; s 1 None] with
    | Some (st, h) => amem st 16 = 8 /\ h = [Call 0 16 (WOp (ORmw (Add 3) AcqRel)); Call 1 16 (WOp (OLoad Release));
        Return 1 RPanic; Call 1 16 (WCasWeak 5 6 SeqCst AcqRel); Return 0 (RVal 5); Return 1 RPanic]
    | None => False end.
  Proof. vm_compute. split; reflexivity. Qed.
  (** A thread passes a forbidden ordering while another one is inside the critical section. *)
  Definition vars (a : Z) : option ity := if a =? 4 then Some u16 else None.
  Definition rd (n : nat) := seq 0 n.
  Example bytes_run : match m_run CsModel.Feature false vars rd rd (winit (CsModel.minit (fun _ => 1)))
      [CsModel.MCall 0 4 (BOp (ORmw (Add 1) SeqCst)); CsModel.MStep 0 false; CsModel.MCall 1 4 (BOp (OStore 9 Acquire)); CsModel.MStep 1 false] with
    | Some (st, h) => CsModel.mlock (wbase st) <> None /\ h = [Call 0 4 (BOp (ORmw (Add 1) SeqCst)); Call 1 4 (BOp (OStore 9 Acquire)); Return 1 RPanic]
    | None => False end.
  Proof. vm_compute. split; [discriminate|reflexivity]. Qed.
  Example typed : (forall a, 0 < ibits (ty a)) /\ mem_ok ty m /\ w_typed (ty 16) (WCasWeak 5 6 SeqCst AcqRel).
  Proof. split; [intros a; reflexivity|]. split; [intros a; unfold m, ty, i128, ibits; lia|]. cbn. unfold in_range, imin, imax. cbn. lia. Qed.
End Demo.

Print Assumptions C08_x86_any_ordering.
Print Assumptions C08_s390x_any_ordering.
Print Assumptions C08_power_any_ordering.
Print Assumptions C08_aarch64_any_ordering.
Print Assumptions C08_riscv_any_ordering.
Print Assumptions C08_kuser_any_ordering.
Print Assumptions C08_intrinsics_any_ordering.
Print Assumptions C08_core_any_ordering.
Print Assumptions C08_types_any_ordering.
Print Assumptions C08_never_stuck.
Print Assumptions C08_total.
Print Assumptions C08_panics_at_once.
Print Assumptions C08_only_forbidden_panics.
Print Assumptions C08_riscv_amo_any_ordering.
Print Assumptions C08_interrupt_any_ordering.
Print Assumptions C08_critical_section_any_ordering.
Print Assumptions C08_esp_any_ordering.
Print Assumptions C08_bytes_panic_at_once.
