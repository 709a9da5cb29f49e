(** * Every machine makes the integer operations atomic *)
From Coq Require Import String ZArith List Bool Lia.
From Verif Require Import Words Spec WordsFacts.
From Verif Require FallbackModel FallbackFacts PropertiesFallback.
From Verif Require Import WideSpec LoopModel AsmModel BlockModel ByteMem ByteSpec FrontSpec UpdateSpec CoreModel OrderSpec EntrySpec EntryModel EntryLts.
From Verif Require X86Model S390xModel PowerModel Aarch64Model ZacasModel KuserModel IntrinsicsModel FrontMain RiscvModel IntModel IntMain CsSpec CsModel.
From Verif Require PropertiesDetect PropertiesInt PropertiesCs PropertiesEntry PropertiesClient.
From Verif Require Import LayerSpec LayerModel PropertiesPublic SelectSpec SelectModel PropertiesSelect.
From Verif Require Import ConfigSpec ConfigTargets WholeSpec WholeModel.
Import ListNotations.
Open Scope Z_scope.

Lemma asteps_from {Op Res} (sem : Z -> Op -> Z -> Z * Res -> Prop) s h s' : asteps sem s h s' ->
  forall s1, (forall x, avals s1 x = avals s x) -> (forall t, aphases s1 t = aphases s t) -> asteps sem s1 h s'.
Proof.
  induction 1 as [s s' V P|s h s' e s'' _ IH St]; intros s1 V1 P1.
  - constructor; intros; congruence.
  - exact (as_snoc _ _ _ _ _ _ (IH s1 V1 P1) St).
Qed.
Lemma lin_agrees {Op Res} (sem : Z -> Op -> Z -> Z * Res -> Prop) init0 init fin0 fin h : agrees init0 init fin0 fin ->
  linearizable_to sem init0 h fin0 -> linearizable_to sem init h fin.
Proof.
  intros [A B] (s & S & F). exists s. split; [|auto]. apply (asteps_from _ _ _ _ S); [exact A|reflexivity].
Qed.

Definition integer_atomic (kd : Z -> kind) (init : Z -> Z) (h : list (event bop res)) (fin : Z -> option Z) : Prop :=
  exists Op (base : Z -> Op -> Z -> Z * res -> Prop) enc, backend_ok (ints kd) base enc /\ linearizable_to base init (rename enc h) fin.

Section Kinds.
  Variable kd : Z -> kind.
  Hypothesis kinds : forall a, kind_ok (kd a).
  Let sizes : forall a, 0 < ibits (ints kd a) := fun a => ints_wf kd a (kinds a).

  Lemma wide_atomic init h fin : linearizable_to (with_panics forbidden_w RPanic (sem (ints kd))) init (rename wide_enc h) fin -> integer_atomic kd init h fin.
  Proof. intros L. exists wop, (with_panics forbidden_w RPanic (sem (ints kd))), wide_enc. split; [apply wide_ok|exact L]. Qed.
  Lemma byte_atomic vars init h fin : at_types kd vars -> linearizable_to (with_panics forbidden_b RPanic (PropertiesClient.byte_sem vars)) init h fin -> integer_atomic kd init h fin.
  Proof. intros T L. exists bop, (with_panics forbidden_b RPanic (PropertiesClient.byte_sem vars)), same_enc. split; [now apply byte_ok|]. rewrite rename_same. exact L. Qed.

  Lemma lock_atomic init h fin : lock_history kd init (rename fallback_enc h) fin -> integer_atomic kd init h fin.
  Proof.
    intros (c & m & ls & s & WF & WM & T & R & W & [A1 A2] & Q). exists op, (FallbackModel.atomic_var c), fallback_enc. split; [now apply fallback_ok|].
    destruct Q as [Q|Q].
    - apply (lin_agrees _ _ _ _ _ _ (conj A1 A2)). destruct (FallbackModel.wide c) eqn:E;
        [exact (PropertiesFallback.C02_fallback_wide_final_memory c m ls s _ E WF WM R W Q)|exact (PropertiesFallback.C01_fallback_final_memory c m ls s _ E WF WM R W Q)].
    - apply (lin_agrees _ (FallbackModel.var_value c m) _ (fun _ => None)); [split; [exact A1|intros a v H; rewrite Q in H; discriminate]|].
      destruct (FallbackModel.wide c) eqn:E.
      + destruct (PropertiesFallback.C02_fallback_wide_linearizable c m ls s _ E WF WM R W) as [x X]. exists x. split; [exact X|discriminate].
      + destruct (PropertiesFallback.C01_fallback_linearizable c m ls s _ E WF WM R W) as [x X]. exists x. split; [exact X|discriminate].
  Qed.
  Lemma chosen_atomic {V C} (next : C -> action C res) (code : V -> Z -> wop -> option C) tr init h fin :
    selected next code (ints kd) tr -> chosen kd next code tr init h fin -> integer_atomic kd init h fin.
  Proof.
    intros (_ & native & [_ Os] & S) (E & Na & Lo). apply wide_atomic. rewrite <- E. change (with_panics forbidden_w RPanic (sem (ints kd))) with (seen (ints kd)). destruct native.
    - destruct (Na Os) as (m & ls & s & M & R & A). exact (lin_agrees _ _ _ _ _ _ A (S m ls s M R)).
    - destruct (Lo Os) as (c & m & ls & s & WF & WM & T & R & W & [A1 A2] & Q). destruct (S c m ls s WF WM T R W) as [S1 S2]. destruct Q as [Q|Q].
      + exact (lin_agrees _ _ _ _ _ _ (conj A1 A2) (S2 Q)).
      + apply (lin_agrees _ (FallbackModel.var_value c m) _ (fun _ => None)); [split; [exact A1|intros a v H; rewrite Q in H; discriminate]|exact S1].
  Qed.

  Theorem makes_atomic mc init h fin : makes mc kd init h fin -> integer_atomic kd init h fin.
  Proof.
    destruct mc as [ | |xlen| | | |w| | | | | | ]; cbn [makes].
    - intros (gc & m & ls & s & M & R & A). exists uop, (with_panics forbidden_u RPanic (usem (ints kd))), (fun o => UOp (wide_enc o)). split; [apply core_ok|].
      apply (lin_agrees _ _ _ _ _ _ A). exact (PropertiesEntry.C08_core_any_ordering gc (ints kd) m ls s _ sizes M R).
    - intros (ch & cs & be & vars & m & rd & wr & ls & s & (T & L & B) & N & RO & WO & R & A).
      exists bop, (with_panics forbidden_b RPanic (PropertiesClient.weak_byte_sem vars)), same_enc. split; [now apply weak_byte_ok|]. rewrite rename_same.
      apply (lin_agrees _ _ _ _ _ _ A). exact (PropertiesEntry.C08_esp_any_ordering ch cs be vars rd wr m ls s _ N L RO WO B R).
    - intros (c & vars & m & ls & s & (T & L & B) & <- & X & Ad & R & A). apply (byte_atomic vars); [exact T|].
      apply (lin_agrees _ _ _ _ _ _ A). exact (PropertiesEntry.C08_riscv_amo_any_ordering c vars m ls s _ X L Ad B R).
    - intros (ar & be & vars & m & rd & wr & s0 & ls & s & (T & L & B) & AO & RO & WO & R & A). apply (byte_atomic vars); [exact T|].
      apply (lin_agrees _ _ _ _ _ _ A). exact (PropertiesEntry.C08_interrupt_any_ordering ar be vars rd wr m s0 ls s _ AO L RO WO B R).
    - intros (be & vars & m & rd & wr & ls & s & (T & L & B) & RO & WO & R & A). apply (byte_atomic vars); [exact T|].
      apply (lin_agrees _ _ _ _ _ _ A). exact (PropertiesEntry.C08_critical_section_any_ordering be vars rd wr m ls s _ L RO WO B R).
    - intros (version & df & uc & be & ls & s & tr & R & Ch). exact (chosen_atomic _ _ _ _ _ _ (proj1 (C51_kuser version df uc be (ints kd) ls s tr sizes R)) Ch).
    - intros (cpu & det & flag & ct & df & ls & s & tr & W & K & R & Ch). exact (chosen_atomic _ _ _ _ _ _ (C51_riscv cpu det flag ct df K w (ints kd) ls s tr W sizes R) Ch).
    - intros (win & x32 & cx & avx & sse & df & ls & s & tr & R & Ch). exact (chosen_atomic _ _ _ _ _ _ (C51_x86 win x32 cx avx sse df (ints kd) ls s tr sizes R) Ch).
    - intros (cpu & det & flag & ct & df & old & ls & s & tr & K & R & Ch). exact (chosen_atomic _ _ _ _ _ _ (C51_power cpu det flag ct df K old (ints kd) ls s tr sizes R) Ch).
    - intros (cpu & det & df & uc & g & hw & ls & s & tr & K & Co & Tf & R & Ch).
      destruct (C51_aarch64 cpu det df uc g hw K Co Tf (ints kd) ls s tr sizes R) as (O1 & O2 & O3). refine (chosen_atomic _ _ _ _ _ _ _ Ch).
      split; [exact O1|]. exists true. split; [exact O2|exact O3].
    - intros (gs & pm & junk & P & R0 & R1 & m & ls & s & M & R & A). apply wide_atomic. apply (lin_agrees _ _ _ _ _ _ A).
      eapply PropertiesEntry.C08_s390x_any_ordering; eauto.
    - intros (gi & m & ls & s & M & R & A). apply wide_atomic. apply (lin_agrees _ _ _ _ _ _ A). eapply PropertiesEntry.C08_intrinsics_any_ordering; eauto.
    - apply lock_atomic.
  Qed.
End Kinds.
