(** * Properties C20, C21 (and C13): operations that run with interrupts disabled (src/imp/interrupt) *)
From Coq Require Import ZArith List Bool Lia PeanoNat.
From Verif Require Import Words Spec ByteMem ByteMemFacts ByteSpec RiscvModel RiscvMain IntModel IntProofs IntMain IntRun IntTop.
Import ListNotations.
Open Scope Z_scope.

(** [arch_ok]: on RISC-V the register width is 32 or 64 and the variables lie in the address space; no
    condition elsewhere.  [rd]/[wr]: the order in which the compiled code touches the bytes of a plain read
    or write: every byte at least once, in any order. *)
Definition reads_all_bytes (rd : nat -> list nat) : Prop := forall n i, (i < n)%nat -> In i (rd n).
Definition writes_exactly (wr : nat -> list nat) : Prop := forall n i, In i (wr n) <-> (i < n)%nat.

(** ** C20: the main program and handlers interrupting it and each other at any instruction boundary, to any
    depth, produce only histories of atomic variables; when the running context is between operations the
    memory holds exactly the abstract values of all variables. *)
Theorem C20_interrupt_atomic : forall ar be vars rd wr m s0 ls s h,
  arch_ok ar be vars -> layout_ok vars -> reads_all_bytes rd -> writes_exactly wr -> byte_mem m ->
  irun ar be vars rd wr (iinit m s0) ls = Some (s, h) ->
  byte_history be vars m (history h)
    (match stack s with c :: _ => match cur c with None => values be vars (imem s) | Some _ => fun _ => None end | [] => fun _ => None end).
Proof. intros ar be vars rd wr m s0 ls s h AO LO RO WO. exact (int_atomic ar be vars rd wr AO LO RO WO m s0 ls s h). Qed.

(** Nothing else in memory is ever modified. *)
Theorem C20_interrupt_frame : forall ar be vars rd wr m s0 ls s h x,
  arch_ok ar be vars -> layout_ok vars -> reads_all_bytes rd -> writes_exactly wr -> byte_mem m ->
  irun ar be vars rd wr (iinit m s0) ls = Some (s, h) ->
  (forall a t, vars a = Some t -> ~ inside a t x) -> imem s x = m x.
Proof. intros ar be vars rd wr m s0 ls s h x AO LO RO WO. exact (int_frame ar be vars rd wr AO LO RO WO m s0 ls s h x). Qed.

(** An operation in progress can always continue. *)
Theorem C20_interrupt_never_stuck : forall ar be vars rd wr m s0 ls s h c below r,
  arch_ok ar be vars -> layout_ok vars -> reads_all_bytes rd -> writes_exactly wr -> byte_mem m ->
  irun ar be vars rd wr (iinit m s0) ls = Some (s, h) -> stack s = c :: below -> cur c = Some r ->
  istep ar be vars rd wr s IInstr <> None.
Proof. intros ar be vars rd wr m s0 ls s h c below r AO LO RO WO. exact (int_never_stuck ar be vars rd wr AO LO RO WO m s0 ls s h c below r). Qed.

(** ** C21: between a call at nesting depth [t] and the matching return, the status register comes back with
    every bit as it was, except the flag bits that ordinary instructions change anyway; in particular
    interrupts are enabled after it iff they were before. *)
Definition about (t : nat) (e : obs) : Prop := match e with (Call u _ _, _) => u = t | (Return u _, _) => u = t end.
Theorem C21_status_restored : forall ar be vars rd wr m s0 ls s h h1 t a o before h2 r after h3,
  arch_ok ar be vars -> layout_ok vars -> reads_all_bytes rd -> writes_exactly wr -> byte_mem m ->
  irun ar be vars rd wr (iinit m s0) ls = Some (s, h) ->
  h = h1 ++ (Call t a o, before) :: h2 ++ (Return t r, after) :: h3 ->
  (forall e, In e h2 -> ~ about t e) ->
  (forall k, 0 <= k -> Z.testbit (side_bits ar) k = false -> Z.testbit after k = Z.testbit before k) /\
  deliverable ar after = deliverable ar before.
Proof.
  intros ar be vars rd wr m s0 ls s h h1 t a o before h2 r after h3 AO LO RO WO Hm H E NO.
  destruct (int_status ar be vars rd wr AO LO RO WO m s0 ls s h (h1 ++ (Call t a o, before) :: h2) t r after h3 Hm H) as (s1 & L & Ag).
  { rewrite E, <- app_assoc. reflexivity. }
  rewrite last_call_app in L. cbn [fold_left last_call1] in L. rewrite Nat.eqb_refl in L.
  assert (F : forall l acc, (forall e, In e l -> ~ about t e) -> fold_left (last_call1 t) l acc = acc).
  { induction l as [|[[u b p|u q] v] l IH]; intros acc N; [reflexivity| |]; cbn [fold_left last_call1].
    - destruct (Nat.eqb_spec u t) as [->|_]; [destruct (N _ (or_introl eq_refl) eq_refl)|]. apply IH. intros e Hi. apply N. now right.
    - apply IH. intros e Hi. apply N. now right. }
  rewrite F in L by exact NO. injection L as <-. split; [apply agree_bits, Ag | apply agree_deliverable, Ag].
Qed.

(** Code that calls with interrupts off is not interrupted before the operation returns. *)
Theorem C21_stays_disabled : forall ar be vars rd wr m s0 ls s h c below a o s1 e ls2 s2 h2,
  arch_ok ar be vars -> layout_ok vars -> reads_all_bytes rd -> writes_exactly wr -> byte_mem m ->
  irun ar be vars rd wr (iinit m s0) ls = Some (s, h) -> stack s = c :: below ->
  deliverable ar (status (regs c)) = false ->
  istep ar be vars rd wr s (ICall a o) = Some (s1, e) ->
  irun ar be vars rd wr s1 ls2 = Some (s2, h2) -> (forall r v, ~ In (Return (length below) r, v) h2) ->
  forall v, ~ In (IInterrupt v) ls2.
Proof. intros ar be vars rd wr m s0 ls s h c below a o s1 e ls2 s2 h2 AO LO RO WO. exact (int_masked ar be vars rd wr AO LO RO WO m s0 ls s h c below a o s1 e ls2 s2 h2). Qed.

(** On RISC-V the save/restore sequences never modify any other bit of mstatus/sstatus, even transiently. *)
Theorem C21_riscv_other_bits : forall sm c i g k,
  In i (disable_code (Riscv sm c) ++ restore_code (Riscv sm c)) -> 0 <= k -> k <> (if sm then 1 else 3) ->
  Z.testbit (status (sexec i g)) k = Z.testbit (status g) k.
Proof.
  intros sm c i [s p n] k Hi Hk Nk.
  assert (B : Z.testbit (rv_mask sm) k = false).
  { replace (rv_mask sm) with (2 ^ (if sm then 1 else 3)) by now destruct sm. apply Z.pow2_bits_false. congruence. }
  cbn in Hi. destruct Hi as [<-|[<-|[]]]; cbn [sexec status].
  - rewrite Z.ldiff_spec, B. apply andb_true_r.
  - rewrite Z.lor_spec, Z.land_spec, B, andb_false_r. apply orb_false_r.
Qed.

(** ** C13 here: however often it is interrupted, an operation returns after a bounded number of its own
    instructions (there is no loop). *)
Theorem C13_interrupt_wait_free : forall ar be vars rd wr s a o s1 e ls s2 h t,
  istep ar be vars rd wr s (ICall a o) = Some (s1, e) -> length (stack s) = S t ->
  irun ar be vars rd wr s1 ls = Some (s2, h) -> (forall r v, ~ In (Return t r, v) h) ->
  exists ty, vars a = Some ty /\
    (own_steps ar be vars rd wr t s1 ls <= length (rd (nbytes ty)) + length (wr (nbytes ty)) + 12)%nat.
Proof. exact int_bounded. Qed.

(** ** Non-vacuity: armv6m; the main program's 64-bit fetch_add is interrupted before it masks interrupts, by a
    handler that compare_exchanges the same variable and stores to a neighbouring byte. *)
Definition vars1 : layout := fun a => if a =? 8 then Some u64 else if a =? 16 then Some i8 else None.
Lemma vars1_cases a t : vars1 a = Some t -> (a, t) = (8, u64) \/ (a, t) = (16, i8).
Proof.
  unfold vars1. destruct (Z.eqb_spec a 8) as [->|]; [intros [= <-]; auto|].
  destruct (Z.eqb_spec a 16) as [->|]; [intros [= <-]; auto | discriminate].
Qed.
Example vars1_ok : layout_ok vars1 /\ reads_all_bytes (fun n => rev (seq 0 n)) /\ writes_exactly (seq 0).
Proof.
  split; [constructor|split].
  - intros a t H. apply vars1_cases in H as [H|H]; injection H as -> ->; cbn; auto.
  - intros a t H. apply vars1_cases in H as [H|H]; injection H as -> ->; reflexivity.
  - intros a t b u x H1 H2. apply vars1_cases in H1 as [H1|H1]; injection H1 as -> ->;
      apply vars1_cases in H2 as [H2|H2]; injection H2 as -> ->; unfold inside; change (Z.of_nat (nbytes i16)) with 2; change (Z.of_nat (nbytes u8)) with 1; change (Z.of_nat (nbytes i8)) with 1; change (Z.of_nat (nbytes u64)) with 8; lia.
  - intros n i H. rewrite <- in_rev. apply in_seq. lia.
  - intros n i. rewrite in_seq. lia.
Qed.
Definition add64 := BOp (ORmw (Add 513) SeqCst).
Definition cas64 := BOp (OCas 65535 (2 ^ 63) AcqRel Acquire).
Definition store8 := BOp (OStore (-2) Release).
Definition sched1 : list ilabel :=
  [ICall 8 add64; IInstr; IInterrupt 0; ICall 8 cas64; ISide 5] ++ repeat IInstr 25 ++
  [ICall 16 store8; IInstr; IInstr; IReturn] ++ repeat IInstr 24 ++ [ISetStatus 1].
Example armv6m_run_example :
  match irun Armv6m false vars1 (fun n => rev (seq 0 n)) (seq 0) (iinit (fun x => if (8 <=? x) && (x <? 10) then 255 else 0) 0) sched1 with
  | Some (s, h) => value_at false (imem s) u64 8 = 2 ^ 63 + 513 /\ value_at false (imem s) i8 16 = -2 /\ length (stack s) = 1%nat /\
      h = [(Call 0 8 add64, 0); (Call 1 8 cas64, 0); (Return 1 (ROk 65535), 0); (Call 1 16 store8, 0); (Return 1 RUnit, 0);
           (Return 0 (RVal (2 ^ 63)), 0)]
  | None => False
  end.
Proof. vm_compute. repeat split. Qed.
(** an interrupt is refused inside the critical section *)
Example armv6m_masked_example :
  irun Armv6m false vars1 (fun n => rev (seq 0 n)) (seq 0) (iinit (fun _ => 0) 0)
    ([ICall 8 add64] ++ repeat IInstr 5 ++ [IInterrupt 0]) = None.
Proof. vm_compute. reflexivity. Qed.
(** the same with AVR, SREG flags scribbled over in between *)
Example avr_run_example :
  match irun (Avr false false) false vars1 (seq 0) (seq 0) (iinit (fun _ => 1) 128)
    ([ICall 16 (BOp (ORmw (Nand 3) Relaxed)); ISide 7; IInstr; ISide 2; IInstr; ISide 127] ++ repeat IInstr 9) with
  | Some (s, h) => value_at false (imem s) i8 16 = -2 /\
      h = [(Call 0 16 (BOp (ORmw (Nand 3) Relaxed)), 128); (Return 0 (RVal 1), 135)]
  | None => False
  end.
Proof. vm_compute. repeat split. Qed.

Print Assumptions C20_interrupt_atomic.
Print Assumptions C20_interrupt_frame.
Print Assumptions C20_interrupt_never_stuck.
Print Assumptions C21_status_restored.
Print Assumptions C21_stays_disabled.
Print Assumptions C21_riscv_other_bits.
Print Assumptions C13_interrupt_wait_free.
