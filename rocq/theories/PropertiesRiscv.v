(** * Property C17 (and C11, C13, C26 on RISC-V): src/imp/riscv.rs *)
From Coq Require Import ZArith List Bool Lia.
From Verif Require Import Words Spec ByteMem ByteMemFacts ByteSpec RiscvModel RiscvProofs RiscvMain.
Import ListNotations.
Open Scope Z_scope.

(** ** C17: one operation on an 8-, 16-, 32- or 64-bit variable, in particular an 8- or 16-bit one done on the
    aligned 32-bit word around it: the previous value is returned, the specified value is stored, and no
    byte outside the variable changes.  Any endianness, address, memory content and operand. *)
Theorem C17_riscv_access : forall c t a o m m' r,
  (xlen c = 32 \/ xlen c = 64) -> In (ibits t) [8; 16; 32; 64; 128] -> a mod Z.of_nat (nbytes t) = 0 ->
  0 <= a < 2 ^ xlen c -> byte_mem m -> bcallable t o = true ->
  rv_access c t a o m = Some (m', r) ->
  bsem t o (value_at (rv_be c) m t a) = (value_at (rv_be c) m' t a, r) /\
  (forall x, ~ inside a t x -> m' x = m x).
Proof.
  intros c t a o m m' r XL Hs Al Ha Hm Hc H. destruct (rv_access_ok c t a o m m' r XL Hs Al Ha Hm Hc H) as (A & _ & B). auto.
Qed.

(** Which operations this covers: every load and store; with Zaamo, and/or/xor/not of every size up to the
    register size and everything but nand/neg at word size (or any size with Zabha). *)
Theorem C17_riscv_served : forall c t a m,
  ibits t <= xlen c ->
  (forall ord, bcallable t (BOp (OLoad ord)) = true -> rv_access c t a (BOp (OLoad ord)) m <> None) /\
  (forall v ord, bcallable t (BOp (OStore v ord)) = true -> rv_access c t a (BOp (OStore v ord)) m <> None) /\
  (zaamo c = true -> forall r ord, match r with And _ | Or _ | Xor _ | Not => True | Nand _ | Neg => False | _ => 32 <= ibits t \/ zabha c = true end ->
    rv_access c t a (BOp (ORmw r ord)) m <> None /\ rv_access c t a (BNoFetch r ord) m <> None).
Proof.
  intros c t a m Hx. unfold rv_access. rewrite (proj2 (Z.ltb_ge (xlen c) (ibits t))) by exact Hx. refine (conj _ (conj _ _)).
  - intros []; cbn; congruence.
  - intros v []; cbn; try (rewrite andb_false_r); congruence.
  - intros Hz r ord Hr. unfold rv_rmw. rewrite Hz. cbn [negb].
    destruct ((ibits t <? 32) && negb (zabha c)) eqn:Q.
    + apply andb_prop in Q as [Q1 Q2]. apply Z.ltb_lt in Q1. apply negb_true_iff in Q2.
      destruct r; cbn [sub_word_rmw]; try contradiction; try (destruct Hr; [lia | congruence]);
        unfold sub_word_and, sub_word_or, sub_word_xor; destruct (create_sub_word_mask_values c (nbytes t) a) as [[? ?] ?]; cbn;
        split; discriminate.
    + destruct r; cbn [word_rmw]; try contradiction; cbn; split; discriminate.
Qed.

(** ** Any number of harts, variables of any sizes side by side in the same words: every history is one of
    atomic variables, memory ends with the abstract values, and nothing else in memory changes. *)
Theorem C17_riscv_atomic : forall c vars m ls s h,
  (xlen c = 32 \/ xlen c = 64) -> layout_ok vars -> (forall a t, vars a = Some t -> 0 <= a < 2 ^ xlen c) ->
  byte_mem m -> rv_run c vars (rv_init m) ls = Some (s, h) ->
  byte_history (rv_be c) vars m h (values (rv_be c) vars (rmem s)).
Proof. intros c vars m ls s h XL LO AD. exact (rv_atomic c vars XL LO AD m ls s h). Qed.
Theorem C17_riscv_frame : forall c vars m ls s h x,
  (xlen c = 32 \/ xlen c = 64) -> layout_ok vars -> (forall a t, vars a = Some t -> 0 <= a < 2 ^ xlen c) ->
  byte_mem m -> rv_run c vars (rv_init m) ls = Some (s, h) ->
  (forall a t, vars a = Some t -> ~ inside a t x) -> rmem s x = m x.
Proof. intros c vars m ls s h x XL LO AD Hm H. exact (rv_frame c vars XL LO AD m ls s h Hm H x). Qed.
(** Every operation returns after two steps of its own hart, whatever the others do meanwhile (the steps of
    other harts never touch this hart's progress; the statement holds in every state). *)
Theorem C13_riscv_wait_free : forall c vars s h a t o, rthr s h = RPending a t o -> (exists m, rv_access c t a o m <> None) ->
  exists r s', rv_run c vars s [LStep h; LStep h] = Some (s', [Return h r]).
Proof. exact rv_wait_free. Qed.

(** ** Non-vacuity: a 16-bit variable at 4, 8-bit ones at 6 and 7, in one word. *)
Definition vars0 : layout := fun a => if a =? 4 then Some i16 else if a =? 6 then Some u8 else if a =? 7 then Some i8 else None.
Lemma vars0_cases a t : vars0 a = Some t -> (a, t) = (4, i16) \/ (a, t) = (6, u8) \/ (a, t) = (7, i8).
Proof.
  unfold vars0. destruct (Z.eqb_spec a 4) as [->|]; [intros [= <-]; auto|].
  destruct (Z.eqb_spec a 6) as [->|]; [intros [= <-]; auto|]. destruct (Z.eqb_spec a 7) as [->|]; [intros [= <-]; auto | discriminate].
Qed.
Example vars0_ok : layout_ok vars0 /\ (forall a t, vars0 a = Some t -> 0 <= a < 2 ^ 32) /\ (forall a t, vars0 a = Some t -> 0 <= a < 2 ^ 64).
Proof.
  split; [constructor|].
  - intros a t H. apply vars0_cases in H as [H|[H|H]]; injection H as -> ->; cbn; auto.
  - intros a t H. apply vars0_cases in H as [H|[H|H]]; injection H as -> ->; reflexivity.
  - intros a t b u x H1 H2. apply vars0_cases in H1 as [H1|[H1|H1]]; injection H1 as -> ->;
      apply vars0_cases in H2 as [H2|[H2|H2]]; injection H2 as -> ->; unfold inside; change (Z.of_nat (nbytes i16)) with 2; change (Z.of_nat (nbytes u8)) with 1; change (Z.of_nat (nbytes i8)) with 1; change (Z.of_nat (nbytes u64)) with 8; lia.
  - split; intros a t H; apply vars0_cases in H as [H|[H|H]]; injection H as -> ->; lia.
Qed.
Definition sched0 : list rlabel :=
  [LCall 0 6 (BOp (ORmw (And 15) SeqCst)); LCall 1 4 (BNoFetch (Xor (-1)) Relaxed); LStep 1; LStep 0; LStep 1; LStep 0;
   LCall 0 7 (BOp (ORmw Not AcqRel)); LStep 0; LStep 0].
Example riscv_run_example : forall be,
  match rv_run (mk_rv 32 be true false) vars0 (rv_init (fun x => 16 * x + 1)) sched0 with
  | Some (s, h) => map (rmem s) [3; 4; 5; 6; 7; 8] = [49; 190; 174; 1; 142; 129] /\
      h = [Call 0 6 (BOp (ORmw (And 15) SeqCst)); Call 1 4 (BNoFetch (Xor (-1)) Relaxed); Return 1 RUnit; Return 0 (RVal 97);
           Call 0 7 (BOp (ORmw Not AcqRel)); Return 0 (RVal 113)]
  | None => False
  end.
Proof. intros []; vm_compute; split; reflexivity. Qed.

Print Assumptions C17_riscv_access.
Print Assumptions C17_riscv_served.
Print Assumptions C17_riscv_atomic.
Print Assumptions C17_riscv_frame.
Print Assumptions C13_riscv_wait_free.
