(** * Properties C32, C33, C34 *)
From Coq Require Import ZArith String List Bool Lia.
From Verif Require Import Spec OrderSpec UtilsModel EncodeModel EncodeSpec.
Import ListNotations.
Open Scope list_scope.
Open Scope Z_scope.

(** ** C32 *)
Lemma scan_spec : forall bytes i, (i <= length bytes)%nat ->
  exists b, c_str_scan bytes i = Some b /\ (b = true <-> forall j, (j < i)%nat -> nth_error bytes j <> Some 0).
Proof.
  intros bytes. induction i as [|i IH]; intros Hi; cbn.
  - exists true. split; [reflexivity|]. split; [intros _ j Hj; lia | reflexivity].
  - destruct (nth_error bytes i) as [b|] eqn:E.
    + destruct (Z.eqb_spec b 0) as [->|N].
      * exists false. split; [reflexivity|]. split; [discriminate|]. intros H. exfalso. apply (H i); [lia | exact E].
      * destruct IH as (r & -> & IH); [lia|]. exists r. split; [reflexivity|]. rewrite IH. split; intros H j Hj.
        -- destruct (Nat.eq_dec j i) as [->|]; [rewrite E; congruence | apply H; lia].
        -- apply H. lia.
    + apply nth_error_None in E. lia.
Qed.

(** The check never panics, and accepts exactly the strings [s ++ [NUL]] where [s] contains no NUL. *)
Theorem C32_c_str : forall bytes, exists b, const_is_c_str bytes = Some b /\
  (b = true <-> exists s, bytes = s ++ [0] /\ ~ In 0 s).
Proof.
  intros bytes. unfold const_is_c_str. destruct bytes as [|x l] eqn:Eb.
  - exists false. split; [reflexivity|]. split; [discriminate|]. intros (s & H & _). destruct s; discriminate.
  - rewrite <- Eb. assert (Hl : (length bytes = S (length l))%nat) by (subst; reflexivity).
    destruct (exists_last (l := bytes)) as (s & y & Hs); [subst; discriminate|].
    assert (Hn : (length bytes = S (length s))%nat) by (rewrite Hs, app_length; cbn; lia).
    replace (length bytes - 1)%nat with (length s) by lia.
    assert (Hy : nth_error bytes (length s) = Some y).
    { rewrite Hs, nth_error_app2, Nat.sub_diag by lia. reflexivity. }
    rewrite Hy. destruct (Z.eqb_spec y 0) as [->|N]; cbn [negb].
    + destruct (scan_spec bytes (length s)) as (b & E & Hb); [lia|]. exists b. split; [exact E|]. rewrite Hb. split.
      * intros H. exists s. split; [exact Hs|]. intros Hin. apply In_nth_error in Hin as (j & Hj).
        assert (j < length s)%nat by (apply nth_error_Some; congruence).
        apply (H j); [assumption|]. rewrite Hs, nth_error_app1 by assumption. exact Hj.
      * intros (s' & E' & Hin). rewrite Hs in E'. apply app_inj_tail in E' as [-> _]. intros j Hj E0.
        rewrite Hs, nth_error_app1 in E0 by assumption. apply Hin. eapply nth_error_In, E0.
    + exists false. split; [reflexivity|]. split; [discriminate|]. intros (s' & E' & _).
      rewrite Hs in E'. apply app_inj_tail in E' as [_ E']. contradiction.
Qed.
(** The [c!] macro compiles exactly for strings without a NUL byte, of any length. *)
Theorem C32_c_macro : forall s, c_macro_accepts s = Some true <-> ~ In 0 s.
Proof.
  intros s. unfold c_macro_accepts. destruct (C32_c_str (s ++ [0])) as (b & -> & H). split.
  - intros E. injection E as ->. destruct (proj1 H eq_refl) as (s' & E & N). apply app_inj_tail in E as [-> _]. exact N.
  - intros N. f_equal. apply H. exists s. auto.
Qed.
(** Compilers before 1.46 only get the non-emptiness check (the source says so): it does not decide the
    property, but everything the full check accepts passes. *)
Theorem C32_old_compilers_refuted : exists bytes, const_is_c_str_old bytes = Some true /\ const_is_c_str bytes = Some false.
Proof. exists [65]. split; reflexivity. Qed.
Theorem C32_old_compilers_weaker : forall bytes, const_is_c_str bytes = Some true -> const_is_c_str_old bytes = Some true.
Proof. intros [|x l]; [discriminate | reflexivity]. Qed.
Example C32_cases : const_is_c_str [97; 98; 0] = Some true /\ const_is_c_str [97; 0; 0] = Some false /\
  const_is_c_str [0] = Some true /\ const_is_c_str [97] = Some false /\ const_is_c_str [] = Some false.
Proof. repeat split. Qed.

(** ** C34 *)
Definition waited_ok (std : bool) (w : waited) : Prop :=
  match w with Spun n => 1 <= n <= 32 | Yielded => std = true end.
Lemma snooze_ok : forall std step, 0 <= step <= 5 -> exists step' w, snooze std step = Some (step', w) /\
  0 <= step' <= 5 /\ waited_ok std w.
Proof.
  intros std step H. assert (step = 0 \/ step = 1 \/ step = 2 \/ step = 3 \/ step = 4 \/ step = 5) as Q by lia.
  destruct Q as [->|[->|[->|[->|[->| ->]]]]], std; cbn; do 2 eexists; (split; [reflexivity|]); cbn; repeat split; try lia; reflexivity.
Qed.
(** Any number of rounds: no overflow, every round spins at most 32 times (or, with std, yields). *)
Theorem C34_bounded : forall std n, exists step ws, snoozes std n backoff_new = Some (step, ws) /\
  length ws = n /\ step <= 5 /\ Forall (waited_ok std) ws.
Proof.
  intros std n. assert (G : forall n step, 0 <= step <= 5 -> exists step' ws, snoozes std n step = Some (step', ws) /\
    length ws = n /\ 0 <= step' <= 5 /\ Forall (waited_ok std) ws).
  { induction n0 as [|k IH]; intros step Hs; cbn.
    - exists step, []. auto.
    - destruct (snooze_ok std step Hs) as (s1 & w & -> & H1 & Hw). destruct (IH s1 H1) as (s2 & ws & -> & L & H2 & F).
      exists s2, (w :: ws). cbn. auto. }
  destruct (G n 0) as (s & ws & E & L & H & F); [lia|]. exists s, ws. repeat split; auto. lia.
Qed.
(** With std, at most 31 spin-loop hints are ever executed in one wait: from the sixth round on every round
    yields to the scheduler. *)
Definition spins (ws : list waited) : Z := fold_right (fun w a => match w with Spun n => n + a | Yielded => a end) 0 ws.
Lemma snoozes_std5 : forall n, snoozes true n 5 = Some (5, repeat Yielded n).
Proof. induction n as [|n IH]; [reflexivity|]. cbn [snoozes snooze]. unfold SPIN_LIMIT. cbn -[snoozes]. rewrite IH. reflexivity. Qed.
Theorem C34_std_total : forall n, exists step ws, snoozes true n backoff_new = Some (step, ws) /\ spins ws <= 31.
Proof.
  intros n. do 5 (destruct n as [|n]; [do 2 eexists; split; [reflexivity | cbn; lia]|]).
  exists 5, ([Spun 1; Spun 2; Spun 4; Spun 8; Spun 16] ++ repeat Yielded n).
  cbn [snoozes]. cbn -[snoozes]. change (2 ^ 0) with 1. rewrite snoozes_std5. split; [reflexivity|].
  assert (E : spins (repeat Yielded n) = 0) by (induction n; auto).
  change (1 + (2 + (4 + (8 + (16 + spins (repeat Yielded n))))) <= 31). lia.
Qed.
Example C34_case : snoozes false 7 backoff_new = Some (5, [Spun 1; Spun 2; Spun 4; Spun 8; Spun 16; Spun 32; Spun 32]).
Proof. reflexivity. Qed.

(** ** C33 *)
Definition acq_b (o : ordering) : bool := match o with Acquire | AcqRel | SeqCst => true | _ => false end.
Definition rel_b (o : ordering) : bool := match o with Release | AcqRel | SeqCst => true | _ => false end.
Lemma acq_b_spec : forall o, acq_b o = true <-> has_acquire o.
Proof. unfold has_acquire. intros []; cbn; intuition discriminate. Qed.
Lemma rel_b_spec : forall o, rel_b o = true <-> has_release o.
Proof. unfold has_release. intros []; cbn; intuition discriminate. Qed.

(** The registers hold the values the block binds them to. *)
Definition binds {A} (val : A -> Z) (l : list (Z * A)) (regs : Z -> Z) : Prop := Forall (fun '(r, x) => regs r = val x) l.

Ltac cas_out := unfold binds, blk_out, rv32_cas_block, rv64_cas_block; cbn [amocas_order_insn seqcst_b];
  repeat (apply Forall_cons); try apply Forall_nil; cbn -[Z.pow Z.modulo Z.div]; congruence.
Ltac cas_frame := intros r H6 H7; cbn beta; rewrite (proj2 (Z.eqb_neq _ _) H6), (proj2 (Z.eqb_neq _ _) H7); reflexivity.
Ltac cas_mem := intros x; cbn beta; change (14 + 1) with 15; change (12 + 1) with 13;
  repeat match goal with H : _ _ = _ |- _ => rewrite H; clear H end; reflexivity.

Definition whole (be : bool) (val : operand -> Z) : Z := pair_value be (val NewLo) (val NewHi).
Ltac load_out := unfold binds, blk_out, rv32_load_block, rv64_load_block; cbn [amocas_order_insn seqcst_b];
  repeat (apply Forall_cons); try apply Forall_nil; cbn -[Z.pow Z.modulo Z.div]; congruence.
Ltac load_mem := intros x; cbn beta; change (12 + 1) with 13;
  repeat match goal with H : _ _ = _ |- _ => rewrite H; clear H end;
  match goal with |- context [x =? ?p] => destruct (Z.eqb_spec x p) as [->|] end; [|reflexivity]; cbn [andb];
  match goal with |- (if ?a =? ?b then _ else _) = _ => destruct (Z.eqb_spec a b) as [E|]; [exact (eq_sym E) | reflexivity] end.
Ltac a64_out := unfold binds; cbn -[Z.pow Z.modulo Z.div pair_first pair_second];
  repeat (apply Forall_cons); try apply Forall_nil; unfold set2; cbn -[Z.pow Z.modulo Z.div pair_first pair_second]; congruence.
Ltac a64_frame := intros r N; cbn in N; unfold set2; cbn beta;
  repeat match goal with |- (if r =? ?k then _ else _) = _ => destruct (Z.eqb_spec r k); [exfalso; apply N; auto|] end; reflexivity.
Ltac a64_mem := intros x; unfold whole; cbn beta; repeat match goal with H : _ _ = _ |- _ => rewrite H; clear H end; reflexivity.

(** RISC-V compare and swap of a double-width value (64 bits on RV32, 128 bits on RV64), for every pair of
    orderings: the word is amocas with exactly the requested acquire and release bits, and executing it with
    the registers bound as written does the compare-and-swap and leaves the old value where the code expects it. *)
Theorem C33_riscv_cas : forall xlen order failure b,
  (xlen = 32 /\ b = rv32_cas_block order failure) \/ (xlen = 64 /\ b = rv64_cas_block order failure) ->
  exists w aq rl rd rs2 rs1, parse_hex (blk_word b) = Some w /\ decode_rv w = Some (Amocas (2 * xlen) aq rl rd rs2 rs1) /\
    (aq = true <-> has_acquire order) /\ (rl = true <-> has_release order) /\
    (blk_before b = "fence rw,rw"%string <-> order = SeqCst /\ failure = SeqCst) /\
    forall val regs mem, binds val (blk_in b) regs ->
    exists regs' mem', exec_rv xlen (Amocas (2 * xlen) aq rl rd rs2 rs1) regs mem = Some (regs', mem') /\
      binds (fun x => match x with PrevLo => mem (val Ptr) mod 2 ^ xlen | PrevHi => mem (val Ptr) / 2 ^ xlen | _ => val x end) (blk_out b) regs' /\
      blk_out b = [(rd, PrevLo); (rd + 1, PrevHi)] /\
      (forall r, r <> rd -> r <> rd + 1 -> regs' r = regs r) /\
      (forall x, mem' x = if (x =? val Ptr) && (mem (val Ptr) =? val OldLo + 2 ^ xlen * val OldHi)
                          then val NewLo + 2 ^ xlen * val NewHi else mem x).
Proof.
  intros xlen order failure b [[-> ->]|[-> ->]]; destruct order, failure; do 6 eexists;
    (refine (conj _ (conj _ (conj _ (conj _ (conj _ _))))); [vm_compute; reflexivity | vm_compute; reflexivity
     | unfold has_acquire; intuition discriminate | unfold has_release; intuition discriminate
     | cbn; intuition discriminate |]);
    intros val regs mem H; cbn in H; repeat (apply Forall_cons_iff in H as [? H]);
    (do 2 eexists; refine (conj _ (conj _ (conj _ (conj _ _)))); [reflexivity | cas_out | reflexivity | cas_frame | cas_mem]).
Qed.

(** The load is a compare-and-swap of zero with zero through the same pair: memory is never changed. *)
Theorem C33_riscv_load : forall xlen order b,
  (xlen = 32 /\ b = rv32_load_block order) \/ (xlen = 64 /\ b = rv64_load_block order) ->
  exists w aq rl rd rs1, parse_hex (blk_word b) = Some w /\ decode_rv w = Some (Amocas (2 * xlen) aq rl rd rd rs1) /\
    (aq = true <-> has_acquire order) /\ (rl = true <-> has_release order) /\
    (blk_before b = "fence rw,rw"%string <-> order = SeqCst) /\
    forall val regs mem, binds val (blk_in b) regs -> val ZeroLo = 0 -> val ZeroHi = 0 ->
    exists regs' mem', exec_rv xlen (Amocas (2 * xlen) aq rl rd rd rs1) regs mem = Some (regs', mem') /\
      binds (fun x => match x with PrevLo => mem (val Ptr) mod 2 ^ xlen | PrevHi => mem (val Ptr) / 2 ^ xlen | _ => val x end) (blk_out b) regs' /\
      blk_out b = [(rd, PrevLo); (rd + 1, PrevHi)] /\
      (forall r, r <> rd -> r <> rd + 1 -> regs' r = regs r) /\ (forall x, mem' x = mem x).
Proof.
  intros xlen order b [[-> ->]|[-> ->]]; destruct order; do 5 eexists;
    (refine (conj _ (conj _ (conj _ (conj _ (conj _ _))))); [vm_compute; reflexivity | vm_compute; reflexivity
     | unfold has_acquire; intuition discriminate | unfold has_release; intuition discriminate
     | cbn; intuition discriminate |]);
    intros val regs mem H Z0 Z1; cbn in H; repeat (apply Forall_cons_iff in H as [? H]);
    (do 2 eexists; refine (conj _ (conj _ (conj _ (conj _ _)))); [reflexivity | load_out | reflexivity | cas_frame | load_mem]).
Qed.

(** A64 128-bit swap, bit clear and bit set, on either endianness: the word is the named instruction with the
    requested acquire/release, the registers are the ones bound to the pointer and the two halves. *)
Theorem C33_aarch64_lse128 : forall be fop order b upd,
  (b = swpp_block order /\ upd = (fun x v : Z => v)) \/
  (b = ldclrp_block order /\ upd = (fun x v : Z => Z.ldiff x v)) \/
  (b = ldsetp_block order /\ upd = (fun x v : Z => Z.lor x v)) ->
  exists w i, parse_hex (blk_word b) = Some w /\ decode_a64 w = Some i /\
    (match i with Swpp a r _ _ _ | Ldclrp a r _ _ _ | Ldsetp a r _ _ _ => (a = true <-> has_acquire order) /\ (r = true <-> has_release order) | _ => False end) /\
    forall val regs mem, binds val (blk_in b) regs ->
      let (regs', mem') := exec_a64 be fop i regs mem in
      binds (fun x => match x with PrevLo => pair_first be (mem (val Ptr)) | PrevHi => pair_second be (mem (val Ptr)) | _ => val x end) (blk_out b) regs' /\
      map snd (blk_out b) = [PrevLo; PrevHi] /\
      (forall r, ~ In r (map fst (blk_out b)) -> regs' r = regs r) /\
      (forall x, mem' x = if x =? val Ptr then upd (mem (val Ptr)) (whole be val) else mem x).
Proof.
  intros be fop order b upd [[-> ->]|[[-> ->]|[-> ->]]]; destruct order; do 2 eexists;
    (refine (conj _ (conj _ (conj _ _))); [vm_compute; reflexivity | vm_compute; reflexivity
     | unfold has_acquire, has_release; intuition discriminate |]);
    intros val regs mem H; cbn in H; repeat (apply Forall_cons_iff in H as [? H]);
    unfold exec_a64; (refine (conj _ (conj _ (conj _ _))); [a64_out | reflexivity | a64_frame | a64_mem]).
Qed.
Theorem C33_aarch64_ldiapp : forall be fop order b, ldiapp_block order = Some b ->
  (order = Acquire \/ order = SeqCst) /\
  exists w t t2 n, parse_hex (blk_word b) = Some w /\ decode_a64 w = Some (Ldiapp t t2 n) /\
    forall val regs mem, binds val (blk_in b) regs ->
      let (regs', mem') := exec_a64 be fop (Ldiapp t t2 n) regs mem in
      binds (fun x => match x with PrevLo => pair_first be (mem (val Ptr)) | PrevHi => pair_second be (mem (val Ptr)) | _ => val x end) (blk_out b) regs' /\
      map snd (blk_out b) = [PrevLo; PrevHi] /\
      (forall r, ~ In r (map fst (blk_out b)) -> regs' r = regs r) /\ mem' = mem.
Proof.
  intros be fop order b H. destruct order; try discriminate; injection H as <-; (split; [auto|]); do 4 eexists;
    (refine (conj _ (conj _ _)); [vm_compute; reflexivity | vm_compute; reflexivity |]);
    intros val regs mem H; cbn in H; repeat (apply Forall_cons_iff in H as [? H]);
    unfold exec_a64; (refine (conj _ (conj _ (conj _ _))); [a64_out | reflexivity | a64_frame | reflexivity]).
Qed.
Theorem C33_aarch64_stilp : forall be fop order b, stilp_block order = Some b ->
  (order = Release \/ order = SeqCst) /\
  exists w t t2 n, parse_hex (blk_word b) = Some w /\ decode_a64 w = Some (Stilp t t2 n) /\
    forall val regs mem, binds val (blk_in b) regs ->
      let (regs', mem') := exec_a64 be fop (Stilp t t2 n) regs mem in
      regs' = regs /\ (forall x, mem' x = if x =? val Ptr then whole be val else mem x).
Proof.
  intros be fop order b H. destruct order; try discriminate; injection H as <-; (split; [auto|]); do 4 eexists;
    (refine (conj _ (conj _ _)); [vm_compute; reflexivity | vm_compute; reflexivity |]);
    intros val regs mem H; cbn in H; repeat (apply Forall_cons_iff in H as [? H]);
    unfold exec_a64; (split; [reflexivity | a64_mem]).
Qed.
(** Floating point: the operation, the width and the registers. *)
Theorem C33_aarch64_lsfe : forall be fop o s order,
  let b := lsfe_block o s order in
  let bits := match s with H16 => 16 | S32 => 32 | D64 => 64 end in
  let opc := match o with LdfAdd => 0 | LdfMaxNm => 6 | LdfMinNm => 7 end in
  exists w acq rel rs rt n, parse_hex (blk_word b) = Some w /\ decode_a64 w = Some (Ldf opc bits acq rel rs rt n) /\
    (acq = true <-> has_acquire order) /\ (rel = true <-> has_release order) /\
    forall val regs mem, binds val (blk_in b) regs ->
      let (regs', mem') := exec_a64 be fop (Ldf opc bits acq rel rs rt n) regs mem in
      binds (fun x => match x with PrevLo => mem (val Ptr) | _ => val x end) (blk_out b) regs' /\
      map snd (blk_out b) = [PrevLo] /\
      (forall r, ~ In r (map fst (blk_out b)) -> regs' r = regs r) /\
      (forall x, mem' x = if x =? val Ptr then fop bits opc (mem (val Ptr)) (val NewLo) else mem x).
Proof.
  intros be fop o s order. destruct o, s, order; do 6 eexists;
    (refine (conj _ (conj _ (conj _ (conj _ _)))); [vm_compute; reflexivity | vm_compute; reflexivity
     | unfold has_acquire; intuition discriminate | unfold has_release; intuition discriminate |]);
    intros val regs mem H; cbn in H; repeat (apply Forall_cons_iff in H as [? H]);
    unfold exec_a64; (refine (conj _ (conj _ (conj _ _))); [a64_out | reflexivity | a64_frame | a64_mem]).
Qed.
(** Non-vacuity: a concrete register file and memory. *)
Example C33_case : exists regs mem, binds (fun x => match x with Ptr => 64 | OldLo => 7 | OldHi => 9 | NewLo => 1 | NewHi => 2 | _ => 0 end)
  (blk_in (rv64_cas_block AcqRel Acquire)) regs /\ mem 64 = 7 + 2 ^ 64 * 9 /\
  parse_hex (blk_word (rv64_cas_block AcqRel Acquire)) = Some 784680751.
Proof.
  exists (fun r => if r =? 10 then 64 else if r =? 14 then 7 else if r =? 15 then 9 else if r =? 12 then 1 else 2), (fun _ => 7 + 2 ^ 64 * 9).
  split; [repeat constructor | split; reflexivity].
Qed.


Print Assumptions C32_c_str.
Print Assumptions C32_c_macro.
Print Assumptions C32_old_compilers_refuted.
Print Assumptions C32_old_compilers_weaker.
Print Assumptions C34_bounded.
Print Assumptions C34_std_total.
Print Assumptions C33_riscv_cas.
Print Assumptions C33_riscv_load.
Print Assumptions C33_aarch64_lse128.
Print Assumptions C33_aarch64_ldiapp.
Print Assumptions C33_aarch64_stilp.
Print Assumptions C33_aarch64_lsfe.
