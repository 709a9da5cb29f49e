(** * Properties C08, C09, C10: orderings *)
From Coq Require Import Bool.
From Verif Require Import Spec OrderSpec OrderingModel DispatchModel.

(** ** C08 *)
Theorem C08_load_panics_iff : forall o, assert_load_ordering o = None <-> load_panics o.
Proof. unfold load_panics. destruct o; cbn; split; intros H; try discriminate; auto; destruct H; congruence. Qed.
Theorem C08_store_panics_iff : forall o, assert_store_ordering o = None <-> store_panics o.
Proof. unfold store_panics. destruct o; cbn; split; intros H; try discriminate; auto; destruct H; congruence. Qed.
Theorem C08_compare_exchange_panics_iff : forall s f,
  assert_compare_exchange_ordering s f = None <-> cas_panics s f.
Proof. unfold cas_panics. destruct s, f; cbn; split; intros H; try discriminate; auto; destruct H; congruence. Qed.
Theorem C08_fence_panics_iff : forall o,
  (fence_msp430 o = FencePanic <-> fence_panics o) /\
  (fence_arm_linux o = FencePanic <-> fence_panics o) /\
  (fence_x86 o = FencePanic <-> fence_panics o).
Proof. unfold fence_panics. destruct o; cbn; repeat split; intros H; try discriminate; auto. Qed.
(** A fence that does not panic is at least as strong as requested. *)
Theorem C08_fence_strong : forall o e,
  (fence_msp430 o = FenceEmitted e -> at_least e o) /\ (fence_arm_linux o = FenceEmitted e -> at_least e o) /\
  (fence_x86 o = FenceEmitted e -> at_least e o).
Proof.
  intros o e. unfold at_least, has_acquire, has_release, is_seqcst.
  destruct o; cbn; (split; [|split]); intros H; try discriminate; injection H as <-; auto 10.
Qed.
Example C08_both_occur : assert_load_ordering Release = None /\ assert_load_ordering SeqCst = Some tt.
Proof. split; reflexivity. Qed.

(** decision procedures, used only in the proofs *)
Definition acqb (o : ordering) := match o with Acquire | AcqRel | SeqCst => true | _ => false end.
Definition relb (o : ordering) := match o with Release | AcqRel | SeqCst => true | _ => false end.
Definition scb (o : ordering) := match o with SeqCst => true | _ => false end.
Definition at_leastb (a b : ordering) := implb (acqb b) (acqb a) && implb (relb b) (relb a) && implb (scb b) (scb a).
Lemma acqb_iff o : acqb o = true <-> has_acquire o.
Proof. unfold has_acquire. destruct o; cbn; split; auto; intros H; try discriminate; destruct H as [H|[H|H]]; discriminate. Qed.
Lemma relb_iff o : relb o = true <-> has_release o.
Proof. unfold has_release. destruct o; cbn; split; auto; intros H; try discriminate; destruct H as [H|[H|H]]; discriminate. Qed.
Lemma scb_iff o : scb o = true <-> is_seqcst o.
Proof. unfold is_seqcst. destruct o; cbn; split; auto; intros H; discriminate. Qed.
Lemma at_leastb_iff a b : at_leastb a b = true <-> at_least a b.
Proof.
  unfold at_least, at_leastb. rewrite <- !acqb_iff, <- !relb_iff, <- !scb_iff, !andb_true_iff.
  destruct (acqb a), (acqb b), (relb a), (relb b), (scb a), (scb b); cbn; tauto.
Qed.
Lemma vl_iff o : valid_load o <-> relb o = false \/ o = SeqCst.
Proof. unfold valid_load, load_panics. destruct o; cbn; split; intros H; auto; try (destruct H; discriminate); try (intros [E|E]; discriminate); exfalso; apply H; auto. Qed.
Lemma vs_iff o : valid_store o <-> acqb o = false \/ o = SeqCst.
Proof. unfold valid_store, store_panics. destruct o; cbn; split; intros H; auto; try (destruct H; discriminate); try (intros [E|E]; discriminate); exfalso; apply H; auto. Qed.
Lemma vf_iff o : valid_failure o <-> relb o = false \/ o = SeqCst.
Proof. unfold valid_failure. destruct o; cbn; split; intros H; auto; try (destruct H; congruence); split; discriminate. Qed.
Ltac al := apply at_leastb_iff; reflexivity.
Ltac bad H := try (exfalso; destruct H as [H|H]; discriminate).

(** ** C09 *)
Theorem C09_upgrade_covers_both : forall s f, valid_failure f ->
  at_least (upgrade_success_ordering s f) s /\ at_least (upgrade_success_ordering s f) f.
Proof. intros s f Hf. apply vf_iff in Hf. destruct f; bad Hf; destruct s; split; al. Qed.
Theorem C09_upgrade_is_least : forall s f o, valid_failure f ->
  at_least o s -> at_least o f -> at_least o (upgrade_success_ordering s f).
Proof.
  intros s f o Hf A B. apply vf_iff in Hf. apply at_leastb_iff in A, B. apply at_leastb_iff.
  destruct f; bad Hf; destruct s, o; cbn in *; congruence.
Qed.
Example C09_merges : upgrade_success_ordering Release Acquire = AcqRel /\ valid_failure Acquire.
Proof. split; [reflexivity|split; discriminate]. Qed.

(** ** C10: whatever the table selects is at least as strong as what was requested. *)
Definition serves (t : option target) (requested : ordering) : Prop :=
  exists tg, t = Some tg /\ at_least (target_order tg) requested.
Definition serves_cas (t : option cas_target) (s f : ordering) : Prop :=
  exists tg, t = Some tg /\ at_least (cas_success tg) s /\ at_least (cas_failure tg) f /\ valid_failure (cas_failure tg).
Definition serves_x86 (t : option x86_impl) (requested : ordering) : Prop :=
  exists tg, t = Some tg /\ at_least (x86_order tg) requested.

Theorem C10_tables_load : forall ct det o, valid_load o -> serves (table_load ct det o) o.
Proof. intros ct det o H. apply vl_iff in H. destruct o; bad H; destruct ct, det; eexists; (split; [reflexivity|]); al. Qed.
Theorem C10_tables_store : forall ct det o, valid_store o ->
  serves (table_store ct det o) o /\ serves (riscv_store ct det o) o.
Proof. intros ct det o H. apply vs_iff in H. destruct o; bad H; destruct ct, det; (split; eexists; (split; [reflexivity|]); al). Qed.
Theorem C10_tables_rmw : forall ct det o, serves (table_rmw ct det o) o.
Proof. intros ct det o. destruct ct, det, o; eexists; (split; [reflexivity|]); al. Qed.

(** The compare_exchange tables merge the two orderings first; the function they select is at least as
    strong as requested on success and on failure. *)
Theorem C10_tables_cas : forall ct det s f, valid_failure f -> serves_cas (table_cas ct det s f) s f.
Proof.
  intros ct det s f H. destruct ct.
  - exists (NativeCas s f). split; [reflexivity|]. cbn. split; [destruct s; al|]. split; [destruct f; al|exact H].
  - apply vf_iff in H. destruct f; bad H; destruct det, s; eexists; (split; [reflexivity|]);
      (split; [al|]); (split; [al|]); apply vf_iff; auto.
Qed.

Theorem C10_x86 : forall e o s f,
  (valid_load o -> serves_x86 (x86_load e o) o) /\
  (valid_store o -> serves_x86 (x86_store e o) o) /\
  at_least (x86_order (x86_rmw e o)) o /\
  (forall s' f', x86_cas e s f = X86FallbackCas (FallbackCas s' f') -> s' = SeqCst /\ f' = SeqCst).
Proof.
  intros [a b c d x y] o s f.
  split; [|split; [|split]].
  - intros _; destruct a, b, c, d, x, y, o; eexists; (split; [reflexivity|]); al.
  - intros H; apply vs_iff in H; destruct o; bad H; destruct a, b, c, d, x, y; eexists; (split; [reflexivity|]); al.
  - destruct a, x, o; al.
  - intros s' f' H; destruct a, x; cbn in H; try discriminate; injection H as <- <-; auto.
Qed.
Theorem C10_arm : forall k o s f,
  at_least (target_order (arm_load k o)) o /\ at_least (target_order (arm_store k o)) o /\
  at_least (target_order (arm_rmw k o)) o /\
  at_least (cas_success (arm_cas k s f)) s /\ at_least (cas_failure (arm_cas k s f)) f.
Proof.
  intros k o s f. split; [|split; [|split; [|split]]].
  1-3: destruct k, o; al.
  1: destruct k, s; al.
  destruct k, f; al.
Qed.

(** A SeqCst request is never served by a weaker entry, and no entry of the lock-based
    implementation is called with an ordering it rejects. *)
Theorem C10_seqcst_stays_seqcst : forall ct det t,
  table_load ct det SeqCst = Some t \/ table_store ct det SeqCst = Some t \/ table_rmw ct det SeqCst = Some t ->
  target_order t = SeqCst.
Proof. intros ct det t [H|[H|H]]; destruct ct, det; cbn in H; injection H as <-; reflexivity. Qed.
Theorem C10_fallback_accepts : forall ct det o o' s f s' f',
  (table_load ct det o = Some (Fallback o') -> assert_load_ordering o' = Some tt) /\
  (table_store ct det o = Some (Fallback o') -> assert_store_ordering o' = Some tt) /\
  (table_cas ct det s f = Some (FallbackCas s' f') -> assert_compare_exchange_ordering s' f' = Some tt).
Proof.
  intros. repeat split; intros H.
  - destruct ct, det, o; cbn in H; try discriminate; injection H as <-; reflexivity.
  - destruct ct, det, o; cbn in H; try discriminate; injection H as <-; reflexivity.
  - destruct ct, det, s, f; cbn in H; try discriminate; injection H as <- <-; reflexivity.
Qed.
Example C10_case : table_cas false false Release SeqCst = Some (FallbackCas SeqCst SeqCst) /\ valid_failure SeqCst.
Proof. split; [reflexivity|split; discriminate]. Qed.

(** ** C28: one machine, one implementation.  With the same compile-time switches and the same
    detection result, all operations use the native implementation or all use the lock-based one,
    and [is_lock_free] says which. *)
Theorem C28_tables_consistent : forall ct det o1 o2 o3 s f t1 t2 t3 t4,
  table_load ct det o1 = Some t1 -> table_store ct det o2 = Some t2 ->
  table_rmw ct det o3 = Some t3 -> table_cas ct det s f = Some t4 ->
  is_native t1 = table_is_lock_free ct det /\ is_native t2 = table_is_lock_free ct det /\
  is_native t3 = table_is_lock_free ct det /\ is_native_cas t4 = table_is_lock_free ct det.
Proof.
  intros ct det o1 o2 o3 s f t1 t2 t3 t4 H1 H2 H3 H4. repeat split.
  - destruct ct, det, o1; cbn in H1; try discriminate; injection H1 as <-; reflexivity.
  - destruct ct, det, o2; cbn in H2; try discriminate; injection H2 as <-; reflexivity.
  - destruct ct, det, o3; cbn in H3; try discriminate; injection H3 as <-; reflexivity.
  - destruct ct, det, s, f; cbn in H4; try discriminate; injection H4 as <-; reflexivity.
Qed.
(** [sane]: a CPU on which the program may run at all has the features it was compiled for. *)
Theorem C28_x86_consistent : forall e o1 o2 o3 s f t1 t2,
  x86_load e o1 = Some t1 -> x86_store e o2 = Some t2 ->
  x86_native t1 = x86_is_lock_free e /\ x86_native t2 = x86_is_lock_free e /\
  x86_native (x86_rmw e o3) = x86_is_lock_free e /\
  (x86_cas e s f = Cx16Cas <-> x86_is_lock_free e = true).
Proof.
  intros [a b c d x y] o1 o2 o3 s f t1 t2 H1 H2. repeat split.
  - destruct a, b, c, d, x, y; cbn in H1; injection H1 as <-; reflexivity.
  - destruct a, b, c, d, x, y, o2; cbn in H2; try discriminate; injection H2 as <-; reflexivity.
  - destruct a, x; reflexivity.
  - destruct a, x; cbn; congruence.
  - destruct a, x; cbn; congruence.
Qed.
(** vmovdqa is used only together with cmpxchg16b for the other operations, never together with the lock. *)
Theorem C28_x86_no_mixing : forall e o1 o2 o3 t1,
  x86_load e o1 = Some t1 -> x86_native t1 = true -> x86_rmw e o2 = Cx16 /\
  (forall t2, x86_store e o3 = Some t2 -> x86_native t2 = true).
Proof.
  intros [a b c d x y] o1 o2 o3 t1 H1 H2. split.
  - destruct a, b, c, d, x, y; cbn in H1; injection H1 as <-; cbn in *; congruence.
  - intros t2 H3. destruct a, b, c, d, x, y; cbn in H1; injection H1 as <-; cbn in H2; try discriminate;
      destruct o3; cbn in H3; try discriminate; injection H3 as <-; reflexivity.
Qed.
Theorem C28_always_implies_is : forall ct det e k,
  (table_is_always_lock_free ct = true -> table_is_lock_free ct det = true) /\
  (x86_is_always_lock_free e = true -> x86_is_lock_free e = true) /\
  (arm_is_always_lock_free = true -> arm_is_lock_free k = true).
Proof.
  intros ct det [a b c d x y] k. split; [|split].
  - unfold table_is_always_lock_free, table_is_lock_free. now intros ->.
  - unfold x86_is_always_lock_free, x86_is_lock_free. cbn. now intros ->.
  - discriminate.
Qed.
Example C28_cases : x86_load (mk_x86 false false true false true true) Relaxed = Some (Vmovdqa SeqCst) /\
  x86_store (mk_x86 false false true false true false) Release = Some Cx16 /\
  x86_load (mk_x86 false false true false false true) Relaxed = Some (X86Fallback (Fallback SeqCst)).
Proof. repeat split. Qed.

Print Assumptions C08_load_panics_iff.
Print Assumptions C08_store_panics_iff.
Print Assumptions C08_compare_exchange_panics_iff.
Print Assumptions C08_fence_panics_iff.
Print Assumptions C09_upgrade_covers_both.
Print Assumptions C09_upgrade_is_least.
Print Assumptions C10_tables_load.
Print Assumptions C10_tables_store.
Print Assumptions C10_tables_rmw.
Print Assumptions C08_fence_strong.
Print Assumptions C10_tables_cas.
Print Assumptions C10_x86.
Print Assumptions C10_arm.
Print Assumptions C10_seqcst_stays_seqcst.
Print Assumptions C10_fallback_accepts.
Print Assumptions C28_tables_consistent.
Print Assumptions C28_x86_consistent.
Print Assumptions C28_x86_no_mixing.
Print Assumptions C28_always_implies_is.
