(** * Properties C01, C02, C04, C05, C06, C07: the lock-based fallback

    Statements only; proofs are one application of a lemma each. *)
From Coq Require Import ZArith Lia Bool List PeanoNat ZifyBool.
From Verif Require Import Words Spec WordsFacts LinFacts OrderingModel FallbackModel FallbackFacts
  FallbackProofs FallbackStruct FallbackProgress FallbackMain FallbackExtra.
Import ListNotations.
Open Scope Z_scope.

(** ** C01 / C02: linearizability.
    [run c (init m) ls = Some (s, h)]: starting from memory contents [m], schedule [ls]
    (any number of threads, any interleaving, any calls) produces call/return history [h]. *)
Theorem C01_fallback_linearizable : forall c m ls s h,
  wide c = false -> wf_config c -> wf_mem c m ->
  run c (init m) ls = Some (s, h) -> windows_ok c (init m) ls ->
  linearizable (atomic_var c) (var_value c m) h.
Proof. intros. eapply fallback_linearizable_lemma; eauto. Qed.

(** Together with the values left in memory once every call has returned. *)
Theorem C01_fallback_final_memory : forall c m ls s h,
  wide c = false -> wf_config c -> wf_mem c m ->
  run c (init m) ls = Some (s, h) -> windows_ok c (init m) ls ->
  (forall t, pcs s t = Idle) ->
  linearizable_to (atomic_var c) (var_value c m) h
    (fun a => match objs c a with Some _ => Some (var_value c (mem s) a) | None => None end).
Proof. intros. eapply fallback_quiescent_lemma; eauto. Qed.

(** The window condition holds of every execution of fewer than 2^63 steps. *)
Theorem C01_fallback_linearizable_below_2_63_steps : forall c m ls s h,
  wide c = false -> wf_config c -> wf_mem c m ->
  run c (init m) ls = Some (s, h) -> Z.of_nat (length ls) < 2 ^ 63 ->
  linearizable (atomic_var c) (var_value c m) h.
Proof.
  intros c m ls s h Hw WF WM Hr Hl. eapply fallback_linearizable_lemma; eauto.
  apply windows_short_init. unfold max_window. rewrite Hw. exact Hl.
Qed.

Theorem C02_fallback_wide_linearizable : forall c m ls s h,
  wide c = true -> wf_config c -> wf_mem c m ->
  run c (init m) ls = Some (s, h) -> windows_ok c (init m) ls ->
  linearizable (atomic_var c) (var_value c m) h.
Proof. intros. eapply fallback_linearizable_lemma; eauto. Qed.

Theorem C02_fallback_wide_final_memory : forall c m ls s h,
  wide c = true -> wf_config c -> wf_mem c m ->
  run c (init m) ls = Some (s, h) -> windows_ok c (init m) ls ->
  (forall t, pcs s t = Idle) ->
  linearizable_to (atomic_var c) (var_value c m) h
    (fun a => match objs c a with Some _ => Some (var_value c (mem s) a) | None => None end).
Proof. intros. eapply fallback_quiescent_lemma; eauto. Qed.

Theorem C02_fallback_wide_linearizable_below_2_62_steps : forall c m ls s h,
  wide c = true -> wf_config c -> wf_mem c m ->
  run c (init m) ls = Some (s, h) -> Z.of_nat (length ls) < 2 ^ 62 ->
  linearizable (atomic_var c) (var_value c m) h.
Proof.
  intros c m ls s h Hw WF WM Hr Hl. eapply fallback_linearizable_lemma; eauto.
  apply windows_short_init. unfold max_window. rewrite Hw. lia.
Qed.

(** ** C04: a batch of loads and compare_exchanges, run concurrently in any interleaving
    between two moments at which nobody is inside a call, in which no compare_exchange
    succeeded, leaves every memory cell and every lock word as it was. *)
Theorem C04_non_writing_calls_change_nothing : forall c m ls0 s0 h0 ls s h,
  run c (init m) ls0 = Some (s0, h0) -> (forall t, pcs s0 t = Idle) ->
  run c s0 ls = Some (s, h) -> (forall t, pcs s t = Idle) ->
  (forall l a o, In l ls -> call l = Some (a, o) ->
     match o with OLoad _ | OCas _ _ _ _ => True | _ => False end) ->
  (forall t v, ~ In (Return t (ROk v)) h) ->
  (forall x, mem s x = mem s0 x) /\ (forall k, locks s k = locks s0 k).
Proof. exact quiet_batch. Qed.

(** In the middle of any execution: a step that alters memory is a step of a store, of a
    read-modify-write or of a compare_exchange that is going to return [Ok]. *)
Theorem C04_only_writers_write : forall c m ls s h l s' e x,
  run c (init m) ls = Some (s, h) -> step c s l = Some (s', e) -> mem s' x <> mem s x ->
  exists a o st new i r,
    pcs s (tid l) = LWrite a o st new i r /\
    (forall ord, o <> OLoad ord) /\ (forall v, r <> RErr v) /\ r <> RPanic.
Proof.
  intros c m ls s h l s' e x Hr Hs Hx.
  destruct (step_mem_change c s l s' e x (reach_SInv c m ls s h Hr) Hs Hx)
    as (a & o & ty & i & Ho & Hty & Hi & Ex & Hl & _ & st & new & n & r & Hp & He).
  exists a, o, st, new, n, r. splits; auto.
  - intros ord ->. discriminate.
  - intros v ->. discriminate.
  - intros ->. discriminate.
Qed.

(** ** C05: no interference between variables *)
Theorem C05_only_own_variable_changes : forall c m ls s h l s' e b tb,
  wf_config c -> run c (init m) ls = Some (s, h) -> step c s l = Some (s', e) ->
  objs c b = Some tb -> var_value c (mem s') b <> var_value c (mem s) b ->
  exists o st new j r, pcs s (tid l) = LWrite b o st new j r /\ forall ord, o <> OLoad ord.
Proof.
  intros c m ls s h l s' e b tb WF Hr Hs Hb Hv.
  destruct (only_owner_changes c WF m ls s h l s' e b tb Hr Hs Hb Hv) as (o & _ & Hl & st & new & j & r & Hp & _).
  exists o, st, new, j, r. split; auto. intros ord ->. discriminate.
Qed.

(** Cells that belong to no atomic variable are never written. *)
Theorem C05_nothing_outside_is_written : forall c m ls s h l s' e x,
  run c (init m) ls = Some (s, h) -> step c s l = Some (s', e) -> mem s' x <> mem s x ->
  exists a ty i, objs c a = Some ty /\ (i < len c ty)%nat /\ x = chunk_addr c a i.
Proof.
  intros c m ls s h l s' e x Hr Hs Hx.
  destruct (step_mem_change c s l s' e x (reach_SInv c m ls s h Hr) Hs Hx)
    as (a & o & ty & i & Ho & Hty & Hi & Ex & _).
  exists a, ty, i. auto.
Qed.

(** Every address is served by an entry inside the table of 67 locks. *)
Theorem C05_lock_index_in_table : forall addr, 0 <= lock_index addr < 67.
Proof. intros. unfold lock_index, LOCKS_LEN. apply Z.mod_pos_bound. lia. Qed.

(** ** C06: progress *)
(** Every locked lock is held by exactly one thread, which releases it after at most
    [2 * (number of chunks) + 6] steps of its own, whatever the others do meanwhile. *)
Theorem C06_holder_releases : forall c m ls0 s h0 k ls s' h,
  run c (init m) ls0 = Some (s, h0) -> lo (locks s k) = LOCKED ->
  exists t, holder (pcs s t) k /\ (forall u, holder (pcs s u) k -> u = t) /\
  forall a o, pc_obj (pcs s t) = Some (a, o) ->
  run c s ls = Some (s', h) -> (2 * len c (obj_ty c a) + 6 <= own_steps t ls)%nat ->
  exists ls1 ls2 s1 h1, ls = ls1 ++ ls2 /\ run c s ls1 = Some (s1, h1) /\ ~ holder (pcs s1 t) k.
Proof.
  intros c m ls0 s h0 k ls s' h Hr0 Hk.
  pose proof (reach_SInv _ _ _ _ _ Hr0) as I. pose proof I as (I1 & I2 & I3 & I4 & _).
  destruct (I4 k Hk) as [t Ht]. exists t. splits; eauto.
  intros a o Ha Hr Ho. eapply holder_releases; eauto.
  destruct (pcs s t) eqn:Ep; cbn in Ht; try contradiction; cbn in Ha; injection Ha as -> ->; cbn [todo]; lia.
Qed.

(** A thread that holds a lock is never waiting: its next step is always possible and
    brings it closer to releasing. *)
Theorem C06_holder_never_waits : forall c m ls s h t k,
  run c (init m) ls = Some (s, h) -> holder (pcs s t) k ->
  exists s' e, step c s (mk_label t None) = Some (s', e) /\ (todo c (pcs s' t) < todo c (pcs s t))%nat.
Proof.
  intros c m ls s h t k Hr Hh. pose proof (reach_SInv _ _ _ _ _ Hr) as I.
  destruct (holder_pc_obj _ _ Hh) as (a & o & Ha & Hk).
  destruct (unblocked_step c s t I) as (s' & e & Hs & Ht & _).
  - intros E. rewrite E in Hh. exact Hh.
  - left. rewrite Ha, Hk. exact Hh.
  - eauto.
Qed.

(** From every reachable situation, all pending calls of any finite set of threads can
    complete without any new call being made. *)
Theorem C06_all_pending_calls_can_complete : forall c m ls0 s h0 ts,
  run c (init m) ls0 = Some (s, h0) ->
  exists ls s' h, run c s ls = Some (s', h) /\ (forall t, In t ts -> pcs s' t = Idle) /\
    Forall (fun l => call l = None) ls.
Proof.
  intros c m ls0 s h0 ts Hr. destruct (can_finish_all c ts s (reach_SInv _ _ _ _ _ Hr)) as (ls & s' & h & ? & ? & ? & _).
  exists ls, s', h. auto.
Qed.

Theorem C06_no_lock_leaked : forall c m ls s h k,
  run c (init m) ls = Some (s, h) -> (forall t, pcs s t = Idle) -> lo (locks s k) <> LOCKED.
Proof. intros. eapply quiescent_locks_free; eauto. Qed.

(** ** C07: data-race freedom *)
Theorem C07_no_data_race : forall c m ls s h,
  wf_config c -> run c (init m) ls = Some (s, h) -> ~ race c s.
Proof. intros. apply no_race; auto. eapply reach_SInv; eauto. Qed.

(** ** Non-vacuity *)
(** Three variables; the ones at 1000 and 2072 share lock number 62. *)
Definition ex_objs (a : Z) : option ity :=
  if a =? 1000 then Some u128 else if a =? 1016 then Some i128 else if a =? 2072 then Some u128 else None.
Definition ex_narrow : config := mk_config false false ex_objs.
Definition ex_wide : config := mk_config true true
  (fun a => if a =? 64 then Some u64 else if a =? 72 then Some i64 else None).

Ltac ex_wf :=
  split;
  [ intros a t; cbn [objs ex_narrow ex_wide]; unfold ex_objs; repeat match goal with |- context [?x =? ?y] => destruct (x =? y) end; try discriminate; intros [= <-];
    first [exists 2%nat; split; [lia|reflexivity]]
  | intros a b ta tb i j Ha Hb Hi Hj; unfold chunk_addr, chunk_bytes; cbn [objs wide ex_narrow ex_wide] in *;
    unfold ex_objs in *;
    repeat match goal with H : context [?x =? ?y] |- _ => destruct (Z.eqb_spec x y) end;
    try discriminate; injection Ha as <-; injection Hb as <-; vm_compute in Hi, Hj; lia ].

Example ex_narrow_wf : wf_config ex_narrow.
Proof. ex_wf. Qed.
Example ex_wide_wf : wf_config ex_wide.
Proof. ex_wf. Qed.
Example ex_locks_collide : lock_index 1000 = lock_index 2072.
Proof. reflexivity. Qed.

Definition ex_mem : Z -> Z := fun x => if x =? 1000 then 5 else if x =? 68 then 7 else 0.
Example ex_mem_ok : wf_mem ex_narrow ex_mem /\ wf_mem ex_wide ex_mem.
Proof. split; intros x; unfold ex_mem; cbn; destruct (x =? 1000), (x =? 68); lia. Qed.

(** Thread 0 loads optimistically and has read one half when thread 1 overwrites the
    variable; thread 2 fails a compare_exchange on a variable behind the same lock. *)
Definition ex_sched : list label :=
  let st t := mk_label t None in
  [mk_label 0 (Some (1000, OLoad SeqCst)); st 0%nat; st 0%nat; st 0%nat;
   mk_label 1 (Some (1000, ORmw (Add (2 ^ 128 - 1)) Relaxed))] ++ repeat (st 1%nat) 10 ++
  [mk_label 2 (Some (2072, OCas 9 1 AcqRel Acquire))] ++ repeat (st 2%nat) 3 ++ repeat (st 0%nat) 4 ++
  repeat (st 2%nat) 4 ++ repeat (st 0%nat) 7.
Example ex_run : exists s, run ex_narrow (init ex_mem) ex_sched = Some (s,
  [Call 0 1000 (OLoad SeqCst); Call 1 1000 (ORmw (Add (2 ^ 128 - 1)) Relaxed); Return 1 (RVal 5);
   Call 2 2072 (OCas 9 1 AcqRel Acquire); Return 2 (RErr 0); Return 0 (RVal 4)]).
Proof. eexists. vm_compute. reflexivity. Qed.
Example ex_run_windows : windows_ok ex_narrow (init ex_mem) ex_sched.
Proof. apply windows_short_init. vm_compute. reflexivity. Qed.

Definition ex_sched_wide : list label :=
  let st t := mk_label t None in
  [mk_label 0 (Some (64, OLoad Acquire)); st 0%nat; st 0%nat; st 0%nat; st 0%nat;
   mk_label 1 (Some (72, ORmw (Min (-3)) SeqCst))] ++ repeat (st 1%nat) 3 ++ repeat (st 0%nat) 5 ++ repeat (st 1%nat) 7.
Example ex_run_wide : exists s, run ex_wide (init ex_mem) ex_sched_wide = Some (s,
  [Call 0 64 (OLoad Acquire); Call 1 72 (ORmw (Min (-3)) SeqCst); Return 0 (RVal 7); Return 1 (RVal 0)])
  /\ forall t, In t [0; 1; 2]%nat -> pcs s t = Idle.
Proof.
  eexists. split; [vm_compute; reflexivity|].
  intros t [<-|[<-|[<-|[]]]]; reflexivity.
Qed.

Print Assumptions C01_fallback_linearizable.
Print Assumptions C01_fallback_final_memory.
Print Assumptions C01_fallback_linearizable_below_2_63_steps.
Print Assumptions C02_fallback_wide_linearizable.
Print Assumptions C02_fallback_wide_final_memory.
Print Assumptions C02_fallback_wide_linearizable_below_2_62_steps.
Print Assumptions C04_non_writing_calls_change_nothing.
Print Assumptions C04_only_writers_write.
Print Assumptions C05_only_own_variable_changes.
Print Assumptions C05_nothing_outside_is_written.
Print Assumptions C05_lock_index_in_table.
Print Assumptions C06_holder_releases.
Print Assumptions C06_holder_never_waits.
Print Assumptions C06_all_pending_calls_can_complete.
Print Assumptions C06_no_lock_leaked.
Print Assumptions C07_no_data_race.
