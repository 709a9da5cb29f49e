(** * Property C06, continued: bounded progress of the lock-based fallback under fair scheduling

    [rounds c s rs s' h]: from state [s], a succession [rs] of pieces of the schedule, in each of which every thread that
    is inside a call when it begins takes at least one step (and may take any number; calls may be made freely), leads to
    [s'] with history [h]. *)
From Coq Require Import ZArith Lia Bool List PeanoNat.
From Verif Require Import Words Spec OrderingModel FallbackModel FallbackFacts FallbackProofs FallbackStruct FallbackProgress FallbackMain FallbackExtra
  PropertiesFallback FallbackFair.
Import ListNotations.
Open Scope Z_scope.

(** Deadlock freedom with a bound that does not depend on the number of threads: while somebody is inside a call, some call
    returns within [5 L + 20] rounds, [L] being the largest number of chunks of a variable (2 or 4). *)
Theorem C06_fair_some_call_returns : forall c L m ls0 s h0 rs s' h t,
  (forall a ty, objs c a = Some ty -> (len c ty <= L)%nat) ->
  run c (init m) ls0 = Some (s, h0) -> pcs s t <> Idle ->
  rounds c s rs s' h -> (5 * L + 20 <= length rs)%nat -> exists u r, In (Return u r) h.
Proof. intros c L m ls0 s h0 rs s' h t SM R NI RS LE. exact (some_call_returns c L SM rs s s' h t (reach_SInv _ _ _ _ _ R) RS NI LE). Qed.

(** When no further calls are made, all calls in progress return. *)
Theorem C06_fair_all_calls_return : forall c L m ls0 s h0 ts rs s' h,
  (forall a ty, objs c a = Some ty -> (len c ty <= L)%nat) ->
  run c (init m) ls0 = Some (s, h0) -> (forall t, pcs s t <> Idle -> In t ts) ->
  rounds c s rs s' h -> Forall (Forall (fun l => call l = None)) rs -> (length ts * (5 * L + 20) <= length rs)%nat ->
  forall t, pcs s' t = Idle.
Proof.
  intros c L m ls0 s h0 ts rs s' h SM R C RS F LE.
  apply (all_return c L SM ts (length ts) rs s s' h (reach_SInv _ _ _ _ _ R) RS F C); [|exact LE].
  unfold busy_of. clear. induction ts as [|t ts IH]; [auto|]. cbn [filter]. destruct (busyb (pcs s t)); cbn [length]; lia.
Qed.

(** A call that has taken its lock returns within [2 L + 6] rounds, whatever the others do. *)
Theorem C06_fair_holder_returns : forall c L m ls0 s h0 rs s' h t k,
  (forall a ty, objs c a = Some ty -> (len c ty <= L)%nat) ->
  run c (init m) ls0 = Some (s, h0) -> holder (pcs s t) k ->
  rounds c s rs s' h -> (2 * L + 6 <= length rs)%nat -> exists r, In (Return t r) h.
Proof.
  intros c L m ls0 s h0 rs s' h t k SM R H RS LE. pose proof (reach_SInv _ _ _ _ _ R) as I.
  assert (C : committed (pcs s t)) by (left; eauto).
  apply (committed_rounds c rs s s' h t I RS C). pose proof (todo_committed c L SM s t I C). lia.
Qed.

(** ** Non-vacuity: thread 1 waits for the lock that thread 0 holds; 30 rounds of two steps each are possible, and both
    calls return.  The chunk bound is 2. *)
Definition st t := mk_label t None.
Definition fair_start : list label :=
  [mk_label 0 (Some (1000, ORmw (Add 1) SeqCst)); st 0%nat; st 0%nat; mk_label 1 (Some (2072, OStore 3 Release)); st 1%nat; st 1%nat].
Example fair_len : forall a ty, objs ex_narrow a = Some ty -> (len ex_narrow ty <= 2)%nat.
Proof.
  intros a ty. cbn [objs ex_narrow]. unfold ex_objs. repeat match goal with |- context [?x =? ?y] => destruct (x =? y) end; try discriminate; intros [= <-]; vm_compute; lia.
Qed.
Ltac one_round :=
  split; [intros [|[|t]] H; first [exists (st 0); split; [cbn; auto; fail | reflexivity] | exists (st 1); split; [cbn; auto; fail | reflexivity] | (exfalso; apply H; vm_compute; reflexivity)]
         | eexists _, _, _; split; [vm_compute; reflexivity | split; [|reflexivity]]].
Example fair_example : exists s h0 s' h, run ex_narrow (init ex_mem) fair_start = Some (s, h0) /\
  pcs s 1%nat = Spin 2072 (OStore 3 Release) /\ holder (pcs s 0%nat) (lock_index 2072) /\
  rounds ex_narrow s (repeat [st 0; st 1] 8 ++ repeat [st 1] 5 ++ repeat [] 17)%nat s' h /\
  h = [Return 0%nat (RVal 5); Return 1%nat RUnit].
Proof.
  eexists _, _, _, _. split; [vm_compute; reflexivity|]. split; [reflexivity|]. split; [reflexivity|]. split.
  - cbn [repeat app rounds]. do 30 one_round. split; reflexivity.
  - reflexivity.
Qed.

Print Assumptions C06_fair_some_call_returns.
Print Assumptions C06_fair_all_calls_return.
Print Assumptions C06_fair_holder_returns.
