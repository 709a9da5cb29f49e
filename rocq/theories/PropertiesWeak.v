(** * Properties C29, C30: the lock-based fallback under weak memory

    [crun c s ls = Some (s', h)]: the code of WeakModel.v, run by any number of threads on the
    weak-memory machine of WeakMem.v with the schedule (and the choice of what every load reads
    and where every store goes) [ls], gives the history [h]: calls, returns, and everything the
    threads do with their own memory in between.
    [nrun]: the same for native atomics with release/acquire semantics (WeakSpec.v). *)
From Coq Require Import ZArith List Bool Lia PeanoNat ZifyBool Permutation.
From Verif Require Import Words Spec FallbackModel WeakMem WeakSpec WeakModel WeakInv WeakMain WeakShort WeakUse ScMain.
Import ListNotations.
Open Scope Z_scope.

Notation crun c := (wrun cloc_eqb (next c) (code c) Cl).
Notation nrun c := (wrun aloc_eqb (s_next (obj_ty c)) (s_code (objs c)) Ac).
Definition vars_ok (c : config) (vars : Z -> Z) : Prop := forall a ty, objs c a = Some ty -> in_range ty (vars a).

(** ** C30: every weak behaviour of the lock-based code is a weak behaviour of native atomics on which
    every load acquires, every store releases and every read-modify-write does both, whatever was asked for.
    Premise: no optimistic load lasts so long that the version counter goes round completely under it. *)
Theorem C30_fallback_refines_native : forall c vars own ls s h,
  wf_config c -> vars_ok c vars -> never_lapped c (w_init c vars own) ls ->
  crun c (w_init c vars own) ls = Some (s, h) ->
  exists ls' A, nrun c (s_init vars own) ls' = Some (A, h).
Proof.
  intros c vars own ls s h WF V NL R. destruct (sim_run c WF ls _ _ _ _ _ (sim_init c vars own V) NL R) as (ls' & A & G & R' & _). eauto.
Qed.
(** No premise on the counter for executions with fewer than 2^63 (2^32) steps. *)
Corollary C30_fallback_refines_native_below_2_63_steps : forall c vars own ls s h,
  wf_config c -> vars_ok c vars -> Z.of_nat (length ls) < (if wide c then 2 ^ 32 else 2 ^ 63) ->
  crun c (w_init c vars own) ls = Some (s, h) ->
  exists ls' A, nrun c (s_init vars own) ls' = Some (A, h).
Proof. intros c vars own ls s h WF V L R. eapply C30_fallback_refines_native; eauto. now apply never_lapped_short. Qed.

(** ** C29: the plain (non-atomic) read made under the lock never races with a store. *)
Theorem C29_fallback_no_data_race : forall c vars own ls s h t,
  wf_config c -> vars_ok c vars -> never_lapped c (w_init c vars own) ls ->
  crun c (w_init c vars own) ls = Some (s, h) -> ~ races s t.
Proof.
  intros c vars own ls s h t WF V NL R. destruct (sim_run c WF ls _ _ _ _ _ (sim_init c vars own V) NL R) as (ls' & A & G & _ & S').
  eapply sim_no_race; eauto.
Qed.

(** ** C29: every value a call returns is a whole value: the initial one, one passed to a store or compare_exchange,
    or what a read-modify-write makes of such a value. *)
Theorem C29_fallback_no_tearing : forall c vars own ls s h t a o r v,
  wf_config c -> vars_ok c vars -> never_lapped c (w_init c vars own) ls ->
  crun c (w_init c vars own) ls = Some (s, h) ->
  answers h t a o r -> value_of r = Some v -> made (obj_ty c a) (vars a) h a v.
Proof.
  intros c vars own ls s h t a o r v WF V NL R. destruct (C30_fallback_refines_native _ _ _ _ _ _ WF V NL R) as (ls' & A & R').
  eapply native_whole; eauto.
Qed.

(** ** C30: publication.  [t1] writes [d] to its location [x] (even relaxed).  Later [t2] obtains from the variable [a],
    by any call with any ordering, a value [v] that the calls other than those [t1] made after that write cannot have
    produced.  If [t2] then reads [x] (even relaxed) it gets [d], provided nobody else wrote to [x]. *)
Theorem C30_fallback_publishes : forall c vars own ls s t1 x d rl n t2 a o r v aq w h0 h1 h2 h3,
  wf_config c -> vars_ok c vars -> never_lapped c (w_init c vars own) ls ->
  crun c (w_init c vars own) ls = Some (s, h0 ++ EOwn t1 (Store x d rl) n :: h1 ++ ERet t2 r :: h2 ++ EOwn t2 (Load x aq) w :: h3) ->
  pending (h0 ++ EOwn t1 (Store x d rl) n :: h1) t2 = Some (a, o) -> value_of r = Some v ->
  ~ made (obj_ty c a) (vars a) (h0 ++ filter (fun e => negb (calls t1 e)) h1) a v ->
  Forall (fun e => writes_own x e = false) (h0 ++ h1 ++ h2) ->
  w = d.
Proof.
  intros c vars own ls s t1 x d rl n t2 a o r v aq w h0 h1 h2 h3 WF V NL R. destruct (C30_fallback_refines_native _ _ _ _ _ _ WF V NL R) as (ls' & A & R').
  eapply native_publishes; eauto.
Qed.

(** ** C30: no update is lost.  If the calls on [a] are loads and calls of one read-modify-write [r] (with any orderings),
    then, once all have returned, the values they returned are exactly the first [n] iterates of [r], each once. *)
Theorem C30_fallback_no_lost_update : forall c vars own ls s h a r,
  wf_config c -> vars_ok c vars -> never_lapped c (w_init c vars own) ls ->
  crun c (w_init c vars own) ls = Some (s, h) ->
  (forall t o, In (ECall t a o) h -> (exists ord, o = OLoad ord) \/ exists ord, o = ORmw r ord) ->
  (forall t o, pending h t <> Some (a, o)) ->
  let got := rmw_values (fun _ => None) a h in
  Permutation got (map (fun i => Nat.iter i (spec_rmw (obj_ty c a) r) (vars a)) (seq 0 (length got))).
Proof.
  intros c vars own ls s h a r WF V NL R O P. destruct (C30_fallback_refines_native _ _ _ _ _ _ WF V NL R) as (ls' & A & R').
  eapply (native_counter _ _ _ _ a r _ _ _ R'); auto. intros t o I. destruct (O t o I) as [(od & ->)|H]; auto.
Qed.

(** ** C38: SeqCst.  A SeqCst load called after a SeqCst store has returned does not miss it... *)
Theorem C38_fallback_seqcst_visible : forall c vars own ls s t1 t2 a w h0 h1 h2 r h3,
  wf_config c -> vars_ok c vars -> never_lapped c (w_init c vars own) ls ->
  let h := h0 ++ ERet t1 RUnit :: h1 ++ ECall t2 a (OLoad SeqCst) :: h2 ++ ERet t2 (RVal r) :: h3 in
  crun c (w_init c vars own) ls = Some (s, h) ->
  pending h0 t1 = Some (a, OStore w SeqCst) -> Forall (fun e => calls t2 e = false) h2 ->
  only_stores_but (vars a) a h -> r <> vars a.
Proof.
  intros c vars own ls s t1 t2 a w h0 h1 h2 r h3 WF V NL h R. destruct (C30_fallback_refines_native _ _ _ _ _ _ WF V NL R) as (ls' & A & R').
  intros P N F. exact (native_sc_visible _ _ _ _ a t2 ls' A t1 w h0 h1 h2 r h3 h R' eq_refl P N F).
Qed.
(** ... so two threads that each store to one variable and then load the other cannot both miss the other's store. *)
Theorem C38_fallback_store_buffering : forall c vars own ls s h t1 t2 a va b vb ra rb,
  wf_config c -> vars_ok c vars -> never_lapped c (w_init c vars own) ls ->
  crun c (w_init c vars own) ls = Some (s, h) ->
  only_stores_but (vars a) a h -> only_stores_but (vars b) b h -> t1 <> t2 ->
  stores_then_loads h t1 a va b rb -> stores_then_loads h t2 b vb a ra -> ~ (rb = vars b /\ ra = vars a).
Proof.
  intros c vars own ls s h t1 t2 a va b vb ra rb WF V NL R. destruct (C30_fallback_refines_native _ _ _ _ _ _ WF V NL R) as (ls' & A & R').
  intros Fa Fb N S1 S2. eapply native_store_buffering; eauto.
Qed.

(** ** C38: ... and the variables ([P]) that are only ever used with SeqCst are linearizable, whatever is done with the others
    and with which orderings: each operation on them takes effect in one indivisible step between its call and its return,
    in one order for all the variables of [P] and all the threads. *)
Theorem C38_fallback_seqcst_linearizable : forall c vars own ls s h P,
  wf_config c -> vars_ok c vars -> never_lapped c (w_init c vars own) ls ->
  crun c (w_init c vars own) ls = Some (s, h) ->
  (forall a, P a = true -> objs c a <> None) ->
  (forall t a o, In (ECall t a o) h -> P a = true -> asks_sc o = true /\ panics o = false) ->
  linearizable (atomic_var c) vars (calls_on P h).
Proof.
  intros c vars own ls s h P WF V NL R Po Sc. destruct (C30_fallback_refines_native _ _ _ _ _ _ WF V NL R) as (ls' & A & R').
  apply (sc_linearizable (obj_ty c) (objs c) vars own P ls' A h R' Po); [|exact Sc].
  intros a t Ha. unfold obj_ty. now rewrite Ha.
Qed.

(** ** A concrete case: thread 0 writes its own location 7 (relaxed) and then stores to the variable; thread 1
    loads, stale, the initial value; loads again, optimistically, the new one, and then must see the write to 7. *)
Definition ex_w : config := mk_config false false (fun a => if a =? 1000 then Some u128 else None).
Example ex_w_wf : wf_config ex_w.
Proof.
  split.
  - intros a t. cbn. destruct (a =? 1000); [|easy]. intros [= <-]. exists 2%nat. split; [lia|reflexivity].
  - intros a b ta tb i j. cbn. destruct (Z.eqb_spec a 1000) as [->|]; [|easy]. destruct (Z.eqb_spec b 1000) as [->|]; [|easy]. easy.
Qed.
Definition ex_w_sched : list (wlabel op) :=
  let st (t : nat) ts := LStep t ts in
  [LOwn 0%nat (Store 7 42 false) 5; LCall 0%nat 1000 (OStore (2 ^ 64 + 3) Relaxed);
   st 0%nat 0; st 0%nat 0; st 0%nat 3; st 0%nat 3; LCall 1%nat 1000 (OLoad Relaxed); st 0%nat 2; st 0%nat 0;
   st 1%nat 0; st 1%nat 0; st 1%nat 0; st 1%nat 0; st 1%nat 0; st 1%nat 0;
   LOwn 1%nat (Load 7 false) 0;
   LCall 1%nat 1000 (OLoad Relaxed); st 1%nat 2; st 1%nat 3; st 1%nat 3; st 1%nat 0; st 1%nat 2; st 1%nat 0;
   LOwn 1%nat (Load 7 false) 5].
Example ex_w_run : option_map snd (crun ex_w (w_init ex_w (fun _ => 9) (fun _ => 0)) ex_w_sched) = Some (
  [EOwn 0%nat (Store 7 42 false) 0; ECall 0%nat 1000 (OStore (2 ^ 64 + 3) Relaxed); ECall 1%nat 1000 (OLoad Relaxed); ERet 0%nat RUnit;
   ERet 1%nat (RVal 9); EOwn 1%nat (Load 7 false) 0;
   ECall 1%nat 1000 (OLoad Relaxed); ERet 1%nat (RVal (2 ^ 64 + 3)); EOwn 1%nat (Load 7 false) 42]).
Proof. vm_compute. reflexivity. Qed.
(** the stale read of 7 is no longer possible after the second load *)
Example ex_w_no_stale : option_map snd (crun ex_w (w_init ex_w (fun _ => 9) (fun _ => 0)) (removelast ex_w_sched ++ [LOwn 1%nat (Load 7 false) 0])) = None.
Proof. vm_compute. reflexivity. Qed.
Example ex_w_hyps : vars_ok ex_w (fun _ => 9) /\ never_lapped ex_w (w_init ex_w (fun _ => 9) (fun _ => 0)) ex_w_sched.
Proof.
  split; [|apply never_lapped_short; cbn; lia].
  intros a ty. cbn. destruct (a =? 1000); [|easy]. intros [= <-]. unfold in_range. cbn. lia.
Qed.
(** it is an instance of [C30_fallback_publishes] ... *)
Example ex_w_not_made : ~ made (obj_ty ex_w 1000) 9
  ([] ++ filter (fun e => negb (calls 0 e)) [ECall 0%nat 1000 (OStore (2 ^ 64 + 3) Relaxed); ECall 1%nat 1000 (OLoad Relaxed); ERet 0%nat RUnit;
     ERet 1%nat (RVal 9); EOwn 1%nat (Load 7 false) 0; ECall 1%nat 1000 (OLoad Relaxed)]) 1000 (2 ^ 64 + 3).
Proof. cbn. intros M. inversion M as [H|t v o I|t x n o o' I|t r o x I]; cbn in I; repeat (destruct I as [I|I]; [discriminate|]); easy. Qed.

(** ... two threads counting on one variable, the second starting its lock acquisition while the first is inside *)
Definition ex_c_sched : list (wlabel op) :=
  let st (t : nat) ts := LStep t ts in
  [LCall 0%nat 1000 (ORmw (Add 1) Relaxed); st 0%nat 0; st 0%nat 0; LCall 1%nat 1000 (ORmw (Add 1) Relaxed); st 1%nat 1; st 0%nat 1; st 0%nat 0; st 0%nat 0;
   st 1%nat 2; st 0%nat 1; st 0%nat 1; st 0%nat 3; st 1%nat 3; st 0%nat 0; st 1%nat 3; st 1%nat 0; st 1%nat 2; st 1%nat 1; st 1%nat 1;
   st 1%nat 2; st 1%nat 2; st 1%nat 5; st 1%nat 0].
Example ex_c_run : option_map snd (crun ex_w (w_init ex_w (fun _ => 2 ^ 64 - 1) (fun _ => 0)) ex_c_sched) = Some
  [ECall 0%nat 1000 (ORmw (Add 1) Relaxed); ECall 1%nat 1000 (ORmw (Add 1) Relaxed); ERet 0%nat (RVal (2 ^ 64 - 1)); ERet 1%nat (RVal (2 ^ 64))].
Proof. vm_compute. reflexivity. Qed.

(** store buffering: thread 0 misses the store of thread 1, which then must see that of thread 0 *)
Definition ex_sb : config := mk_config false true (fun a => if a =? 1000 then Some u128 else if a =? 1016 then Some u128 else None).
Definition ex_sb_sched : list (wlabel op) :=
  let st (t : nat) ts := LStep t ts in
  let store t a := [LCall t a (OStore 1 SeqCst); st t 0; st t 0; st t 0; st t 1; st t 1; st t 2; st t 0; st t 0] in
  let load t a z := [LCall t a (OLoad SeqCst); st t 0; st t (2 * z); st t z; st t z; st t 0; st t (2 * z); st t 0; st t 0] in
  store 0%nat 1000 ++ load 0%nat 1016 0 ++ store 1%nat 1016 ++ load 1%nat 1000 1.
Example ex_sb_run : option_map snd (crun ex_sb (w_init ex_sb (fun _ => 0) (fun _ => 0)) ex_sb_sched) = Some
  [ECall 0%nat 1000 (OStore 1 SeqCst); ERet 0%nat RUnit; ECall 0%nat 1016 (OLoad SeqCst); ERet 0%nat (RVal 0);
   ECall 1%nat 1016 (OStore 1 SeqCst); ERet 1%nat RUnit; ECall 1%nat 1000 (OLoad SeqCst); ERet 1%nat (RVal 1)].
Proof. vm_compute. reflexivity. Qed.
(** it is an instance of [C38_fallback_seqcst_linearizable] with both variables in [P] *)
Example ex_sb_wf : wf_config ex_sb.
Proof.
  split.
  - intros a t. cbn. destruct (a =? 1000); [|destruct (a =? 1016); [|easy]]; intros [= <-]; exists 2%nat; (split; [lia|reflexivity]).
  - intros a b ta tb i j. cbn. destruct (Z.eqb_spec a 1000) as [->|]; [|destruct (Z.eqb_spec a 1016) as [->|]; [|easy]];
      (destruct (Z.eqb_spec b 1000) as [->|]; [|destruct (Z.eqb_spec b 1016) as [->|]; [|easy]]); intros [= <-] [= <-] Hi Hj E;
      try reflexivity; exfalso; change (i < 2)%nat in Hi; change (j < 2)%nat in Hj; unfold chunk_addr in E; change (chunk_bytes ex_sb) with 8 in E; lia.
Qed.
Example ex_sb_linearizable : linearizable (atomic_var ex_sb) (fun _ => 0)
  [Call 0%nat 1000 (OStore 1 SeqCst); Return 0%nat RUnit; Call 0%nat 1016 (OLoad SeqCst); Return 0%nat (RVal 0);
   Call 1%nat 1016 (OStore 1 SeqCst); Return 1%nat RUnit; Call 1%nat 1000 (OLoad SeqCst); Return 1%nat (RVal 1)].
Proof.
  pose proof ex_sb_run as R. destruct (crun ex_sb _ _) as [[s h]|] eqn:E; [|easy]. cbn in R. injection R as ->.
  refine (C38_fallback_seqcst_linearizable ex_sb (fun _ => 0) (fun _ => 0) ex_sb_sched s _ (fun a => (a =? 1000) || (a =? 1016)) _ _ _ E _ _).
  all: clear E.
  - apply ex_sb_wf.
  - intros a ty. cbn. destruct (a =? 1000); [|destruct (a =? 1016); [|easy]]; intros [= <-]; unfold in_range; cbn; lia.
  - apply never_lapped_short. cbn. lia.
  - intros a. cbn. destruct (a =? 1000); [easy|]. now destruct (a =? 1016).
  - intros t a o H _. repeat (destruct H as [[= <- <- <-]|H]; [split; reflexivity|]; try (destruct H as [H|H]; [discriminate|])). easy.
Qed.
(** without SeqCst both may be missed: the machine is really weak *)
Definition ex_sb_relaxed : list (wlabel op) :=
  let st (t : nat) ts := LStep t ts in
  let store t a := [LCall t a (OStore 1 Relaxed); st t 0; st t 0; st t 1; st t 1; st t 2; st t 0] in
  let load t a := [LCall t a (OLoad Relaxed); st t 0; st t 0; st t 0; st t 0; st t 0; st t 0] in
  store 0%nat 1000 ++ load 0%nat 1016 ++ store 1%nat 1016 ++ load 1%nat 1000.
Example ex_sb_relaxed_run : option_map snd (crun ex_sb (w_init ex_sb (fun _ => 0) (fun _ => 0)) ex_sb_relaxed) = Some
  [ECall 0%nat 1000 (OStore 1 Relaxed); ERet 0%nat RUnit; ECall 0%nat 1016 (OLoad Relaxed); ERet 0%nat (RVal 0);
   ECall 1%nat 1016 (OStore 1 Relaxed); ERet 1%nat RUnit; ECall 1%nat 1000 (OLoad Relaxed); ERet 1%nat (RVal 0)].
Proof. vm_compute. reflexivity. Qed.

Print Assumptions C30_fallback_refines_native.
Print Assumptions C30_fallback_refines_native_below_2_63_steps.
Print Assumptions C29_fallback_no_data_race.
Print Assumptions C29_fallback_no_tearing.
Print Assumptions C30_fallback_publishes.
Print Assumptions C30_fallback_no_lost_update.
Print Assumptions C38_fallback_seqcst_visible.
Print Assumptions C38_fallback_store_buffering.
Print Assumptions C38_fallback_seqcst_linearizable.
