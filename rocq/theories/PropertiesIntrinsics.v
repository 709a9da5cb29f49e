(** * C11, C31 for the backend of core intrinsics (atomic128/intrinsics.rs) *)
From Coq Require Import ZArith List Bool Lia.
From Verif Require Import Words Spec WideSpec LoopModel AsmModel RustOps TraceSpec IntrinsicsModel IntrinsicsSpec.
From Verif Require IntrinsicsProofs IntrinsicsOrder IntrinsicsProgress.
Import ListNotations.
Open Scope Z_scope.

(** C11: in every configuration, for any number of threads and any schedule, also when the weak compare-exchange fails
    spuriously: every history is one of atomic variables ... *)
Theorem C11_intrinsics_atomic : forall g ty m ls s h, (forall a, 0 < ibits (ty a)) -> mem_ok ty m ->
  asm_run (inext g) (i_code_of g ty) (asm_init m) ls = Some (s, h) -> atomic_history ty m h (amem s).
Proof. intros g ty m ls s h W. exact (IntrinsicsProofs.intrinsics_atomic g ty W m ls s h). Qed.
(** ... and no call ever reaches one of the [unreachable!()]s. *)
Theorem C11_intrinsics_never_stuck : forall g ty m ls s h t c, (forall a, 0 < ibits (ty a)) -> mem_ok ty m ->
  asm_run (inext g) (i_code_of g ty) (asm_init m) ls = Some (s, h) -> athr s t = Some c ->
  forall sp, exists s' e, asm_step (inext g) (i_code_of g ty) s (mk_label t None sp) = Some (s', e).
Proof. intros g ty m ls s h t c W. exact (IntrinsicsProofs.intrinsics_never_stuck g ty W m ls s h t c). Qed.
Theorem C11_intrinsics_total : forall g ty a o, ibits (ty a) = 128 -> callable (ty a) o = true ->
  exists c, i_code_of g ty a o = Some c.
Proof.
  intros g ty a o W C. unfold i_code_of. rewrite W, Z.eqb_refl, C. cbn [andb negb].
  destruct o as [[ord|v ord|r ord|cu nw sc fl]|cu nw sc fl]; eauto.
Qed.

(** C13: from any reachable state, if the threads in [T] that are inside an operation are scheduled in any way, without new
    calls and without spurious failures, then within a bounded number of steps one of them returns; and a thread that runs
    alone finishes. *)
Theorem C13_intrinsics_lock_free : forall g ty T m ls s h, NoDup T -> (forall a, 0 < ibits (ty a)) -> mem_ok ty m ->
  asm_run (inext g) (i_code_of g ty) (asm_init m) ls = Some (s, h) ->
  exists n, forall ts s' h', Forall (fun t => In t T) ts -> (n <= length ts)%nat ->
    asm_run (inext g) (i_code_of g ty) s (map (fun t => mk_label t None false) ts) = Some (s', h') -> h' <> [].
Proof. intros g ty T m ls s h NT W M. exact (IntrinsicsProgress.intrinsics_lock_free g ty W T m ls s h NT M). Qed.
Theorem C13_intrinsics_solo : forall g ty m ls s h t c, (forall a, 0 < ibits (ty a)) -> mem_ok ty m ->
  asm_run (inext g) (i_code_of g ty) (asm_init m) ls = Some (s, h) -> athr s t = Some c ->
  exists j s' r, asm_run (inext g) (i_code_of g ty) s (repeat (mk_label t None false) j) = Some (s', [Return t r]).
Proof. intros g ty m ls s h t c W M. exact (IntrinsicsProgress.intrinsics_solo g ty W m ls s h t c M). Qed.

(** C31: whatever memory answers, a call that performs the intrinsics [tr] and returns [r] ends with one whose ordering is
    exactly the requested one (for a compare_exchange: the success or the failure ordering, by its outcome),
    and core accepts the orderings of all of them. *)
Theorem C31_intrinsics_orderings : forall g ty o tr r, performs g ty o tr r ->
  (exists tr' k out, tr = tr' ++ [(k, out)] /\ used k out = asked o r) /\
  forall k out, In (k, out) tr -> in_core k.
Proof.
  intros g ty o tr r H. destruct (IntrinsicsOrder.orderings g ty o tr r H) as [H1 H2]. split; [exact H2|].
  intros k out I. exact (proj1 (Forall_forall _ _) H1 (k, out) I).
Qed.

(** Non-vacuity: two threads add on x86_64; the second one's compare-exchange fails once. *)
Module Demo.
  Definition ty (_ : Z) : ity := i128.
  Definition m (_ : Z) : Z := 5.
  Definition g := mk_icfg IX86_64 false.
  Definition s (t : nat) (c : option (Z * wop)) : label wop := mk_label t c false.
  Definition ls := [s 0 (Some (16, WOp (ORmw (Add 3) AcqRel))); s 1 (Some (16, WOp (ORmw (Max (-2)) SeqCst)));
    s 0 None; s 1 None; s 0 None; s 1 None; s 1 None; s 0 None; s 1 None].
  Example runs : match asm_run (inext g) (i_code_of g ty) (asm_init m) ls with
    | Some (st, h) => amem st 16 = 8 /\ h = [Call 0 16 (WOp (ORmw (Add 3) AcqRel)); Call 1 16 (WOp (ORmw (Max (-2)) SeqCst));
        Return 0 (RVal 5); Return 1 (RVal 8)]
    | None => False end.
  Proof. vm_compute. split; reflexivity. Qed.
  Example typed : (forall a, 0 < ibits (ty a)) /\ mem_ok ty m.
  Proof. split; [intros a; reflexivity|intros a; unfold m, ty, i128, ibits; lia]. Qed.
  (** a load on x86_64 that finds 7: cmpxchg16b(0, 0, Acquire, Acquire) fails *)
  Example load7 : performs g ty (WOp (OLoad Acquire)) [(KCmpxchg16b 0 0 Acquire Acquire, (7, false))] (RVal 7).
  Proof.
    exists 16, (IDo 16 (KCmpxchg16b 0 0 Acquire Acquire) (fin_value i128)), (IRet (RVal 7)). split; [reflexivity|]. split; [|reflexivity].
    exact (calls_snoc g _ [] (IDo 16 (KCmpxchg16b 0 0 Acquire Acquire) (fin_value i128)) (KCmpxchg16b 0 0 Acquire Acquire) 16 (isem (KCmpxchg16b 0 0 Acquire Acquire))
      (fun out => IRet (fin_value i128 out)) false 7 (calls_nil g _) eq_refl eq_refl).
  Qed.
End Demo.
Print Assumptions C11_intrinsics_atomic.
Print Assumptions C11_intrinsics_never_stuck.
Print Assumptions C31_intrinsics_orderings.
