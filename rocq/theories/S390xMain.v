(** s390x: from blocks to atomic histories. *)
From Coq Require Import ZArith List Bool Lia.
From Verif Require Import Words Spec WideSpec WordsFacts LoopModel LoopProofs AsmModel AsmProofs BlockModel AtomicImpls
  AtomicImplsProofs AsmMain S390xModel S390xProofs S390xBlocks.
Import ListNotations.
Open Scope Z_scope.

Lemma z_impl_ok ty : (forall a, wf_ity (ty a)) -> forall a o i, z_impl ty a o = Some i ->
  impl_correct (fun a => ibits (ty a)) (fun a x => of_bits (ty a) x) (sem ty) a o i.
Proof.
  intros WF a o i. unfold z_impl.
  destruct ((ibits (ty a) =? 128) && callable (ty a) o && (0 <=? a) && (a <? 2 ^ 64)) eqn:EC;
    cbn [negb]; [|discriminate].
  apply andb_true_iff in EC as [EC _]. apply andb_true_iff in EC as [EC _]. apply andb_true_iff in EC as [_ E2].
  destruct o as [[ord|v ord|r ord|cu nw sc fl]|cu nw sc fl]; intros E; injection E as <-.
  - now apply d_load_ok.
  - now apply d_store_ok.
  - now apply c_rmw_ok.
  - now apply d_cas_ok.
  - now apply d_cas_strong_for_weak_ok.
Qed.

Theorem z_atomic g pm ty junk m ls s h : 0 <= pm < 16 -> cc_reg g <> R0 /\ cc_reg g <> R1 ->
  (forall a, wf_ity (ty a)) -> mem_ok ty m ->
  asm_run (bnext (exec1 pm) test access) (code_of g ty junk) (asm_init m) ls = Some (s, h) -> atomic_history ty m h (amem s).
Proof.
  intros P G WF. apply (blocks_atomic _ (code_of g ty junk) (z_impl ty) ty).
  - intros. now apply (z_refines g pm ty junk).
  - now apply z_impl_ok.
Qed.
Theorem z_never_stuck g pm ty junk m ls s h t c : 0 <= pm < 16 -> cc_reg g <> R0 /\ cc_reg g <> R1 -> mem_ok ty m ->
  asm_run (bnext (exec1 pm) test access) (code_of g ty junk) (asm_init m) ls = Some (s, h) -> athr s t = Some c ->
  forall sp, exists s' e, asm_step (bnext (exec1 pm) test access) (code_of g ty junk) s (mk_label t None sp) = Some (s', e).
Proof.
  intros P G Hm. eapply (asm_never_stuck _ (code_of g ty junk) (z_impl ty) (fun a => ibits (ty a))).
  - intros. now apply (z_refines g pm ty junk).
  - exact Hm.
Qed.
