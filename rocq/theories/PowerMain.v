(** powerpc64: from blocks to atomic histories. *)
From Coq Require Import ZArith List Bool Lia.
From Verif Require Import Words Spec WideSpec WordsFacts LoopModel LoopProofs AsmModel AsmProofs BlockModel AtomicImpls
  AtomicImplsProofs AsmMain OrderingModel PowerModel PowerProofs PowerBlocks.
Import ListNotations.
Open Scope Z_scope.

Lemma p_impl_ok g ty : (forall a, wf_ity (ty a)) -> forall a o i, p_impl g ty a o = Some i ->
  impl_correct (fun a => ibits (ty a)) (fun a x => of_bits (ty a) x) (sem ty) a o i.
Proof.
  intros WF a o i. unfold p_impl.
  destruct ((ibits (ty a) =? 128) && callable (ty a) o && (0 <=? a) && (a <? 2 ^ 64)) eqn:EC;
    cbn [negb]; [|discriminate].
  apply andb_true_iff in EC as [EC _]. apply andb_true_iff in EC as [EC _]. apply andb_true_iff in EC as [E1 E2].
  apply Z.eqb_eq in E1.
  assert (WH : whole (fun a => ibits (ty a)) a 128 [0%nat]).
  { unfold whole. rewrite E1. repeat split; lia. }
  pose proof (whole_covers ty a 128 [0%nat] WH) as CV.
  destruct o as [[ord|v ord|r ord|cu nw sc fl]|cu nw sc fl]; intros E; injection E as <-.
  - now apply d_load_ok.
  - now apply d_store_ok.
  - now apply l_rmw_ok.
  - now apply l_cas_ok.
  - destruct (static g); [now apply l_cas_weak_ok|]. apply strong_serves_weak. now apply l_cas_ok.
Qed.

Theorem p_atomic g ty junk m ls s h :
  (forall a, wf_ity (ty a)) -> mem_ok ty m ->
  asm_run (bnext exec1 test access) (code_of g ty junk) (asm_init m) ls = Some (s, h) -> atomic_history ty m h (amem s).
Proof.
  intros WF. apply (blocks_atomic _ (code_of g ty junk) (p_impl g ty) ty).
  - intros. now apply (p_refines g ty junk).
  - now apply p_impl_ok.
Qed.
Theorem p_never_stuck g ty junk m ls s h t c : mem_ok ty m ->
  asm_run (bnext exec1 test access) (code_of g ty junk) (asm_init m) ls = Some (s, h) -> athr s t = Some c ->
  forall sp, exists s' e, asm_step (bnext exec1 test access) (code_of g ty junk) s (mk_label t None sp) = Some (s', e).
Proof.
  intros Hm. eapply (asm_never_stuck _ (code_of g ty junk) (p_impl g ty) (fun a => ibits (ty a))).
  - intros. now apply (p_refines g ty junk).
  - exact Hm.
Qed.
