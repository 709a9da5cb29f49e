(** x86_64: every table entry is a correct atomic operation. *)
From Coq Require Import ZArith List Bool Lia.
From Verif Require Import Words Spec WideSpec WordsFacts LoopModel LoopProofs AsmModel AsmProofs AtomicImpls
  AtomicImplsProofs AsmMain X86Model X86Proofs X86Blocks.
Import ListNotations.
Open Scope Z_scope.

Lemma x86_impl_ok g ty : (forall a, wf_ity (ty a)) -> forall a o i, x86_impl ty g a o = Some i ->
  impl_correct (fun a => ibits (ty a)) (fun a x => of_bits (ty a) x) (sem ty) a o i.
Proof.
  intros WF a o i. unfold x86_impl.
  destruct ((ibits (ty a) =? 128) && callable (ty a) o && (0 <=? a) && (a <? (if x32 g then 2 ^ 32 else 2 ^ 64))) eqn:EC;
    cbn [negb]; [|discriminate].
  apply andb_true_iff in EC as [EC _]. apply andb_true_iff in EC as [EC _]. apply andb_true_iff in EC as [_ E2].
  destruct o as [[ord|v ord|r ord|cu nw sc fl]|cu nw sc fl]; intros E; injection E as <-.
  - destruct (avx g); [now apply d_load_ok|now apply d_load_cas_ok].
  - destruct (avx g); [now apply d_store_ok|now apply c_store_ok].
  - now apply c_rmw_ok.
  - now apply d_cas_ok.
  - now apply d_cas_strong_for_weak_ok.
Qed.

Theorem x86_atomic g ty junk m ls s h : (forall a, wf_ity (ty a)) -> mem_ok ty m ->
  asm_run next (code_of g ty junk) (asm_init m) ls = Some (s, h) -> atomic_history ty m h (amem s).
Proof.
  intros WF. apply (blocks_atomic next (code_of g ty junk) (x86_impl ty g) ty).
  - intros. now apply (x86_refines ty g junk).
  - now apply x86_impl_ok.
Qed.
Theorem x86_never_stuck g ty junk m ls s h t c : mem_ok ty m ->
  asm_run next (code_of g ty junk) (asm_init m) ls = Some (s, h) -> athr s t = Some c ->
  forall sp, exists s' e, asm_step next (code_of g ty junk) s (mk_label t None sp) = Some (s', e).
Proof.
  intros Hm. eapply (asm_never_stuck next (code_of g ty junk) (x86_impl ty g) (fun a => ibits (ty a))).
  - intros. now apply (x86_refines ty g junk).
  - exact Hm.
Qed.
