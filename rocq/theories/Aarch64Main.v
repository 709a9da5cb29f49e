(** aarch64: from blocks to atomic histories and progress. *)
From Coq Require Import ZArith List Bool Lia.
From Verif Require Import Words Spec WideSpec WordsFacts LoopModel LoopProofs LoopProgress AsmModel AsmProofs AsmProgress LockFree
  BlockModel AtomicImpls AtomicImplsProofs AsmMain ProgressMain OrderingModel Aarch64Model Aarch64Proofs Aarch64Blocks Aarch64Impl.
Import ListNotations.
Open Scope Z_scope.

Section Main.
  Variables (g : target) (h : hw) (ty : Z -> ity) (junk : Z -> wop -> st).
  Local Notation width := (fun a => ibits (ty a)).
  Local Notation nx := (bnext exec1 test (access (be g) h)).
  Lemma xp_covers a : ibits (ty a) = 128 -> covers width a (xk h) (xrs g h).
  Proof.
    intros W. unfold xk, xrs, half_order, piece. destruct (h_xp_single h); [apply covers1; lia|].
    destruct (h_up_first h), (be g); cbn [xorb]; first [apply covers01; lia|apply covers10; lia].
  Qed.
  Lemma p_covers a : ibits (ty a) = 128 -> covers width a (pk h) (prs g h).
  Proof.
    intros W. unfold pk, prs, half_order, piece. destruct (h_lse2 h); [apply covers1; lia|].
    destruct (h_up_first h), (be g); cbn [xorb]; first [apply covers01; lia|apply covers10; lia].
  Qed.
  Lemma prs_ne : prs g h <> [].
  Proof. unfold prs, half_order. destruct (h_lse2 h); [discriminate|]. destruct (h_up_first h); discriminate. Qed.

  Lemma v_impl_ok : (forall a, wf_ity (ty a)) -> forall a o i, v_impl g h ty a o = Some i ->
    impl_correct width (fun a x => of_bits (ty a) x) (sem ty) a o i.
  Proof.
    intros WF a o i. unfold v_impl.
    destruct ((ibits (ty a) =? 128) && callable (ty a) o && (0 <=? a) && (a <? 2 ^ 64)) eqn:EC;
      cbn [negb]; [|discriminate].
    apply andb_true_iff in EC as [EC _]. apply andb_true_iff in EC as [EC _]. apply andb_true_iff in EC as [E1 E2].
    apply Z.eqb_eq in E1. pose proof (xp_covers a E1) as CX. pose proof prs_ne as CP.
    destruct o as [[ord|v ord|r ord|cu nw sc fl]|cu nw sc fl]; intros E; injection E as <-.
    - destruct (lse2_path g); [now apply d_load_ok|]. destruct (c_lse g); [now apply d_load_cas_ok|now apply l_load_ok].
    - destruct (lse2_path g); [now apply d_store_ok|].
      destruct (c_lse g && negb (ll_sc_rmw g)); [now apply c_store_ok|now apply l_store_ok].
    - destruct (direct_path g r); [now apply d_rmw_ok|].
      destruct (cas_path g); [now apply c_rmw_ok|now apply l_rmw_ok].
    - destruct (lse_path g); [now apply d_cas_ok|now apply l_cas_wb_ok].
    - apply strong_serves_weak. destruct (lse_path g); [now apply d_cas_ok|now apply l_cas_wb_ok].
  Qed.
  Lemma v_reads a o i : v_impl g h ty a o = Some i -> reads_all width a i.
  Proof.
    unfold v_impl. destruct (Z.eqb_spec (ibits (ty a)) 128) as [E|]; cbn [andb negb]; [|discriminate].
    destruct (negb _); [discriminate|]. pose proof (xp_covers a E) as CX. pose proof (p_covers a E) as CP.
    destruct o as [[ord|v ord|r ord|cu nw sc fl]|cu nw sc fl]; intros H; injection H as <-;
      repeat match goal with |- context [if ?b then _ else _] => destruct b end; first [exact I|exact CX|exact CP].
  Qed.
  Hypothesis SO : sound g h.
  Hypothesis WF : forall a, wf_ity (ty a).
  Theorem v_atomic m ls s hs : mem_ok ty m ->
    asm_run nx (code_of g h ty junk) (asm_init m) ls = Some (s, hs) -> atomic_history ty m hs (amem s).
  Proof.
    apply (blocks_atomic _ (code_of g h ty junk) (v_impl g h ty) ty).
    - intros. now apply (v_refines g h ty junk).
    - now apply v_impl_ok.
  Qed.
  Theorem v_never_stuck m ls s hs t c : mem_ok ty m ->
    asm_run nx (code_of g h ty junk) (asm_init m) ls = Some (s, hs) -> athr s t = Some c ->
    forall sp, exists s' e, asm_step nx (code_of g h ty junk) s (mk_label t None sp) = Some (s', e).
  Proof.
    intros Hm. eapply (asm_never_stuck _ (code_of g h ty junk) (v_impl g h ty) width).
    - intros. now apply (v_refines g h ty junk).
    - exact Hm.
  Qed.
  Theorem v_solo m ls s hs t c : mem_ok ty m ->
    asm_run nx (code_of g h ty junk) (asm_init m) ls = Some (s, hs) -> athr s t = Some c ->
    exists j s' r, asm_run nx (code_of g h ty junk) s (repeat (mk_label t None false) j) = Some (s', [Return t r]).
  Proof.
    apply (asm_solo_finishes _ _ (v_impl g h ty) width (fun a x => of_bits (ty a) x) (sem ty)).
    - now apply v_impl_ok.
    - intros. eapply v_reads; eauto.
    - intros. now apply (v_refines g h ty junk).
  Qed.
  Theorem v_lock_free T m ls s hs : NoDup T -> mem_ok ty m ->
    asm_run nx (code_of g h ty junk) (asm_init m) ls = Some (s, hs) ->
    exists n, forall ts s' h', Forall (fun t => In t T) ts -> (n <= length ts)%nat ->
      asm_run nx (code_of g h ty junk) s (map (fun t => mk_label t None false) ts) = Some (s', h') -> h' <> [].
  Proof.
    intros NT. apply (asm_lock_free _ _ (v_impl g h ty) width (fun a x => of_bits (ty a) x) (sem ty)).
    - now apply v_impl_ok.
    - intros. eapply v_reads; eauto.
    - intros. now apply (v_refines g h ty junk).
    - exact NT.
  Qed.
End Main.
