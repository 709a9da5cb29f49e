(** Progress for every retry-loop backend. *)
From Coq Require Import ZArith List Bool Lia PeanoNat Permutation.
From Verif Require Import Words Spec WideSpec WordsFacts LoopModel LoopProofs LoopProgress AsmModel AsmProofs AsmProgress LockFree
  BlockModel AtomicImpls AtomicImplsProofs AsmMain UpdateSpec.
From Verif Require X86Model X86Blocks X86Main S390xModel S390xBlocks S390xMain PowerModel PowerBlocks PowerMain
  ZacasModel KuserModel CoreModel RustLoopsProofs RustLoopsMain.
Import ListNotations.
Open Scope Z_scope.

Section Reads.
  Variable ty : Z -> ity.
  Local Notation width := (fun a => ibits (ty a)).

  Lemma covers1 a k : ibits (ty a) = k -> 0 < k -> covers width a k [0%nat].
  Proof. intros E K. exists 1%nat. split; [lia|]. split; [exact K|]. split; [reflexivity|lia]. Qed.
  Lemma covers01 a k : ibits (ty a) = 2 * k -> 0 < k -> covers width a k [0%nat; 1%nat].
  Proof. intros E K. exists 2%nat. split; [lia|]. split; [exact K|]. split; [reflexivity|lia]. Qed.
  Lemma covers10 a k : ibits (ty a) = 2 * k -> 0 < k -> covers width a k [1%nat; 0%nat].
  Proof. intros E K. exists 2%nat. split; [lia|]. split; [exact K|]. split; [apply perm_swap|lia]. Qed.

  Lemma x86_reads g a o i : X86Blocks.x86_impl ty g a o = Some i -> reads_all width a i.
  Proof.
    unfold X86Blocks.x86_impl. destruct (Z.eqb_spec (ibits (ty a)) 128) as [E|]; cbn [andb negb]; [|discriminate].
    destruct (negb _); [discriminate|].
    destruct o as [[ord|v ord|r ord|cu nw sc fl]|cu nw sc fl]; intros H; injection H as <-;
      try (destruct (X86Model.avx g)); try exact I; cbn [reads_all c_store c_rmw]; apply covers01; lia.
  Qed.
  Lemma s390x_reads a o i : S390xBlocks.z_impl ty a o = Some i -> reads_all width a i.
  Proof.
    unfold S390xBlocks.z_impl. destruct (Z.eqb_spec (ibits (ty a)) 128) as [E|]; cbn [andb negb]; [|discriminate].
    destruct (negb _); [discriminate|].
    destruct o as [[ord|v ord|r ord|cu nw sc fl]|cu nw sc fl]; intros H; injection H as <-;
      try exact I; cbn [reads_all c_store c_rmw]; apply covers01; lia.
  Qed.
  Lemma power_reads g a o i : PowerBlocks.p_impl g ty a o = Some i -> reads_all width a i.
  Proof.
    unfold PowerBlocks.p_impl. destruct (Z.eqb_spec (ibits (ty a)) 128) as [E|]; cbn [andb negb]; [|discriminate].
    destruct (negb _); [discriminate|].
    destruct o as [[ord|v ord|r ord|cu nw sc fl]|cu nw sc fl]; intros H; injection H as <-;
      try exact I; cbn [reads_all l_cas l_rmw]; apply covers1; lia.
  Qed.
  Lemma zacas_reads w a o i : 0 < w -> RustLoopsProofs.z_impl w ty a o = Some i -> reads_all width a i.
  Proof.
    intros W. unfold RustLoopsProofs.z_impl. destruct (Z.eqb_spec (ibits (ty a)) (2 * w)) as [E|]; cbn [andb negb]; [|discriminate].
    destruct (negb _); [discriminate|].
    destruct o as [[ord|v ord|r ord|cu nw sc fl]|cu nw sc fl]; intros H; injection H as <-;
      try exact I; cbn [reads_all c_store c_rmw]; apply covers01; lia.
  Qed.
  Lemma kuser_reads be a o i : RustLoopsProofs.k_impl be ty a o = Some i -> reads_all width a i.
  Proof.
    unfold RustLoopsProofs.k_impl, KuserModel.piece_lo, KuserModel.piece_hi.
    destruct (Z.eqb_spec (ibits (ty a)) 64) as [E|]; cbn [andb negb]; [|discriminate].
    destruct (negb _); [discriminate|].
    destruct o as [[ord|v ord|r ord|cu nw sc fl]|cu nw sc fl]; intros H; injection H as <-;
      cbn [reads_all c_store c_rmw c_load c_cas]; destruct be; first [apply covers01; lia|apply covers10; lia].
  Qed.
  Lemma core_reads g a o i : (forall a, wf_ity (ty a)) -> RustLoopsProofs.c_impl g ty a o = Some i -> reads_all width a i.
  Proof.
    intros WF. specialize (WF a). unfold wf_ity in WF. unfold RustLoopsProofs.c_impl. destruct o as [o|f so fo].
    - destruct (negb _); [discriminate|].
      destruct o as [[ord|v ord|r ord|cu nw sc fl]|cu nw sc fl]; intros H; injection H as <-; try exact I.
      destruct r; try (destruct (CoreModel.min_max_by_loop g (ty a))); try exact I; cbn [reads_all c_rmw]; now apply covers1.
    - destruct fo; intros H; try discriminate; injection H as <-; cbn [reads_all]; now apply covers1.
  Qed.
End Reads.

(** Whoever runs alone returns. *)
Theorem x86_solo g ty junk m ls s h t c : (forall a, wf_ity (ty a)) -> mem_ok ty m ->
  asm_run X86Model.next (X86Model.code_of g ty junk) (asm_init m) ls = Some (s, h) -> athr s t = Some c ->
  exists j s' r, asm_run X86Model.next (X86Model.code_of g ty junk) s (repeat (mk_label t None false) j) = Some (s', [Return t r]).
Proof.
  intros WF. apply (asm_solo_finishes _ _ (X86Blocks.x86_impl ty g) (fun a => ibits (ty a)) (fun a x => of_bits (ty a) x) (sem ty)).
  - now apply X86Main.x86_impl_ok.
  - intros. eapply x86_reads; eauto.
  - intros. now apply (X86Blocks.x86_refines ty g junk).
Qed.
Theorem s390x_solo g pm ty junk m ls s h t c : 0 <= pm < 16 ->
  S390xModel.cc_reg g <> S390xModel.R0 /\ S390xModel.cc_reg g <> S390xModel.R1 ->
  (forall a, wf_ity (ty a)) -> mem_ok ty m ->
  asm_run (bnext (S390xModel.exec1 pm) S390xModel.test S390xModel.access) (S390xModel.code_of g ty junk) (asm_init m) ls = Some (s, h) ->
  athr s t = Some c ->
  exists j s' r, asm_run (bnext (S390xModel.exec1 pm) S390xModel.test S390xModel.access) (S390xModel.code_of g ty junk) s
    (repeat (mk_label t None false) j) = Some (s', [Return t r]).
Proof.
  intros P G WF. apply (asm_solo_finishes _ _ (S390xBlocks.z_impl ty) (fun a => ibits (ty a)) (fun a x => of_bits (ty a) x) (sem ty)).
  - now apply S390xMain.z_impl_ok.
  - intros. eapply s390x_reads; eauto.
  - intros. now apply (S390xBlocks.z_refines g pm ty junk).
Qed.
Theorem power_solo g ty junk m ls s h t c : (forall a, wf_ity (ty a)) -> mem_ok ty m ->
  asm_run (bnext PowerModel.exec1 PowerModel.test PowerModel.access) (PowerModel.code_of g ty junk) (asm_init m) ls = Some (s, h) ->
  athr s t = Some c ->
  exists j s' r, asm_run (bnext PowerModel.exec1 PowerModel.test PowerModel.access) (PowerModel.code_of g ty junk) s
    (repeat (mk_label t None false) j) = Some (s', [Return t r]).
Proof.
  intros WF. apply (asm_solo_finishes _ _ (PowerBlocks.p_impl g ty) (fun a => ibits (ty a)) (fun a x => of_bits (ty a) x) (sem ty)).
  - now apply PowerMain.p_impl_ok.
  - intros. eapply power_reads; eauto.
  - intros. now apply (PowerBlocks.p_refines g ty junk).
Qed.
Theorem zacas_solo w ty m ls s h t c : 0 < w -> (forall a, wf_ity (ty a)) -> mem_ok ty m ->
  asm_run (ZacasModel.znext w) (ZacasModel.z_code_of w ty) (asm_init m) ls = Some (s, h) -> athr s t = Some c ->
  exists j s' r, asm_run (ZacasModel.znext w) (ZacasModel.z_code_of w ty) s (repeat (mk_label t None false) j) = Some (s', [Return t r]).
Proof.
  intros W WF. apply (asm_solo_finishes _ _ (RustLoopsProofs.z_impl w ty) (fun a => ibits (ty a)) (fun a x => of_bits (ty a) x) (sem ty)).
  - now apply RustLoopsProofs.z_impl_ok.
  - intros. eapply zacas_reads; eauto.
  - intros. now apply RustLoopsProofs.z_refines.
Qed.
Theorem kuser_solo be ty m ls s h t c : (forall a, wf_ity (ty a)) -> mem_ok ty m ->
  asm_run (KuserModel.knext be) (KuserModel.k_code_of ty) (asm_init m) ls = Some (s, h) -> athr s t = Some c ->
  exists j s' r, asm_run (KuserModel.knext be) (KuserModel.k_code_of ty) s (repeat (mk_label t None false) j) = Some (s', [Return t r]).
Proof.
  intros WF. apply (asm_solo_finishes _ _ (RustLoopsProofs.k_impl be ty) (fun a => ibits (ty a)) (fun a x => of_bits (ty a) x) (sem ty)).
  - now apply RustLoopsProofs.k_impl_ok.
  - intros. eapply kuser_reads; eauto.
  - intros. now apply RustLoopsProofs.k_refines.
Qed.
Theorem core_solo g ty m ls s h t c : (forall a, wf_ity (ty a)) -> mem_ok ty m ->
  asm_run CoreModel.cnext (CoreModel.c_code_of g ty) (asm_init m) ls = Some (s, h) -> athr s t = Some c ->
  exists j s' r, asm_run CoreModel.cnext (CoreModel.c_code_of g ty) s (repeat (mk_label t None false) j) = Some (s', [Return t r]).
Proof.
  intros WF. apply (asm_solo_finishes _ _ (RustLoopsProofs.c_impl g ty) (fun a => ibits (ty a)) (fun a x => of_bits (ty a) x) (usem ty)).
  - now apply RustLoopsMain.c_impl_ok.
  - intros. eapply core_reads; eauto.
  - intros. now apply RustLoopsProofs.c_refines.
Qed.

(** Any set of threads inside blocks, scheduled in any way: somebody returns within a bounded number of steps. *)
Theorem x86_lock_free g ty junk T m ls s h : NoDup T -> (forall a, wf_ity (ty a)) -> mem_ok ty m ->
  asm_run X86Model.next (X86Model.code_of g ty junk) (asm_init m) ls = Some (s, h) ->
  exists n, forall ts s' h', Forall (fun t => In t T) ts -> (n <= length ts)%nat ->
    asm_run X86Model.next (X86Model.code_of g ty junk) s (map (fun t => mk_label t None false) ts) = Some (s', h') -> h' <> [].
Proof.
  intros NT WF. apply (asm_lock_free _ _ (X86Blocks.x86_impl ty g) (fun a => ibits (ty a)) (fun a x => of_bits (ty a) x) (sem ty)).
  - now apply X86Main.x86_impl_ok.
  - intros. eapply x86_reads; eauto.
  - intros. now apply (X86Blocks.x86_refines ty g junk).
  - exact NT.
Qed.
Theorem s390x_lock_free g pm ty junk T m ls s h : NoDup T -> 0 <= pm < 16 ->
  S390xModel.cc_reg g <> S390xModel.R0 /\ S390xModel.cc_reg g <> S390xModel.R1 ->
  (forall a, wf_ity (ty a)) -> mem_ok ty m ->
  asm_run (bnext (S390xModel.exec1 pm) S390xModel.test S390xModel.access) (S390xModel.code_of g ty junk) (asm_init m) ls = Some (s, h) ->
  exists n, forall ts s' h', Forall (fun t => In t T) ts -> (n <= length ts)%nat ->
    asm_run (bnext (S390xModel.exec1 pm) S390xModel.test S390xModel.access) (S390xModel.code_of g ty junk) s (map (fun t => mk_label t None false) ts) = Some (s', h') -> h' <> [].
Proof.
  intros NT P G WF. apply (asm_lock_free _ _ (S390xBlocks.z_impl ty) (fun a => ibits (ty a)) (fun a x => of_bits (ty a) x) (sem ty)).
  - now apply S390xMain.z_impl_ok.
  - intros. eapply s390x_reads; eauto.
  - intros. now apply (S390xBlocks.z_refines g pm ty junk).
  - exact NT.
Qed.
Theorem power_lock_free g ty junk T m ls s h : NoDup T -> (forall a, wf_ity (ty a)) -> mem_ok ty m ->
  asm_run (bnext PowerModel.exec1 PowerModel.test PowerModel.access) (PowerModel.code_of g ty junk) (asm_init m) ls = Some (s, h) ->
  exists n, forall ts s' h', Forall (fun t => In t T) ts -> (n <= length ts)%nat ->
    asm_run (bnext PowerModel.exec1 PowerModel.test PowerModel.access) (PowerModel.code_of g ty junk) s (map (fun t => mk_label t None false) ts) = Some (s', h') -> h' <> [].
Proof.
  intros NT WF. apply (asm_lock_free _ _ (PowerBlocks.p_impl g ty) (fun a => ibits (ty a)) (fun a x => of_bits (ty a) x) (sem ty)).
  - now apply PowerMain.p_impl_ok.
  - intros. eapply power_reads; eauto.
  - intros. now apply (PowerBlocks.p_refines g ty junk).
  - exact NT.
Qed.
Theorem zacas_lock_free w ty T m ls s h : NoDup T -> 0 < w -> (forall a, wf_ity (ty a)) -> mem_ok ty m ->
  asm_run (ZacasModel.znext w) (ZacasModel.z_code_of w ty) (asm_init m) ls = Some (s, h) ->
  exists n, forall ts s' h', Forall (fun t => In t T) ts -> (n <= length ts)%nat ->
    asm_run (ZacasModel.znext w) (ZacasModel.z_code_of w ty) s (map (fun t => mk_label t None false) ts) = Some (s', h') -> h' <> [].
Proof.
  intros NT W WF. apply (asm_lock_free _ _ (RustLoopsProofs.z_impl w ty) (fun a => ibits (ty a)) (fun a x => of_bits (ty a) x) (sem ty)).
  - now apply RustLoopsProofs.z_impl_ok.
  - intros. eapply zacas_reads; eauto.
  - intros. now apply RustLoopsProofs.z_refines.
  - exact NT.
Qed.
Theorem kuser_lock_free be ty T m ls s h : NoDup T -> (forall a, wf_ity (ty a)) -> mem_ok ty m ->
  asm_run (KuserModel.knext be) (KuserModel.k_code_of ty) (asm_init m) ls = Some (s, h) ->
  exists n, forall ts s' h', Forall (fun t => In t T) ts -> (n <= length ts)%nat ->
    asm_run (KuserModel.knext be) (KuserModel.k_code_of ty) s (map (fun t => mk_label t None false) ts) = Some (s', h') -> h' <> [].
Proof.
  intros NT WF. apply (asm_lock_free _ _ (RustLoopsProofs.k_impl be ty) (fun a => ibits (ty a)) (fun a x => of_bits (ty a) x) (sem ty)).
  - now apply RustLoopsProofs.k_impl_ok.
  - intros. eapply kuser_reads; eauto.
  - intros. now apply RustLoopsProofs.k_refines.
  - exact NT.
Qed.
Theorem core_lock_free g ty T m ls s h : NoDup T -> (forall a, wf_ity (ty a)) -> mem_ok ty m ->
  asm_run CoreModel.cnext (CoreModel.c_code_of g ty) (asm_init m) ls = Some (s, h) ->
  exists n, forall ts s' h', Forall (fun t => In t T) ts -> (n <= length ts)%nat ->
    asm_run CoreModel.cnext (CoreModel.c_code_of g ty) s (map (fun t => mk_label t None false) ts) = Some (s', h') -> h' <> [].
Proof.
  intros NT WF. apply (asm_lock_free _ _ (RustLoopsProofs.c_impl g ty) (fun a => ibits (ty a)) (fun a x => of_bits (ty a) x) (usem ty)).
  - now apply RustLoopsMain.c_impl_ok.
  - intros. eapply core_reads; eauto.
  - intros. now apply RustLoopsProofs.c_refines.
  - exact NT.
Qed.
