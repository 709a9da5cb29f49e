(** Rust-level loops: atomicity. *)
From Coq Require Import ZArith List Bool Lia PeanoNat.
From Verif Require Import Words Spec WideSpec WordsFacts LoopModel LoopProofs AsmModel AsmProofs BlockProofs AtomicImpls
  AtomicImplsProofs AsmMain RustOps KuserModel CoreModel ZacasModel UpdateSpec RustLoopsProofs.
Import ListNotations.
Open Scope Z_scope.

Theorem zacas_atomic w ty m ls s h : 0 < w -> (forall a, wf_ity (ty a)) -> mem_ok ty m ->
  asm_run (znext w) (z_code_of w ty) (asm_init m) ls = Some (s, h) -> atomic_history ty m h (amem s).
Proof.
  intros W WF. apply (blocks_atomic _ (z_code_of w ty) (z_impl w ty) ty).
  - intros. now apply z_refines.
  - now apply z_impl_ok.
Qed.
Theorem zacas_never_stuck w ty m ls s h t c : 0 < w -> mem_ok ty m ->
  asm_run (znext w) (z_code_of w ty) (asm_init m) ls = Some (s, h) -> athr s t = Some c ->
  forall sp, exists s' e, asm_step (znext w) (z_code_of w ty) s (mk_label t None sp) = Some (s', e).
Proof.
  intros W Hm. eapply (asm_never_stuck _ (z_code_of w ty) (z_impl w ty) (fun a => ibits (ty a))); [|exact Hm].
  intros. now apply z_refines.
Qed.
Theorem kuser_atomic be ty m ls s h : (forall a, wf_ity (ty a)) -> mem_ok ty m ->
  asm_run (knext be) (k_code_of ty) (asm_init m) ls = Some (s, h) -> atomic_history ty m h (amem s).
Proof.
  intros WF. apply (blocks_atomic _ (k_code_of ty) (k_impl be ty) ty).
  - intros. now apply k_refines.
  - now apply k_impl_ok.
Qed.
Theorem kuser_never_stuck be ty m ls s h t c : mem_ok ty m ->
  asm_run (knext be) (k_code_of ty) (asm_init m) ls = Some (s, h) -> athr s t = Some c ->
  forall sp, exists s' e, asm_step (knext be) (k_code_of ty) s (mk_label t None sp) = Some (s', e).
Proof.
  intros Hm. eapply (asm_never_stuck _ (k_code_of ty) (k_impl be ty) (fun a => ibits (ty a))); [|exact Hm].
  intros. now apply k_refines.
Qed.

Lemma c_impl_ok g ty : (forall a, wf_ity (ty a)) -> forall a o i, c_impl g ty a o = Some i ->
  impl_correct (fun a => ibits (ty a)) (fun a x => of_bits (ty a) x) (usem ty) a o i.
Proof.
  intros WF a o i. pose proof (WF a) as WFa. unfold c_impl. destruct o as [o|f so fo].
  - destruct (callable (ty a) o) eqn:EC; cbn [negb]; [|discriminate]. intros E; injection E as <-.
    match goal with |- impl_correct _ _ _ _ _ ?i =>
      enough (impl_correct (fun a => ibits (ty a)) (fun a x => of_bits (ty a) x) (sem ty) a o i) by exact H end.
    destruct o as [[ord|v ord|r ord|cu nw sc fl]|cu nw sc fl].
    + now apply d_load_ok.
    + now apply d_store_ok.
    + assert (C : impl_correct (fun a => ibits (ty a)) (fun a x => of_bits (ty a) x) (sem ty) a (WOp (ORmw r ord))
         (c_rmw (ty a) (ibits (ty a)) [0%nat] false r)) by (apply c_rmw_ok; auto; discriminate).
      assert (D : impl_correct (fun a => ibits (ty a)) (fun a x => of_bits (ty a) x) (sem ty) a (WOp (ORmw r ord))
         (d_rmw (ty a) r)) by (now apply d_rmw_ok).
      destruct r; try exact C; try exact D; destruct (min_max_by_loop g (ty a)); assumption.
    + now apply d_cas_ok.
    + now apply d_cas_weak_ok.
  - assert (K : impl_correct (fun a => ibits (ty a)) (fun a x => of_bits (ty a) x) (usem ty) a (UFetchUpdate f so fo)
       (CasLoop (ibits (ty a)) [0%nat] false
                 (fun hist x => option_map (to_bits (ty a)) (typed_closure (ty a) f (map (of_bits (ty a)) hist) (of_bits (ty a) x)))
                 (fun x => ROk (of_bits (ty a) x)) (fun x => RErr (of_bits (ty a) x)))).
    { split; [discriminate|]. split.
      - intros hist x y X. destruct (typed_closure (ty a) f _ _) as [z|] eqn:ET; cbn [option_map]; [|discriminate].
        intros E; injection E as <-. split; [now apply to_bits_range|]. exists (map (of_bits (ty a)) hist). rewrite ET.
        rewrite of_to_bits; auto. revert ET. unfold typed_closure. destruct (f _ _); [|discriminate].
        intros E; injection E as <-. now apply norm_range.
      - intros hist x. destruct (typed_closure (ty a) f _ _) as [z|] eqn:ET; cbn [option_map]; [discriminate|].
        intros _. split; [split; [reflexivity|split; [lia|unfold wf_ity in WFa; lia]]|]. intros X. exists (map (of_bits (ty a)) hist). now rewrite ET. }
    destruct fo; intros E; try discriminate; injection E as <-; exact K.
Qed.

Theorem core_atomic g ty m ls s h : (forall a, wf_ity (ty a)) -> mem_ok ty m ->
  asm_run cnext (c_code_of g ty) (asm_init m) ls = Some (s, h) -> atomic_history_u ty m h (amem s).
Proof.
  intros WF Hm H.
  destruct (asm_refines_loops cnext (c_code_of g ty) (c_impl g ty) (fun a => ibits (ty a))
    (fun a o c E => c_refines g ty WF a o c E) m ls s h Hm H) as (ls' & s' & H' & M).
  destruct (loops_linearizable (c_impl g ty) (fun a => ibits (ty a)) (fun a x => of_bits (ty a) x) (usem ty)
     (c_impl_ok g ty WF) m ls' s' h Hm H') as (A & L1 & L2).
  exists A. split; [exact L1|]. intros a v E. injection E as <-. rewrite <- M. now apply L2.
Qed.
Theorem core_never_stuck g ty m ls s h t c : (forall a, wf_ity (ty a)) -> mem_ok ty m ->
  asm_run cnext (c_code_of g ty) (asm_init m) ls = Some (s, h) -> athr s t = Some c ->
  forall sp, exists s' e, asm_step cnext (c_code_of g ty) s (mk_label t None sp) = Some (s', e).
Proof.
  intros WF Hm. eapply (asm_never_stuck _ (c_code_of g ty) (c_impl g ty) (fun a => ibits (ty a))); [|exact Hm].
  intros. now apply c_refines.
Qed.
