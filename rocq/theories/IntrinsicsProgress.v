(** Progress of the backend of core intrinsics (C13). *)
From Coq Require Import ZArith List Bool Lia PeanoNat.
From Verif Require Import FallbackModel FallbackFacts Words Spec WideSpec WordsFacts LoopModel LoopProofs LoopProgress AsmModel AsmProofs AsmProgress LockFree AtomicImpls
  AtomicImplsProofs AsmMain ProgressMain RustOps IntrinsicsModel IntrinsicsProofs.
Import ListNotations.
Open Scope Z_scope.

Section Back.
  Context {C Op Res : Type}.
  Variables next next' : C -> action C Res.
  Variable code_of : Z -> Op -> option C.
  Variable impl_of : Z -> Op -> option (impl Res).
  Variable width : Z -> Z.
  Hypothesis quiet : forall c,
    (next c = next' c /\ match next c with ALoadLinked _ _ _ _ _ | AStoreCond _ _ _ => False | _ => True end) \/
    exists a f kont kont', next c = AAtomic a f kont /\ next' c = ARead a (width a) 0 kont' /\
      forall sp x, LoopProofs.inr width a x ->
        (fst (f sp x) = None \/ fst (f sp x) = Some x) /\ kont (snd (f sp x)) = kont' x.
  Hypothesis code_refines : forall a o c, code_of a o = Some c ->
    exists i, impl_of a o = Some i /\ refines next' width a o c i.
  Lemma step_back s s' l s1' e : same s s' -> (forall a, LoopProofs.inr width a (amem s' a)) ->
    asm_step next' code_of s' l = Some (s1', e) ->
    exists s1, asm_step next code_of s l = Some (s1, e) /\ same s1 s1'.
  Proof.
    intros Sm R H. assert (X : exists q, asm_step next code_of s l = Some q).
    { revert H. unfold asm_step. rewrite (proj2 Sm (tid l)). destruct (athr s' (tid l)) as [c|].
      - destruct (quiet c) as [[E NL]|(a & f & kont & kont' & E & E' & Q)].
        + rewrite <- E. destruct (next c) as [c'|a k n kont|a f kont|fi a k n kont|a v kont|r|]; try contradiction; try discriminate; eauto.
          intros _. destruct (f (spurious l) (amem s a)) as [[y|] r]; eauto.
        + rewrite E. intros _. destruct (f (spurious l) (amem s a)) as [[y|] r]; eauto.
      - destruct (call l) as [[a o]|]; [|discriminate]. destruct (code_of a o); [eauto|discriminate]. }
    destruct X as [[s1 e1] X]. destruct (step_same next next' code_of width quiet s s' l s1 e1 Sm R X) as (s2 & Y & Sm2).
    rewrite H in Y. injection Y as <- <-. eauto.
  Qed.
  Lemma run_back m ls : (forall a, LoopProofs.inr width a (m a)) -> forall ls0 s s' h0 s1' h,
    asm_run next' code_of (asm_init m) ls0 = Some (s', h0) -> same s s' ->
    asm_run next' code_of s' ls = Some (s1', h) ->
    exists s1, asm_run next code_of s ls = Some (s1, h) /\ same s1 s1'.
  Proof.
    intros Hm. induction ls as [|l ls IH]; intros ls0 s s' h0 s1 h R0 E H.
    - cbn in H. injection H as <- <-. exists s. split; [reflexivity|exact E].
    - cbn [asm_run] in *. destruct (asm_step next' code_of s' l) as [[s2 e]|] eqn:ES; [|discriminate].
      destruct (asm_run next' code_of s2 ls) as [[s3 h3]|] eqn:ER; [|discriminate]. injection H as <- <-.
      destruct (step_back _ _ _ _ _ E (run_in_range next' code_of impl_of width code_refines _ _ _ _ Hm R0) ES) as (s2' & ES' & E2).
      assert (R1 : asm_run next' code_of (asm_init m) (ls0 ++ [l]) = Some (s2, h0 ++ (e ++ []))).
      { eapply run_app; [exact R0|]. cbn [asm_run]. now rewrite ES. }
      destruct (IH _ _ _ _ _ _ R1 E2 ER) as (s3' & ER' & E3). exists s3'. rewrite ES', ER'. auto.
  Qed.
End Back.

Section Progress.
  Variable g : icfg.
  Variable ty : Z -> ity.
  Hypothesis tyok : forall a, wf_ity (ty a).
  Local Notation width := (fun a => ibits (ty a)).
  Lemma i_reads a o i : i_impl g ty a o = Some i -> reads_all width a i.
  Proof.
    unfold i_impl. destruct (Z.eqb_spec (ibits (ty a)) 128) as [E|]; cbn [andb negb]; [|discriminate].
    destruct (negb _); [discriminate|].
    destruct o as [[ord|v ord|r ord|cu nw sc fl]|cu nw sc fl]; intros H; injection H as <-;
      try destruct (is_x86 g); try destruct (native g r); try exact I; cbn [reads_all c_store c_rmw]; apply covers1; lia.
  Qed.
  Theorem intrinsics_lock_free T m ls s h : NoDup T -> mem_ok ty m ->
    asm_run (inext g) (i_code_of g ty) (asm_init m) ls = Some (s, h) ->
    exists n, forall ts s' h', Forall (fun t => In t T) ts -> (n <= length ts)%nat ->
      asm_run (inext g) (i_code_of g ty) s (map (fun t => mk_label t None false) ts) = Some (s', h') -> h' <> [].
  Proof.
    intros NT Hm H.
    destruct (run_same_init (inext g) (inext' g ty) (i_code_of g ty) (i_impl g ty) width (inext_quiet g ty) (i_refines g ty tyok) m ls s h Hm H) as (s' & H' & Sm).
    destruct (asm_lock_free (inext' g ty) (i_code_of g ty) (i_impl g ty) width (fun a x => of_bits (ty a) x) (sem ty)
      (i_impl_ok g ty tyok) i_reads (i_refines g ty tyok) T NT m ls s' h Hm H') as [n N].
    exists n. intros ts s1 h1 F L R.
    destruct (run_same (inext g) (inext' g ty) (i_code_of g ty) (i_impl g ty) width (inext_quiet g ty) (i_refines g ty tyok) m _ Hm ls s s' h s1 h1 H' Sm R) as (s2 & R2 & _).
    eapply N; eauto.
  Qed.
  Theorem intrinsics_solo m ls s h t c : mem_ok ty m ->
    asm_run (inext g) (i_code_of g ty) (asm_init m) ls = Some (s, h) -> athr s t = Some c ->
    exists j s' r, asm_run (inext g) (i_code_of g ty) s (repeat (mk_label t None false) j) = Some (s', [Return t r]).
  Proof.
    intros Hm H E.
    destruct (run_same_init (inext g) (inext' g ty) (i_code_of g ty) (i_impl g ty) width (inext_quiet g ty) (i_refines g ty tyok) m ls s h Hm H) as (s' & H' & Sm).
    rewrite (proj2 Sm) in E.
    destruct (asm_solo_finishes (inext' g ty) (i_code_of g ty) (i_impl g ty) width (fun a x => of_bits (ty a) x) (sem ty)
      (i_impl_ok g ty tyok) i_reads (i_refines g ty tyok) m ls s' h t c Hm H' E) as (j & s1 & r & R).
    destruct (run_back (inext g) (inext' g ty) (i_code_of g ty) (i_impl g ty) width (inext_quiet g ty) (i_refines g ty tyok) m _ Hm ls s s' h s1 _ H' Sm R) as (s2 & R2 & _).
    eauto.
  Qed.
End Progress.
