(** The abstract loops are correct atomic operations. *)
From Coq Require Import ZArith List Bool Lia ZifyBool Permutation.
From Verif Require Import Words Spec WideSpec WordsFacts LoopModel LoopProofs AtomicImpls.
Import ListNotations.
Open Scope Z_scope.

Lemma rmw_typedb_ok t r : rmw_typedb t r = true -> rmw_typed t r.
Proof. destruct r; cbn; auto; apply in_rangeb_iff. Qed.

Lemma spec_rmw_range t r x : wf_ity t -> rmw_typed t r -> in_range t x -> in_range t (spec_rmw t r x).
Proof.
  intros W T X. destruct r; cbn in *; auto using norm_range, land_in_range, lor_in_range, lxor_in_range.
  - unfold in_range in *. lia.
  - unfold in_range in *. lia.
Qed.

Section Correct.
  Variable ty : Z -> ity.
  Hypothesis tyok : forall a, wf_ity (ty a).

  Local Notation width := (fun a => ibits (ty a)).
  Local Notation ab := (fun a x => of_bits (ty a) x).
  Local Notation correct := (impl_correct width ab (sem ty)).

  Lemma next_ok a r x : rmw_typed (ty a) r -> inr width a x ->
    inr width a (next_bits (ty a) r x) /\
    of_bits (ty a) (next_bits (ty a) r x) = spec_rmw (ty a) r (of_bits (ty a) x).
  Proof.
    intros T X. unfold inr in *. unfold next_bits. split.
    - now apply to_bits_range.
    - apply of_to_bits; auto. apply spec_rmw_range; auto. now apply of_bits_range.
  Qed.
  Lemma store_ok a v : in_range (ty a) v -> inr width a (to_bits (ty a) v) /\ of_bits (ty a) (to_bits (ty a) v) = v.
  Proof. intros V. split; [now apply to_bits_range|now apply of_to_bits]. Qed.
  Lemma eqb_bits a c x : in_range (ty a) c -> inr width a x ->
    (x =? to_bits (ty a) c) = (of_bits (ty a) x =? c).
  Proof.
    intros V X. destruct (Z.eqb_spec x (to_bits (ty a) c)) as [->|N].
    - rewrite of_to_bits by auto. symmetry. apply Z.eqb_refl.
    - symmetry. apply Z.eqb_neq. intros E. apply N. rewrite <- E. symmetry. now apply to_of_bits.
  Qed.

  Lemma cas_sem a c n s f x : in_range (ty a) c -> in_range (ty a) n ->
    (match f with Release | AcqRel => false | _ => true end = true) -> inr width a x ->
    (x =? to_bits (ty a) c = true -> spec_op (ty a) (OCas c n s f) (of_bits (ty a) x) = (n, ROk (of_bits (ty a) x))) /\
    (x =? to_bits (ty a) c = false -> spec_op (ty a) (OCas c n s f) (of_bits (ty a) x)
                                      = (of_bits (ty a) x, RErr (of_bits (ty a) x))).
  Proof.
    intros C N F X. rewrite (eqb_bits a c x C X).
    split; intros E; destruct f; try discriminate; cbn; now rewrite E.
  Qed.

  Ltac st := intros; split; hnf; auto.

  Lemma d_load_ok a ord : callable (ty a) (WOp (OLoad ord)) = true -> correct a (WOp (OLoad ord)) (d_load (ty a)).
  Proof. st. intros sp x X. cbn. now destruct ord. Qed.
  Lemma d_load_cas_ok a ord : callable (ty a) (WOp (OLoad ord)) = true -> correct a (WOp (OLoad ord)) (d_load_cas (ty a)).
  Proof. st. intros sp x X. destruct (Z.eqb_spec x 0) as [->|]; cbn; [split; auto|]; now destruct ord. Qed.
  Lemma d_store_ok a v ord : callable (ty a) (WOp (OStore v ord)) = true ->
    correct a (WOp (OStore v ord)) (d_store (ty a) v).
  Proof.
    intros H. cbn in H. apply andb_true_iff in H as [H1 H2]. apply in_rangeb_iff in H1. st.
    intros sp x X. cbn. destruct (store_ok a v H1) as [S1 S2]. split; auto. rewrite S2. now destruct ord.
  Qed.
  Lemma d_rmw_ok a r ord : callable (ty a) (WOp (ORmw r ord)) = true ->
    correct a (WOp (ORmw r ord)) (d_rmw (ty a) r).
  Proof.
    intros H. cbn in H. apply rmw_typedb_ok in H. st.
    intros sp x X. destruct (next_ok a r x H X) as [S1 S2]. split; auto. cbn [sem spec_op]. now rewrite S2.
  Qed.
  Lemma d_cas_ok a c n s f : callable (ty a) (WOp (OCas c n s f)) = true ->
    correct a (WOp (OCas c n s f)) (d_cas (ty a) c n).
  Proof.
    intros H. cbn in H. apply andb_true_iff in H as [H H2]. apply andb_true_iff in H as [H0 H1].
    apply in_rangeb_iff in H0. apply in_rangeb_iff in H1. st.
    intros sp x X. destruct (cas_sem a c n s f x H0 H1 H2 X) as [E1 E2].
    destruct (x =? to_bits (ty a) c) eqn:E; cbn [sem].
    - destruct (store_ok a n H1) as [S1 S2]. split; auto. now rewrite S2, E1.
    - now rewrite E2.
  Qed.
  Lemma d_cas_strong_for_weak_ok a c n s f : callable (ty a) (WCasWeak c n s f) = true ->
    correct a (WCasWeak c n s f) (d_cas (ty a) c n).
  Proof.
    intros H. destruct (d_cas_ok a c n s f H) as [_ K]. st. intros sp x X. specialize (K sp x X).
    cbn [sem] in *. destruct (if x =? to_bits (ty a) c then _ else _) as [[y|] r]; [destruct K|]; auto.
  Qed.
  Lemma d_cas_weak_ok a c n s f : callable (ty a) (WCasWeak c n s f) = true ->
    correct a (WCasWeak c n s f) (d_cas_weak (ty a) c n).
  Proof.
    intros H. cbn in H. apply andb_true_iff in H as [H H2]. apply andb_true_iff in H as [H0 H1].
    apply in_rangeb_iff in H0. apply in_rangeb_iff in H1. st.
    intros sp x X. destruct (cas_sem a c n s f x H0 H1 H2 X) as [E1 E2].
    destruct (x =? to_bits (ty a) c) eqn:E; cbn [andb]; [destruct sp|]; cbn [negb sem]; auto.
    destruct (store_ok a n H1) as [S1 S2]. split; auto. left. now rewrite S2, E1.
  Qed.

  (** compare-and-swap loops: the first guess may be read in any non-empty sequence of pieces *)
  Lemma c_rmw_ok a k rs rr r ord : rs <> [] -> callable (ty a) (WOp (ORmw r ord)) = true ->
    correct a (WOp (ORmw r ord)) (c_rmw (ty a) k rs rr r).
  Proof.
    intros Hrs H. cbn in H. apply rmw_typedb_ok in H. st. split; [|discriminate].
    intros _ x y X E. injection E as <-. destruct (next_ok a r x H X) as [S1 S2]. split; auto.
    cbn [sem spec_op]. now rewrite S2.
  Qed.
  Lemma c_store_ok a k rs rr v ord : rs <> [] -> callable (ty a) (WOp (OStore v ord)) = true ->
    correct a (WOp (OStore v ord)) (c_store (ty a) k rs rr v).
  Proof.
    intros Hrs H. cbn in H. apply andb_true_iff in H as [H1 H2]. apply in_rangeb_iff in H1. st.
    split; [|discriminate]. intros _ x y X E. injection E as <-.
    destruct (store_ok a v H1) as [S1 S2]. split; auto. cbn [sem]. rewrite S2. now destruct ord.
  Qed.
  Lemma c_load_ok a k rs rr ord : rs <> [] -> callable (ty a) (WOp (OLoad ord)) = true ->
    correct a (WOp (OLoad ord)) (c_load (ty a) k rs rr).
  Proof.
    intros Hrs H. st. split; [|discriminate]. intros _ x y X E. injection E as <-. split; auto.
    cbn [sem]. now destruct ord.
  Qed.
  Lemma cas_wb_sem a c n s f x : callable (ty a) (WOp (OCas c n s f)) = true -> inr width a x ->
    inr width a (if x =? to_bits (ty a) c then to_bits (ty a) n else x) /\
    spec_op (ty a) (OCas c n s f) (of_bits (ty a) x) =
    (of_bits (ty a) (if x =? to_bits (ty a) c then to_bits (ty a) n else x),
     if x =? to_bits (ty a) c then ROk (of_bits (ty a) x) else RErr (of_bits (ty a) x)).
  Proof.
    intros H X. cbn in H. apply andb_true_iff in H as [H H2]. apply andb_true_iff in H as [H0 H1].
    apply in_rangeb_iff in H0. apply in_rangeb_iff in H1.
    destruct (cas_sem a c n s f x H0 H1 H2 X) as [E1 E2]. destruct (store_ok a n H1) as [S1 S2].
    destruct (x =? to_bits (ty a) c) eqn:E; split; auto. now rewrite S2, E1.
  Qed.
  Lemma c_cas_ok a k rs rr c n s f : rs <> [] -> callable (ty a) (WOp (OCas c n s f)) = true ->
    correct a (WOp (OCas c n s f)) (c_cas (ty a) k rs rr c n).
  Proof.
    intros Hrs H. st. split; [|discriminate]. intros _ x y X E. injection E as <-.
    destruct (cas_wb_sem a c n s f x H X) as [S1 S2]. split; auto. cbn [sem]. now rewrite S2.
  Qed.

  Lemma l_rmw_ok a k rs r ord : covers width a k rs -> callable (ty a) (WOp (ORmw r ord)) = true ->
    correct a (WOp (ORmw r ord)) (l_rmw (ty a) k rs r).
  Proof.
    intros Hrs H. cbn in H. apply rmw_typedb_ok in H. st. split; [|split; discriminate].
    intros x y X E. injection E as <-. destruct (next_ok a r x H X) as [S1 S2]. split; auto.
    cbn [sem spec_op]. now rewrite S2.
  Qed.
  Lemma l_store_ok a k rs v ord : covers width a k rs -> callable (ty a) (WOp (OStore v ord)) = true ->
    correct a (WOp (OStore v ord)) (l_store (ty a) k rs v).
  Proof.
    intros Hrs H. cbn in H. apply andb_true_iff in H as [H1 H2]. apply in_rangeb_iff in H1. st.
    split; [|split; discriminate]. intros x y X E. injection E as <-.
    destruct (store_ok a v H1) as [S1 S2]. split; auto. cbn [sem]. rewrite S2. now destruct ord.
  Qed.
  Lemma l_load_ok a k rs ord : covers width a k rs -> callable (ty a) (WOp (OLoad ord)) = true ->
    correct a (WOp (OLoad ord)) (l_load (ty a) k rs).
  Proof.
    intros Hrs H. st. split; [|split; discriminate]. intros x y X E. injection E as <-. split; auto.
    cbn [sem]. now destruct ord.
  Qed.
  Lemma l_cas_wb_ok a k rs c n s f : covers width a k rs -> callable (ty a) (WOp (OCas c n s f)) = true ->
    correct a (WOp (OCas c n s f)) (l_cas_wb (ty a) k rs c n).
  Proof.
    intros Hrs H. st. split; [|split; discriminate]. intros x y X E. injection E as <-.
    destruct (cas_wb_sem a c n s f x H X) as [S1 S2]. split; auto. cbn [sem]. now rewrite S2.
  Qed.
  Lemma whole_covers a k rs : whole width a k rs -> covers width a k rs.
  Proof. intros (-> & W & H). exists 1%nat. repeat split; auto; lia. Qed.
  Lemma l_cas_ok a k rs c n s f : whole width a k rs -> callable (ty a) (WOp (OCas c n s f)) = true ->
    correct a (WOp (OCas c n s f)) (l_cas (ty a) k rs c n false).
  Proof.
    intros Hw H. st. { now apply whole_covers. }
    cbn in H. apply andb_true_iff in H as [H H2]. apply andb_true_iff in H as [H0 H1].
    apply in_rangeb_iff in H0. apply in_rangeb_iff in H1. split; [|split]; [| |discriminate].
    - intros x y X E. destruct (cas_sem a c n s f x H0 H1 H2 X) as [E1 E2].
      destruct (x =? to_bits (ty a) c) eqn:Q; [|discriminate]. injection E as <-.
      destruct (store_ok a n H1) as [S1 S2]. split; auto. cbn [sem]. now rewrite S2, E1.
    - intros g E. split; auto. intros X. destruct (cas_sem a c n s f g H0 H1 H2 X) as [E1 E2].
      destruct (g =? to_bits (ty a) c) eqn:Q; [discriminate|]. cbn [sem]. now rewrite E2.
  Qed.
  Lemma l_cas_weak_ok a k rs c n s f : whole width a k rs -> callable (ty a) (WCasWeak c n s f) = true ->
    correct a (WCasWeak c n s f) (l_cas (ty a) k rs c n true).
  Proof.
    intros Hw H. st. { now apply whole_covers. }
    cbn in H. apply andb_true_iff in H as [H H2]. apply andb_true_iff in H as [H0 H1].
    apply in_rangeb_iff in H0. apply in_rangeb_iff in H1. split; [|split].
    - intros x y X E. destruct (cas_sem a c n s f x H0 H1 H2 X) as [E1 E2].
      destruct (x =? to_bits (ty a) c) eqn:Q; [|discriminate]. injection E as <-.
      destruct (store_ok a n H1) as [S1 S2]. split; auto. cbn [sem]. left. now rewrite S2, E1.
    - intros g E. split; auto. intros X. destruct (cas_sem a c n s f g H0 H1 H2 X) as [E1 E2].
      destruct (g =? to_bits (ty a) c) eqn:Q; [discriminate|]. cbn [sem]. left. now rewrite E2.
    - intros w E. injection E as <-. split; auto. intros g X. cbn [sem]. now right.
  Qed.
  (** a strong implementation serves the weak operation *)
  Lemma strong_serves_weak a c n s f i : correct a (WOp (OCas c n s f)) i -> correct a (WCasWeak c n s f) i.
  Proof.
    intros [H1 H2]. split; [exact H1|]. destruct i as [g|k rs rr body ok err|k rs body ok err w]; cbn [sem] in *.
    - intros sp x X. specialize (H2 sp x X). destruct (g sp x) as [[y|] r]; [destruct H2|]; auto.
    - destruct H2 as [A B]. split.
      + intros hist x y X E. destruct (A hist x y X E). auto.
      + intros hist g E. destruct (B hist g E). auto.
    - destruct H2 as (A & B & C). split; [|split].
      + intros x y X E. destruct (A x y X E). auto.
      + intros g E. destruct (B g E). auto.
      + intros w' E. destruct (C w' E). auto.
  Qed.
End Correct.
