(** s390x blocks on real registers. *)
From Coq Require Import ZArith List Bool Lia PeanoNat.
From Verif Require Import Words Spec WideSpec Halves LoopModel AsmModel BlockModel BlockClobber RegModel RegProofs S390xModel RegS390xModel.
Import ListNotations.
Open Scope Z_scope.

Definition ri (i : instr) : list reg :=
  match i with
  | LGR _ s | LCGR _ s => [s]
  | LGHI _ _ | BCR => []
  | OP _ d s | ALCGR d s | SLBGR d s | LOCGR _ d s => [d; s]
  | OPK _ _ a b | NNGRK _ a b | CLGR a b | CGR a b | SELGR _ _ a b => [a; b]
  | AGHI d _ | IPM d => [d]
  end.
Definition rj (j : jump) : list reg := match j with JL | JMP => [] | CGRJ _ a b | CLGRJ _ _ a b => [a; b] end.
Definition rm (m : minstr) : list reg :=
  match m with LG _ _ b | LPQ _ _ b => [b] | STPQ h l b => [h; l; b] | CDSG oh ol nh nl b => [oh; ol; nh; nl; b] end.
Definition all (r : reg) : Prop := True.

Lemma reg_eqb_eq a b : reg_eqb a b = true <-> a = b.
Proof. split; [|intros ->; now destruct b]. destruct a, b; try discriminate; reflexivity. Qed.
Lemma flags_inv pm s1 s2 : flags_eq (s390x_isa pm) s1 s2 -> CC s1 = CC s2.
Proof. intros H. specialize (H (fun _ => 0)). cbn in H. now injection H. Qed.
Lemma flags_mk pm s1 s2 : CC s1 = CC s2 -> flags_eq (s390x_isa pm) s1 s2.
Proof. intros A f. cbn. congruence. Qed.
Lemma setr_same f r v : setr f r v r = v.
Proof. unfold setr. now rewrite (proj2 (reg_eqb_eq r r) eq_refl). Qed.
Lemma setr_other f r v q : q <> r -> setr f r v q = f q.
Proof. intros N. unfold setr. destruct (reg_eqb q r) eqn:E; [apply reg_eqb_eq in E; contradiction|reflexivity]. Qed.
Lemma setr_cong f f' r v v' q : v = v' -> (q <> r -> f q = f' q) -> setr f r v q = setr f' r v' q.
Proof. intros -> H. unfold setr. destruct (reg_eqb q r) eqn:E; [reflexivity|]. apply H. intros ->. rewrite (proj2 (reg_eqb_eq r r) eq_refl) in E. discriminate. Qed.

Lemma s390x_faithful pm : faithful (s390x_isa pm) ri rj rm all.
Proof.
  split.
  - exact reg_eqb_eq.
  - reflexivity.
  - reflexivity.
  - intros i s1 s2 FE AG. apply flags_inv in FE.
    assert (AG' : forall r, In r (ri i) -> rg s1 r = rg s2 r) by (intros r X; exact (AG r X Logic.I)). clear AG.
    assert (HO : forall c, holds c s1 = holds c s2) by (intros []; unfold holds; now rewrite FE).
    assert (CA : carry s1 = carry s2) by (unfold carry; now rewrite FE).
    assert (MK : forall d v w c c', v = w -> c = c' ->
      post (s390x_isa pm) [d] (mk_st (setr (rg s1) d v) c) (mk_st (setr (rg s2) d w) c')).
    { intros d v w c c' -> ->. split; [now apply flags_mk|]. intros r [<-|[]].
      change (setr (rg s1) d w d = setr (rg s2) d w d). now rewrite !setr_same. }
    destruct i; cbn [ri In] in AG'; unfold exec, s390x_isa, writes_i; cbv beta iota;
      unfold exec1, set1; cbv zeta; cbn [rg CC]; rewrite ?FE, ?HO, ?CA; try rewrite (AG' a) by auto; try rewrite (AG' b) by auto;
      try rewrite (AG' d) by auto; try rewrite (AG' s) by auto;
      first [apply MK; reflexivity | idtac].
    + destruct (alu_sem o (rg s2 d) (rg s2 s)) as [v c]. apply MK; reflexivity.
    + destruct (alu_sem o (rg s2 a) (rg s2 b)) as [v c]. apply MK; reflexivity.
    + split; [now apply flags_mk|intros r []].
    + split; [now apply flags_mk|intros r []].
    + split; [now apply flags_mk|intros r []].
  - intros i s r _ N.
    assert (MK : forall d v c, ~ In r [d] -> rg (mk_st (setr (rg s) d v) c) r = rg s r)
      by (intros d v c X; cbn [rg]; apply setr_other; intros ->; apply X; now left).
    change (rg (exec1 pm i s) r = rg s r).
    destruct i; unfold s390x_isa, writes_i in N; cbv beta iota in N; unfold exec1, set1; cbv zeta; try reflexivity;
      try (apply MK; exact N).
    + destruct (alu_sem o (rg s d) (rg s s0)) as [v c]. now apply MK.
    + destruct (alu_sem o (rg s a) (rg s b)) as [v c]. now apply MK.
  - intros j s1 s2 FE AG. apply flags_inv in FE.
    assert (AG' : forall r, In r (rj j) -> rg s1 r = rg s2 r) by (intros r X; exact (AG r X Logic.I)). clear AG.
    change (test j s1 = test j s2). destruct j; cbn [rj In] in AG'; unfold test, holds.
    + now rewrite FE.
    + reflexivity.
    + now rewrite (AG' a), (AG' b) by auto.
    + now rewrite (AG' a), (AG' b) by auto.
  - intros m s1 s2 FE AG. pose proof (flags_inv _ _ _ FE) as E0.
    assert (AG' : forall r, In r (rm m) -> rg s1 r = rg s2 r) by (intros r X; exact (AG r X Logic.I)). clear AG.
    assert (AD : forall b, In b (rm m) -> addr s1 b = addr s2 b).
    { intros b X. unfold addr. destruct b; auto. }
    unfold acc, s390x_isa, writes_m. destruct m as [d off b|oh ol nh nl b|h l b|h l b]; cbn [rm In] in AG', AD; unfold access; cbv zeta; cbn [act_rel].
    + refine (conj (AD b _) (conj eq_refl (conj eq_refl _))); [auto|]. intros v. split; [apply flags_mk; exact E0|].
      intros r [<-|[]]. change (setr (rg s1) d v d = setr (rg s2) d v d). now rewrite !setr_same.
    + rewrite (AG' oh), (AG' ol), (AG' nh), (AG' nl) by auto. refine (conj (AD b _) (conj (fun _ _ => eq_refl) _)); [auto 6|].
      intros [x []]; cbn [snd fst].
      * split; [apply flags_mk; reflexivity|]. intros r Hr. change (rg s1 r = rg s2 r). apply AG'. cbn in Hr. tauto.
      * split; [apply flags_mk; reflexivity|]. intros r Hr. apply (setr_cong (setr (rg s1) oh (hi64 x)) (setr (rg s2) oh (hi64 x))); [reflexivity|].
        intros N. destruct Hr as [<-|[<-|[]]]; [|contradiction]. now rewrite !setr_same.
    + refine (conj (AD b _) (conj (fun _ _ => eq_refl) _)); [auto|]. intros v. split; [apply flags_mk; exact E0|].
      intros r Hr. apply (setr_cong (setr (rg s1) h (hi64 (fst v))) (setr (rg s2) h (hi64 (fst v)))); [reflexivity|].
      intros N. destruct Hr as [<-|[<-|[]]]; [|contradiction]. now rewrite !setr_same.
    + rewrite (AG' h), (AG' l) by auto. refine (conj (AD b _) (conj (fun _ _ => eq_refl) _)); [auto|]. intros v. split; [exact FE|intros r []].
  - intros m s. unfold acc, s390x_isa, writes_m. destruct m as [d off b|oh ol nh nl b|h l b|h l b]; unfold access; cbv zeta; cbn [acc_keeps].
    + intros v r _ N. apply setr_other. intros ->. apply N. now left.
    + intros [x []] r _ N; cbn [snd fst]; [reflexivity|].
      change (setr (setr (rg s) oh (hi64 x)) ol (lo64 x) r = rg s r). rewrite !setr_other; auto; intros ->; apply N; cbn; auto.
    + intros v r _ N. change (setr (setr (rg s) h (hi64 (fst v))) l (lo64 (fst v)) r = rg s r). rewrite !setr_other; auto; intros ->; apply N; cbn; auto.
    + intros v r _ N. reflexivity.
Qed.

Section Target.
  Variables (pm : Z) (g : target).
  Hypothesis CCR : cc_reg g = Tmp.
  Local Notation A := (s390x_isa pm).
  Lemma s390x_checks ty junk a o k : code_of g ty junk a o = Some k ->
    check A ri rj rm (operands g (ty a) o) (fun _ => true) (bprog k) = true.
  Proof.
    destruct g as [dp ls m3 zo cr]. cbn in CCR. subst cr.
    unfold code_of. destruct (negb _); [discriminate|].
    destruct o as [[ord|v ord|r ord|c n sc fl]|c n sc fl].
    - intros E. injection E as <-. reflexivity.
    - intros E. injection E as <-. destruct ord; reflexivity.
    - unfold body, cmp_of, operands, pair_hi, pair_lo. cbn [dops lsoc misc3 zos cc_reg].
      destruct r; try (destruct ls); intros E; injection E as <-; destruct zo, m3, dp; try (destruct (isigned (ty a))); vm_compute; reflexivity.
    - intros E. injection E as <-. destruct zo; reflexivity.
    - intros E. injection E as <-. destruct zo; reflexivity.
  Qed.
  Lemma s390x_ret ty junk a o k : code_of g ty junk a o = Some k ->
    forall s1 s2, agree A (filter (output A (operands g (ty a) o)) (map fst (operands g (ty a) o))) s1 s2 -> bret k s1 = bret k s2.
  Proof.
    intros E s1 s2 AG. unfold agree in AG. cbn [regs_of s390x_isa] in AG.
    assert (X : forall r, mem A r (filter (output A (operands g (ty a) o)) (map fst (operands g (ty a) o))) = true -> rg s1 r = rg s2 r)
      by (intros r H; apply AG; now apply (mem_in _ _ _ _ _ (s390x_faithful pm))).
    clear AG. destruct g as [dp ls m3 zo cr]. cbn in CCR. subst cr.
    unfold code_of in E. destruct (negb _); [discriminate|].
    assert (P : (rg s1 R0 = rg s2 R0 -> rg s1 R1 = rg s2 R1 -> prev (ty a) s1 = prev (ty a) s2))
      by (intros E0 E1; unfold prev; now rewrite E0, E1).
    destruct o as [[ord|v ord|r ord|c n sc fl]|c n sc fl].
    - injection E as <-. cbn [bret]. now rewrite P by (apply X; reflexivity).
    - injection E as <-. reflexivity.
    - assert (Q : prev (ty a) s1 = prev (ty a) s2).
      { apply P; apply X; unfold operands; cbn [dops lsoc misc3 zos]; destruct r; try destruct ls; try destruct (isigned (ty a)); try destruct dp; try destruct zo; reflexivity. }
      destruct r; [injection E as <-; cbn [bret]; now rewrite Q|..];
        (destruct (body _ _ _); injection E as <-; cbn [bret]; now rewrite Q).
    - injection E as <-. cbn [bret cc_reg]. now rewrite P, (X Tmp) by (try apply X; destruct zo; reflexivity).
    - injection E as <-. cbn [bret cc_reg]. now rewrite P, (X Tmp) by (try apply X; destruct zo; reflexivity).
  Qed.
  Lemma s390x_entry ty junk a o k : code_of g ty junk a o = Some k ->
    flags_eq A (bst k) (junk a o) /\
    forall r p, In (r, p) (operands g (ty a) o) -> is_input p = false -> rg (bst k) r = rg (junk a o) r.
  Proof.
    destruct g as [dp ls m3 zo cr]. cbn in CCR. subst cr.
    unfold code_of. destruct (negb _); [discriminate|]. intros E.
    Local Ltac entries := repeat (let H := fresh in intros H; destruct H as [H|H]; [injection H as <- <-; intros; try discriminate; reflexivity|]; revert H); let H := fresh in intros H; destruct H.
    destruct o as [[ord|v ord|r ord|c n sc fl]|c n sc fl].
    - injection E as <-. cbn [bst]. split; [apply flags_mk; reflexivity|]. intros q p. entries.
    - injection E as <-. cbn [bst]. split; [apply flags_mk; reflexivity|]. intros q p. entries.
    - unfold operands, pair_hi, pair_lo in *. cbn [dops lsoc misc3 zos] in *. unfold body in E. cbn [dops lsoc misc3 zos] in E.
      destruct r; try destruct ls; injection E as <-; cbn [bst]; (split; [apply flags_mk; reflexivity|]);
        intros q p; try destruct zo; try destruct dp; try destruct (isigned (ty a)); cbn [app]; entries.
    - injection E as <-. cbn [bst]. split; [apply flags_mk; reflexivity|]. intros q p. destruct zo; entries.
    - injection E as <-. cbn [bst]. split; [apply flags_mk; reflexivity|]. intros q p. destruct zo; entries.
  Qed.
End Target.
