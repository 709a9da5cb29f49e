(** powerpc64 blocks on real registers. *)
From Coq Require Import ZArith List Bool Lia PeanoNat.
From Verif Require Import Words Spec WideSpec Halves LoopModel AsmModel BlockModel BlockClobber OrderingModel RegModel RegProofs PowerModel RegPowerModel.
Import ListNotations.
Open Scope Z_scope.

Definition ri (i : instr) : list reg :=
  match i with
  | ADDC _ a b | ADDE _ a b | SUBC _ a b | SUBFE _ a b | AND _ a b | NAND _ a b | OR _ a b | XOR _ a b | ORrc _ a b
  | CMPLD a b | CMPD1 a b | CMPW a b | ISEL _ _ a b => [a; b]
  | SUBFIC _ a _ | SUBFZE _ a => [a]
  | MFCR _ | FENCE _ => []
  end.
Definition rj (j : jump) : list reg := [].
Definition rm (m : minstr) : list reg :=
  match m with LQ _ _ b | LQARX _ _ b => [b] | STQ h l b | STQCX h l b => [h; l; b] end.
Definition all (r : reg) : Prop := True.

Lemma reg_eqb_eq a b : reg_eqb a b = true <-> a = b.
Proof. split; [|intros ->; now destruct b]. destruct a, b; try discriminate; reflexivity. Qed.
Lemma flags_inv s1 s2 : flags_eq power_isa s1 s2 ->
  cr0 s1 = cr0 s2 /\ cr1 s1 = cr1 s2 /\ CA s1 = CA s2 /\ SO0 s1 = SO0 s2 /\ crest s1 = crest s2.
Proof. intros H. specialize (H (fun _ => 0)). cbn in H. injection H. auto. Qed.
Lemma flags_mk s1 s2 : cr0 s1 = cr0 s2 -> cr1 s1 = cr1 s2 -> CA s1 = CA s2 -> SO0 s1 = SO0 s2 -> crest s1 = crest s2 ->
  flags_eq power_isa s1 s2.
Proof. intros A B C D E f. cbn. congruence. Qed.
Lemma setr_same f r v : setr f r v r = v.
Proof. unfold setr. now rewrite (proj2 (reg_eqb_eq r r) eq_refl). Qed.
Lemma setr_other f r v q : q <> r -> setr f r v q = f q.
Proof. intros N. unfold setr. destruct (reg_eqb q r) eqn:E; [apply reg_eqb_eq in E; contradiction|reflexivity]. Qed.
Lemma setr_cong f f' r v v' q : v = v' -> (q <> r -> f q = f' q) -> setr f r v q = setr f' r v' q.
Proof. intros -> H. unfold setr. destruct (reg_eqb q r) eqn:E; [reflexivity|]. apply H. intros ->. rewrite (proj2 (reg_eqb_eq r r) eq_refl) in E. discriminate. Qed.

Lemma power_faithful : faithful power_isa ri rj rm all.
Proof.
  split.
  - exact reg_eqb_eq.
  - reflexivity.
  - reflexivity.
  - intros i s1 s2 FE AG. apply flags_inv in FE as (E0 & E1 & E2 & E3 & E4).
    assert (AG' : forall r, In r (ri i) -> rg s1 r = rg s2 r) by (intros r X; exact (AG r X Logic.I)). clear AG.
    assert (BT : forall c, bit c s1 = bit c s2) by (intros []; cbn; congruence).
    assert (MK : forall d v w c0 c1 ca so cr, v = w ->
      post power_isa [d] (mk_st (setr (rg s1) d v) c0 c1 ca so cr) (mk_st (setr (rg s2) d w) c0 c1 ca so cr)).
    { intros d v w c0 c1 ca so cr ->. split; [now apply flags_mk|]. intros r [<-|[]].
      change (setr (rg s1) d w d = setr (rg s2) d w d). now rewrite !setr_same. }
    assert (MK0 : forall c0 c1 ca so cr, post power_isa [] (mk_st (rg s1) c0 c1 ca so cr) (mk_st (rg s2) c0 c1 ca so cr)).
    { intros c0 c1 ca so cr. split; [now apply flags_mk|]. intros r []. }
    destruct i; cbn [ri In] in AG'; unfold exec, power_isa, writes_i; cbv beta iota;
      unfold exec1, set_ca, set1, set_cr0, set_cr1; cbn zeta; cbn [rg cr0 cr1 CA SO0 crest];
      rewrite ?E0, ?E1, ?E2, ?E3, ?E4, ?BT; try rewrite (AG' a) by auto; try rewrite (AG' b) by auto;
      first [now apply MK | now apply MK0 | idtac].
    split; [apply flags_mk; auto|intros r []].
  - intros i s r _ N. destruct i; try reflexivity;
      (match goal with |- regs_of power_isa (exec power_isa ?i s) r = _ =>
         let X := constr:(exec1 i s) in let Y := eval unfold exec1, set_ca, set1, set_cr0, set_cr1 in X in
         let Z := eval cbn [rg] in (rg Y) in change (Z r = rg s r) end); cbn zeta;
      apply setr_other; intros ->; apply N; now left.
  - intros [] s1 s2 FE _. apply flags_inv in FE as (E0 & _).
    change (negb (EQ (cr0 s1)) = negb (EQ (cr0 s2))). now rewrite E0.
  - intros m s1 s2 FE AG. assert (FE' := FE). apply flags_inv in FE' as (E0 & E1 & E2 & E3 & E4).
    assert (AG' : forall r, In r (rm m) -> rg s1 r = rg s2 r) by (intros r X; exact (AG r X Logic.I)). clear AG.
    destruct m as [h l b|h l b|h l b|h l b]; cbn [rm In] in AG'; cbn -[hi64 lo64 join64]; rewrite ?(AG' b), ?(AG' h), ?(AG' l) by auto.
    + refine (conj eq_refl (conj (fun _ _ => eq_refl) _)). intros v. split; [apply flags_mk; cbn; congruence|].
      intros r Hr. cbn -[hi64 lo64] in Hr |- *. apply setr_cong; [reflexivity|]. intros N. destruct Hr as [<-|[<-|[]]]; [|contradiction].
      now rewrite !setr_same.
    + refine (conj eq_refl (conj (fun _ _ => eq_refl) _)). intros v. split; [exact FE|intros r []].
    + refine (conj eq_refl (conj eq_refl (conj eq_refl (conj eq_refl _)))). intros v. split; [apply flags_mk; cbn; congruence|].
      intros r Hr. cbn -[hi64 lo64] in Hr |- *. apply setr_cong; [reflexivity|]. intros N. destruct Hr as [<-|[<-|[]]]; [|contradiction].
      now rewrite !setr_same.
    + refine (conj eq_refl (conj eq_refl _)). intros v. split; [apply flags_mk; cbn; congruence|intros r []].
  - intros m s. destruct m as [h l b|h l b|h l b|h l b]; cbn -[hi64 lo64 join64]; intros v r _ N; cbn -[hi64 lo64] in N |- *; try reflexivity;
      rewrite !setr_other; auto; intros ->; apply N; auto.
Qed.

Lemma power_checks g ty junk a o k : code_of g ty junk a o = Some k ->
  check power_isa ri rj rm (operands g o) (fun _ => true) (bprog k) = true.
Proof.
  unfold code_of. destruct (negb _); [discriminate|].
  destruct o as [[ord|v ord|r ord|c n sc fl]|c n sc fl].
  - intros E. injection E as <-. destruct ord; reflexivity.
  - intros E. injection E as <-. destruct ord; reflexivity.
  - assert (L : forall p, body (old_llvm g) (ty a) r = Some p ->
      check power_isa ri rj rm (operands g (WOp (ORmw r ord))) (fun _ => true) (loop_block ord p) = true).
    { unfold body. destruct r; intros p E; try discriminate; injection E as <-.
      all: unfold operands; destruct ord; first [vm_compute; reflexivity | destruct (isigned (ty a)); vm_compute; reflexivity
        | destruct (old_llvm g); vm_compute; reflexivity]. }
    destruct r; [intros E; injection E as <-; destruct ord; reflexivity|..];
      (match type of L with forall p, ?b = Some p -> _ => destruct b as [p|]; [|discriminate] end;
       intros E; injection E as <-; exact (L p eq_refl)).
  - destruct (cas_fences sc fl) as [[[al su] re]|] eqn:C; [|discriminate]. intros E. injection E as <-.
    destruct sc, fl; cbn in C; try discriminate; injection C as <- <- <-; reflexivity.
  - destruct (cas_fences sc fl) as [[[al su] re]|] eqn:C; [|discriminate]. intros E. injection E as <-.
    destruct (static g), sc, fl; cbn in C; try discriminate; injection C as <- <- <-; reflexivity.
Qed.
Lemma power_ret g ty junk a o k : code_of g ty junk a o = Some k ->
  forall s1 s2, agree power_isa (filter (output power_isa (operands g o)) (map fst (operands g o))) s1 s2 -> bret k s1 = bret k s2.
Proof.
  intros E s1 s2 AG. unfold agree in AG. cbn [regs_of power_isa] in AG.
  assert (X : forall r, mem power_isa r (filter (output power_isa (operands g o)) (map fst (operands g o))) = true -> rg s1 r = rg s2 r)
    by (intros r H; apply AG; now apply (mem_in _ _ _ _ _ power_faithful)).
  clear AG. unfold code_of in E. destruct (negb _); [discriminate|].
  destruct o as [[ord|v ord|r ord|c n sc fl]|c n sc fl].
  - injection E as <-. cbn [bret]. now rewrite (X R4), (X R5) by reflexivity.
  - injection E as <-. reflexivity.
  - assert (Y : rg s1 R6 = rg s2 R6 /\ rg s1 R7 = rg s2 R7).
    { destruct r; split; apply X; reflexivity. }
    destruct Y as [Y6 Y7].
    destruct r; [injection E as <-; cbn [bret]; now rewrite Y6, Y7|..];
      (destruct (body _ _ _) as [p|]; [|discriminate]); injection E as <-; cbn [bret]; now rewrite Y6, Y7.
  - destruct (cas_fences sc fl) as [[[al su] re]|]; [|discriminate]. injection E as <-. cbn [bret].
    now rewrite (X R8), (X R9), (X TmpLo) by reflexivity.
  - destruct (cas_fences sc fl) as [[[al su] re]|]; [|discriminate]. injection E as <-. cbn [bret].
    now rewrite (X R8), (X R9), (X TmpLo) by reflexivity.
Qed.
(** before the block only the inputs have been loaded *)
Lemma power_entry g ty junk a o k : code_of g ty junk a o = Some k ->
  flags_eq power_isa (bst k) (junk a o) /\
  forall r p, In (r, p) (operands g o) -> is_input p = false -> rg (bst k) r = rg (junk a o) r.
Proof.
  unfold code_of. destruct (negb _); [discriminate|]. intros E.
  destruct o as [[ord|v ord|r ord|c n sc fl]|c n sc fl].
  - injection E as <-. cbn [bst]. split; [apply flags_mk; reflexivity|].
    intros q p H. repeat (destruct H as [H|H]; [injection H as <- <-; intros; try discriminate; reflexivity|]). destruct H.
  - injection E as <-. cbn [bst]. split; [apply flags_mk; reflexivity|].
    intros q p H. repeat (destruct H as [H|H]; [injection H as <- <-; intros; try discriminate; reflexivity|]). destruct H.
  - destruct r; [injection E as <-|..]; try (destruct (body _ _ _) as [p|]; [|discriminate]; injection E as <-);
      cbn [bst]; (split; [apply flags_mk; reflexivity|]); intros q o H;
      try (repeat (destruct H as [H|H]; [injection H as <- <-; intros; try discriminate; reflexivity|]); destruct H).
    unfold operands in H. apply in_app_or in H as [H|H].
    + repeat (destruct H as [H|H]; [injection H as <- <-; intros; try discriminate; reflexivity|]). destruct H.
    + destruct (old_llvm g); [|destruct H]. destruct H as [H|[]]. injection H as <- <-. discriminate.
  - destruct (cas_fences sc fl) as [[[al su] re]|]; [|discriminate]. injection E as <-. cbn [bst]. split; [apply flags_mk; reflexivity|].
    intros q p H. repeat (destruct H as [H|H]; [injection H as <- <-; intros; try discriminate; reflexivity|]). destruct H.
  - destruct (cas_fences sc fl) as [[[al su] re]|]; [|discriminate]. injection E as <-. cbn [bst]. split; [apply flags_mk; reflexivity|].
    intros q p H. repeat (destruct H as [H|H]; [injection H as <- <-; intros; try discriminate; reflexivity|]). destruct H.
Qed.

