(** Registers after an s390x block: only declared outputs have changed. *)
From Coq Require Import ZArith List Bool Lia PeanoNat.
From Verif Require Import Words Spec WideSpec Halves LoopModel AsmModel BlockModel BlockClobber S390xModel.
Import ListNotations.
Open Scope Z_scope.

Definition keeps (outs : list reg) (fl : bool) (s s' : st) : Prop :=
  (forall r, ~ In r outs -> rg s' r = rg s r) /\ (fl = true -> CC s' = CC s).
Lemma keeps_refl outs fl s : keeps outs fl s s.
Proof. split; auto. Qed.
Lemma keeps_trans outs fl s1 s2 s3 : keeps outs fl s1 s2 -> keeps outs fl s2 s3 -> keeps outs fl s1 s3.
Proof. intros [A B] [C D]. split; intros; [rewrite C by assumption; auto|rewrite D, B by assumption; reflexivity]. Qed.

(** s390x.rs: load 122-125, store 142-145, compare_exchange 182-190, swap 225-231, the two loop macros 270-280,
    309-318 with the extra operand at 396, 415, [atomic_cmp!] 457-463.  Second component: [preserves_flags]. *)
Definition declared (g : target) (t : ity) (o : wop) : list reg * bool :=
  match o with
  | WOp (OLoad _) => ([R0; R1], true)
  | WOp (OStore _ _) => ([], true)
  | WOp (OCas _ _ _ _) | WCasWeak _ _ _ _ => ([cc_reg g; R0; R1], false)
  | WOp (ORmw (Swap _) _) => ([R0; R1], false)
  | WOp (ORmw r _) =>
      match r with
      | Max _ | Min _ => if lsoc g then (if isigned t then [R0; R1; R12; R13] else [Tmp; R0; R1; R12; R13], false)
                         else ([R0; R1], false)
      | _ => ([R0; R1; R12; R13], false)
      end
  end.
Definition inb (l : list reg) (r : reg) : bool := existsb (reg_eqb r) l.
Definition clean_i (outs : list reg) (fl : bool) (i : instr) : bool :=
  match i with
  | LGR d _ | LGHI d _ | LOCGR _ d _ | SELGR _ d _ _ | IPM d => inb outs d
  | OP _ d _ | OPK _ d _ _ | NNGRK d _ _ | ALCGR d _ | SLBGR d _ | LCGR d _ | AGHI d _ => inb outs d && negb fl
  | CLGR _ _ | CGR _ _ => negb fl
  | BCR => true
  end.
Definition cleanb (outs : list reg) (fl : bool) (b : binstr instr jump minstr) : bool :=
  match b with
  | BI i => clean_i outs fl i
  | BJ _ _ => true
  | BM (LG d _ _) => inb outs d
  | BM (LPQ h l _) => inb outs h && inb outs l
  | BM (STPQ _ _ _) => true
  | BM (CDSG h l _ _ _) => inb outs h && inb outs l && negb fl
  end.
Lemma inb_ok l d r : inb l d = true -> ~ In r l -> reg_eqb r d = false.
Proof.
  intros H N. destruct (reg_eqb r d) eqn:E; [|reflexivity]. destruct N.
  apply existsb_exists in H as (x & X & Q). destruct r, d; try discriminate; destruct x; try discriminate; exact X.
Qed.
Lemma inb_self l d : inb (d :: l) d = true.
Proof. unfold inb. cbn. now destruct d. Qed.
Lemma keeps_set1 outs fl s d v : inb outs d = true -> keeps outs fl s (set1 s d v).
Proof. intros H. split; auto. intros r N. cbn. unfold setr. now rewrite (inb_ok _ _ _ H N). Qed.
Lemma keeps_setc outs s d v c : inb outs d = true -> keeps outs false s (mk_st (setr (rg s) d v) c).
Proof. intros H. split; [|discriminate]. intros r N. cbn. unfold setr. now rewrite (inb_ok _ _ _ H N). Qed.
Lemma clean_keeps pm outs fl i : cleanb outs fl i = true -> i_keeps (exec1 pm) access (keeps outs fl) i.
Proof.
  destruct i as [i|j n|m]; cbn [cleanb i_keeps]; intros H.
  - intros s. destruct i; cbn [clean_i exec1] in *; try (apply andb_true_iff in H as [H1 H2]; destruct fl; [discriminate|]);
      try (now apply keeps_set1); try (now apply keeps_setc);
      try (destruct fl; [discriminate|]; split; [reflexivity|discriminate]).
    + destruct (alu_sem o (rg s d) (rg s s0)). now apply keeps_setc.
    + destruct (alu_sem o (rg s a) (rg s b)). now apply keeps_setc.
    + split; reflexivity.
  - exact I.
  - intros s. destruct m; cbn [access] in *; intros.
    + now apply keeps_set1.
    + apply andb_true_iff in H as [H F]. apply andb_true_iff in H as [H1 H2]. destruct fl; [discriminate|].
      match goal with |- context [if snd ?x then _ else _] => destruct (snd x) end.
      * split; [reflexivity|discriminate].
      * split; [|discriminate]. intros r N. cbn. unfold setr. now rewrite (inb_ok _ _ _ H1 N), (inb_ok _ _ _ H2 N).
    + apply andb_true_iff in H as [H1 H2]. eapply keeps_trans; apply keeps_set1; assumption.
    + apply keeps_refl.
Qed.
Theorem s390x_declared g pm ty junk a o c c' : code_of g ty junk a o = Some c ->
  steps (bnext (exec1 pm) test access) c c' ->
  keeps (fst (declared g (ty a) o)) (snd (declared g (ty a) o)) (bst c) (bst c').
Proof.
  intros E S. eapply (steps_keep (exec1 pm) test access (keeps (fst (declared g (ty a) o)) (snd (declared g (ty a) o))));
    [apply keeps_refl|intros s1 s2 s3; apply keeps_trans| |exact S].
  clear S c'. apply Forall_forall. intros i Hi. apply clean_keeps. revert i Hi. apply forallb_forall.
  unfold code_of in E. set (t := ty a) in *. destruct (negb _); [discriminate|].
  destruct o as [[ord|v ord|r ord|cu nw sc fl]|cu nw sc fl].
  - injection E as <-. reflexivity.
  - injection E as <-. destruct ord; reflexivity.
  - destruct r; cbn [body] in E; unfold distinct_op, sel_max, sel_umax, select_op in E; cbn [declared]; unfold cmp_of in E;
      destruct g as [d l m z q]; cbn [dops lsoc misc3 zos] in *; destruct d, m, z; try destruct l; injection E as <-; try reflexivity;
      destruct (isigned t); reflexivity.
  - injection E as <-. cbn [bprog declared fst snd forallb cleanb clean_i]. rewrite inb_self. unfold inb. cbn. rewrite !orb_true_r. reflexivity.
  - injection E as <-. cbn [bprog declared fst snd forallb cleanb clean_i]. rewrite inb_self. unfold inb. cbn. rewrite !orb_true_r. reflexivity.
Qed.
