(** Registers after a powerpc64 block: only declared outputs have changed. *)
From Coq Require Import ZArith List Bool Lia PeanoNat.
From Verif Require Import Words Spec WideSpec Halves LoopModel AsmModel BlockModel BlockClobber OrderingModel PowerModel.
Import ListNotations.
Open Scope Z_scope.

(** What an [asm!] declares to write: general registers, cr0, cr1, xer. *)
Record writes := mk_writes { w_regs : list reg; w_cr0 : bool; w_cr1 : bool; w_xer : bool }.
Definition keeps (w : writes) (s s' : st) : Prop :=
  (forall r, ~ In r (w_regs w) -> rg s' r = rg s r) /\ SO0 s' = SO0 s /\ crest s' = crest s /\
  (w_cr0 w = false -> cr0 s' = cr0 s) /\ (w_cr1 w = false -> cr1 s' = cr1 s) /\ (w_xer w = false -> CA s' = CA s).
Lemma keeps_refl w s : keeps w s s.
Proof. unfold keeps. repeat split; auto. Qed.
Lemma keeps_trans w s1 s2 s3 : keeps w s1 s2 -> keeps w s2 s3 -> keeps w s1 s3.
Proof.
  intros (A & B & C & D & E & F) (A' & B' & C' & D' & E' & F').
  refine (conj _ (conj _ (conj _ (conj _ (conj _ _))))); try congruence; intros; first [rewrite A' by assumption; auto | rewrite D', D by assumption; reflexivity
   | rewrite E', E by assumption; reflexivity | rewrite F', F by assumption; reflexivity].
Qed.

(** powerpc64.rs: load 270-273, 282-288, store 367-371, compare_exchange 512-525 and 599-612, swap 645-653,
    the two loop macros 692-705, 734-743 with the extra clobbers at 755, 760, 785, 804, 831, 838. *)
Definition declared (g : target) (t : ity) (o : wop) : writes :=
  match o with
  | WOp (OLoad Relaxed) => mk_writes [R4; R5] false false false
  | WOp (OLoad _) => mk_writes [R4; R5] true false false
  | WOp (OStore _ _) => mk_writes [] false false false
  | WOp (OCas _ _ _ _) | WCasWeak _ _ _ _ => mk_writes [TmpHi; TmpLo; R8; R9] true false false
  | WOp (ORmw (Swap _) _) => mk_writes [R6; R7] true false false
  | WOp (ORmw r _) =>
      mk_writes [R6; R7; R8; R9] true
        (match r with Max _ | Min _ => isigned t | _ => false end)
        (match r with Add _ | Sub _ | Neg => true | _ => false end)
  end.

Definition inb (l : list reg) (r : reg) : bool := existsb (reg_eqb r) l.
Definition clean_i (w : writes) (i : instr) : bool :=
  match i with
  | ADDC d _ _ | ADDE d _ _ | SUBC d _ _ | SUBFE d _ _ | SUBFIC d _ _ | SUBFZE d _ => inb (w_regs w) d && w_xer w
  | AND d _ _ | NAND d _ _ | OR d _ _ | XOR d _ _ | ISEL _ d _ _ | MFCR d => inb (w_regs w) d
  | ORrc d _ _ => inb (w_regs w) d && w_cr0 w
  | CMPLD _ _ | CMPW _ _ => w_cr0 w
  | CMPD1 _ _ => w_cr1 w
  | FENCE _ => true
  end.
Definition cleanb (w : writes) (b : binstr instr jump minstr) : bool :=
  match b with
  | BI i => clean_i w i
  | BJ _ _ => true
  | BM (LQ h l _) | BM (LQARX h l _) => inb (w_regs w) h && inb (w_regs w) l
  | BM (STQ _ _ _) => true
  | BM (STQCX _ _ _) => w_cr0 w
  end.
Lemma inb_ok l d r : inb l d = true -> ~ In r l -> reg_eqb r d = false.
Proof.
  intros H N. destruct (reg_eqb r d) eqn:E; [|reflexivity]. destruct N.
  apply existsb_exists in H as (x & X & Q). destruct r, d; try discriminate; destruct x; try discriminate; exact X.
Qed.
Lemma keeps_set1 w s d v : inb (w_regs w) d = true -> keeps w s (set1 s d v).
Proof.
  intros H. unfold keeps. repeat split; auto. intros r N. cbn. unfold setr. now rewrite (inb_ok _ _ _ H N).
Qed.
Lemma keeps_set_ca w s d v c : inb (w_regs w) d = true -> w_xer w = true -> keeps w s (set_ca s d v c).
Proof.
  intros H X. unfold keeps. repeat split; auto; try congruence. intros r N. cbn. unfold setr. now rewrite (inb_ok _ _ _ H N).
Qed.
Lemma keeps_cr0 w s c : w_cr0 w = true -> keeps w s (set_cr0 s c).
Proof. intros X. unfold keeps. repeat split; auto; congruence. Qed.
Lemma keeps_cr1 w s c : w_cr1 w = true -> keeps w s (set_cr1 s c).
Proof. intros X. unfold keeps. repeat split; auto; congruence. Qed.
Lemma clean_keeps w i : cleanb w i = true -> i_keeps exec1 access (keeps w) i.
Proof.
  destruct i as [i|j n|m]; cbn [cleanb i_keeps]; intros H.
  - intros s. destruct i; cbn [clean_i exec1] in *; try (apply andb_true_iff in H as [H1 H2]);
      first [apply keeps_refl | now apply keeps_set_ca | now apply keeps_set1 | now apply keeps_cr0 | now apply keeps_cr1 | idtac].
    eapply keeps_trans; [apply keeps_set1; exact H1|]. now apply keeps_cr0.
  - exact I.
  - intros s. destruct m; cbn [access] in *; try (apply andb_true_iff in H as [H1 H2]); intros;
      first [apply keeps_refl | now apply keeps_cr0 | eapply keeps_trans; apply keeps_set1; assumption].
Qed.
Lemma clean_app w p q : forallb (cleanb w) (p ++ q) = forallb (cleanb w) p && forallb (cleanb w) q.
Proof. apply forallb_app. Qed.

Theorem power_declared g ty junk a o c c' : code_of g ty junk a o = Some c ->
  steps (bnext exec1 test access) c c' -> keeps (declared g (ty a) o) (bst c) (bst c').
Proof.
  intros E S. eapply (steps_keep exec1 test access (keeps (declared g (ty a) o)));
    [apply keeps_refl|intros s1 s2 s3; apply keeps_trans| |exact S].
  clear S c'. apply Forall_forall. intros i Hi. apply clean_keeps. revert i Hi. apply forallb_forall.
  unfold code_of in E. set (t := ty a) in *. destruct (negb _); [discriminate|].
  assert (FE : forall w b ord, forallb (cleanb w) (map BI ((if b : bool then fst else snd) (rmw_fences ord))) = true)
    by (intros w b ord; destruct b, ord; reflexivity).
  assert (CE : forall w sc fl al su re, cas_fences sc fl = Some (al, su, re) ->
     forallb (cleanb w) (map BI al) = true /\ forallb (cleanb w) (map BI su) = true /\ forallb (cleanb w) (map BI re) = true).
  { intros w sc fl al su re. destruct sc, fl; cbn; intros Q; try discriminate; injection Q as <- <- <-; auto. }
  destruct o as [[ord|v ord|r ord|cu nw sc fl]|cu nw sc fl].
  - injection E as <-. cbn [bprog]. destruct ord; reflexivity.
  - injection E as <-. cbn [bprog]. destruct ord; reflexivity.
  - assert (LB : forall w p, forallb (cleanb w) (loop_block ord p) =
        (inb (w_regs w) R6 && inb (w_regs w) R7 && forallb (cleanb w) (map BI p) && w_cr0 w)).
    { intros w p. unfold loop_block. pose proof (FE w true ord) as F1. pose proof (FE w false ord) as F2. cbv iota in F1, F2.
      destruct (rmw_fences ord) as [acq rel]. cbn [fst snd] in F1, F2. rewrite !clean_app, F1, F2.
      cbn [forallb cleanb andb]. rewrite !andb_true_r. now rewrite <- !andb_assoc. }
    destruct r; cbn [body] in E; injection E as <-; cbn [bprog]; rewrite LB; cbn [declared w_regs w_cr0 w_cr1 w_xer inb existsb reg_eqb orb andb];
      rewrite ?andb_true_r; try reflexivity.
    all: first [destruct (isigned t); reflexivity | destruct (old_llvm g); reflexivity].
  - destruct (cas_fences sc fl) as [[[al su] re]|] eqn:CF; [|discriminate]. injection E as <-. cbn [bprog].
    destruct (CE (declared g t (WOp (OCas cu nw sc fl))) sc fl al su re CF) as (A & B & C).
    unfold cas_block. rewrite !clean_app, A, B, C. reflexivity.
  - destruct (cas_fences sc fl) as [[[al su] re]|] eqn:CF; [|discriminate]. injection E as <-. cbn [bprog].
    destruct (CE (declared g t (WCasWeak cu nw sc fl)) sc fl al su re CF) as (A & B & C).
    destruct (static g); unfold cas_weak_block, cas_block; rewrite !clean_app, A, B, C; reflexivity.
Qed.
