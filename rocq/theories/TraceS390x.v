(** * Every backend meets the requested orderings (proofs for C31) *)
From Coq Require Import ZArith List Bool Lia.
From Verif Require Import Words Spec WideSpec LoopModel AsmModel BlockModel OrderingModel
  TraceSpec TraceModel TraceFacts TraceCheck TraceBackends TraceUnit.
From Verif Require PowerModel PowerProofs S390xModel Aarch64Model X86Model ZacasModel KuserModel.
Import ListNotations.

Module S390xP.
  Import S390xModel.
  Definition chk := uchk S390x.ann_i S390x.ann_m true (I := instr) (J := jump) (M := minstr).
  Definition blocks_ok (P : list (binstr instr jump minstr)) : Prop := forall ord, chk P (meets Trail ord) = true.
  Lemma loop_ok g t r p nh nl : body g t r = Some p -> blocks_ok (loop_block p nh nl).
  Proof.
    unfold blocks_ok. destruct g as [d l m z q].
    destruct r; cbn [body]; unfold distinct_op, sel_max, sel_umax, select_op; cbn [dops lsoc misc3];
      destruct d, m; try destruct l; try destruct (isigned t); intros E; try discriminate E; injection E as <-;
      intros []; vm_compute; reflexivity.
  Qed.
  Lemma swap_ok nh nl : blocks_ok (loop_block [] nh nl).
  Proof. intros []; vm_compute; reflexivity. Qed.
  Lemma cmp_ok t r vh vl : blocks_ok (cmp_of t r vh vl).
  Proof. unfold cmp_of. intros ord. destruct r; destruct (isigned t), ord; vm_compute; reflexivity. Qed.
  Lemma cas_ok nh nl q : blocks_ok [BM (CDSG R0 R1 nh nl Dst); BI (IPM q)].
  Proof. intros []; vm_compute; reflexivity. Qed.
  Lemma load_ok : blocks_ok [BM (LPQ R0 R1 Dst)].
  Proof. intros []; vm_compute; reflexivity. Qed.
  Lemma store_ok ord : chk (store_block ord) (meets Trail ord) = true.
  Proof. destruct ord; vm_compute; reflexivity. Qed.
  Lemma s390x_meets g pm ty junk o tr r : S390x.does g pm ty junk o tr r -> meets Trail (asked o r) (summary true tr) = true.
  Proof.
    intros (a & c & E & D). unfold code_of in E. set (t := ty a) in *. destruct (negb _); [discriminate E|].
    assert (F : forall P ord, bprog c = P -> bpos c = 0%nat -> chk P (meets Trail ord) = true -> meets Trail ord (summary true tr) = true).
    { intros P ord H1 H2 K.
      eapply (uchk_sound (exec1 pm) test access S390x.ann_i S390x.ann_m true); [|exact K|exact H1|exact H2|exact D].
      intros [] s; exact Logic.I. }
    destruct o as [[ord|v ord|q ord|cu nw sc fl]|cu nw sc fl].
    - injection E as <-. eapply F; [reflexivity|reflexivity|apply load_ok].
    - injection E as <-. eapply F; [reflexivity|reflexivity|apply store_ok].
    - assert (G : forall cc, E = E -> Some cc = Some c -> bpos cc = 0%nat -> blocks_ok (bprog cc) -> meets Trail (asked (WOp (ORmw q ord)) r) (summary true tr) = true).
      { intros cc _ X H0 H1. injection X as ->. eapply F; [reflexivity|exact H0|apply H1]. }
      destruct q as [v|v|v|v|v|v|v| | |v|v].
      1: { eapply G; [reflexivity|exact E|reflexivity|apply swap_ok]. }
      all: match type of E with match ?b with _ => _ end = _ => destruct b as [p|] eqn:Eb end;
        (eapply G; [reflexivity|exact E|reflexivity|]; first [eapply loop_ok; exact Eb | apply cmp_ok]).
    - injection E as <-. eapply F; [reflexivity|reflexivity|apply cas_ok].
    - injection E as <-. eapply F; [reflexivity|reflexivity|apply cas_ok].
  Qed.
End S390xP.
