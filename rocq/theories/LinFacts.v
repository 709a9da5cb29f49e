(** Proof device for linearizability: an automaton whose operations may observe the
    state (when they would leave it unchanged) any number of times before committing.
    It produces no more histories than the atomic-object automaton of [Spec]. *)
From Coq Require Import ZArith List Bool PeanoNat.
From Verif Require Import Words Spec.
Import ListNotations.
Open Scope Z_scope.

Definition upd {B} (f : Z -> B) (x : Z) (v : B) : Z -> B := fun y => if Z.eqb y x then v else f y.
Definition updn {B} (f : nat -> B) (x : nat) (v : B) : nat -> B := fun y => if Nat.eqb y x then v else f y.

Lemma upd_same {B} (f : Z -> B) x v : upd f x v x = v.
Proof. unfold upd. now rewrite Z.eqb_refl. Qed.
Lemma upd_other {B} (f : Z -> B) x v y : y <> x -> upd f x v y = f y.
Proof. unfold upd. intros. now rewrite (proj2 (Z.eqb_neq y x)). Qed.
Lemma updn_same {B} (f : nat -> B) x v : updn f x v x = v.
Proof. unfold updn. now rewrite Nat.eqb_refl. Qed.
Lemma updn_other {B} (f : nat -> B) x v y : y <> x -> updn f x v y = f y.
Proof. unfold updn. intros. now rewrite (proj2 (Nat.eqb_neq y x)). Qed.

Section Lin.
  Context {Op Res : Type}.
  Variable sem : Z -> Op -> Z -> Z * Res -> Prop.

  Local Notation astate := (astate Op Res).
  Local Notation event := (event Op Res).

  Definition aeq (s s' : astate) : Prop :=
    (forall x, avals s' x = avals s x) /\ (forall t, aphases s' t = aphases s t).

  Lemma aeq_refl s : aeq s s. Proof. split; auto. Qed.
  Lemma aeq_sym s s' : aeq s s' -> aeq s' s.
  Proof. intros [? ?]; split; intros; symmetry; auto. Qed.
  Lemma aeq_trans s1 s2 s3 : aeq s1 s2 -> aeq s2 s3 -> aeq s1 s3.
  Proof. intros [? ?] [? ?]; split; intros; etransitivity; eauto. Qed.

  Lemma astep_aeq_r s e s' s'' : astep sem s e s' -> aeq s' s'' -> astep sem s e s''.
  Proof.
    intros H [Hv Hp]. inversion H; subst.
    - eapply a_call; eauto.
      + intros; rewrite Hv; auto.
      + destruct H2 as [? ?]. split; intros; rewrite Hp; auto.
    - eapply a_take_effect; eauto.
      + destruct H2 as [? ?]. split; intros; rewrite Hv; auto.
      + destruct H3 as [? ?]. split; intros; rewrite Hp; auto.
    - eapply a_return; eauto.
      + intros; rewrite Hv; auto.
      + destruct H2 as [? ?]. split; intros; rewrite Hp; auto.
  Qed.

  Lemma asteps_aeq_r s h s' s'' : asteps sem s h s' -> aeq s' s'' -> asteps sem s h s''.
  Proof.
    intros H. revert s''. induction H as [s s' Hv Hp | s h s' e s'' H IH Hs]; intros s3 E.
    - destruct E as [Hv' Hp']. apply as_nil; intros; [rewrite Hv'|rewrite Hp']; auto.
    - eapply as_snoc; eauto using astep_aeq_r.
  Qed.

  Lemma asteps_nil_step s h s' s'' : asteps sem s h s' -> astep sem s' [] s'' -> asteps sem s h s''.
  Proof. intros H1 H2. rewrite <- (app_nil_r h). eapply as_snoc; eauto. Qed.

  (** The observing automaton. *)
  Inductive rphase := RIdle | RPending (a : Z) (o : Op) | RSeen (a : Z) (o : Op) (r : Res) | RDone (r : Res).
  Record rstate := mk_rstate { rvals : Z -> Z; rphases : nat -> rphase }.

  Inductive rstep : rstate -> list event -> rstate -> Prop :=
  | r_call s s' t a o :
      rphases s t = RIdle ->
      (forall x, rvals s' x = rvals s x) ->
      fun_upd_eq (rphases s) t (RPending a o) (rphases s') ->
      rstep s [Call t a o] s'
  | r_observe s s' t a o r :
      (rphases s t = RPending a o \/ exists r0, rphases s t = RSeen a o r0) ->
      sem a o (rvals s a) (rvals s a, r) ->
      (forall x, rvals s' x = rvals s x) ->
      fun_upd_eq (rphases s) t (RSeen a o r) (rphases s') ->
      rstep s [] s'
  | r_effect s s' t a o v' r :
      (rphases s t = RPending a o \/ exists r0, rphases s t = RSeen a o r0) ->
      sem a o (rvals s a) (v', r) ->
      fun_upd_eq (rvals s) a v' (rvals s') ->
      fun_upd_eq (rphases s) t (RDone r) (rphases s') ->
      rstep s [] s'
  | r_return s s' t r :
      (rphases s t = RDone r \/ exists a o, rphases s t = RSeen a o r) ->
      (forall x, rvals s' x = rvals s x) ->
      fun_upd_eq (rphases s) t RIdle (rphases s') ->
      rstep s [Return t r] s'.

  Inductive rsteps : rstate -> list event -> rstate -> Prop :=
  | rs_nil s s' : (forall x, rvals s' x = rvals s x) -> (forall t, rphases s' t = rphases s t) ->
                  rsteps s [] s'
  | rs_snoc s h s' e s'' : rsteps s h s' -> rstep s' e s'' -> rsteps s (h ++ e) s''.

  Definition bphase (p : rphase) (q : aphase Op Res) : Prop :=
    match p with
    | RIdle => q = AIdle
    | RPending a o => q = APending a o
    | RSeen a o r => q = APending a o \/ q = ADone r
    | RDone r => q = ADone r
    end.
  Definition brel (s : rstate) (A : astate) : Prop :=
    (forall x, avals A x = rvals s x) /\ forall t, bphase (rphases s t) (aphases A t).

  Definition aset (A : astate) (t : nat) (p : aphase Op Res) : astate :=
    mk_astate (avals A) (updn (aphases A) t p).

  Lemma back_step s e s' A' : rstep s e s' -> brel s' A' ->
    exists A, brel s A /\ ((e = [] /\ aeq A A') \/ astep sem A e A').
  Proof.
    intros H [Bv Bp]. inversion H as [? ? t a o P V U | ? ? t a o r P S V U | ? ? t a o v' r P S V U | ? ? t r P V U]; subst.
    - (* call *)
      destruct U as [U1 U2].
      exists (aset A' t AIdle). split.
      + split; cbn.
        * intros x. now rewrite Bv, V.
        * intros u. destruct (Nat.eq_dec u t) as [->|Hu].
          { rewrite updn_same, P. reflexivity. }
          { rewrite updn_other by assumption. rewrite <- U2 by assumption. apply Bp. }
      + right. eapply a_call; cbn.
        * apply updn_same.
        * reflexivity.
        * split.
          { specialize (Bp t). rewrite U1 in Bp. exact Bp. }
          { intros u Hu. now rewrite updn_other. }
    - (* observe *)
      destruct U as [U1 U2].
      exists (aset A' t (APending a o)). split.
      + split; cbn.
        * intros x. now rewrite Bv, V.
        * intros u. destruct (Nat.eq_dec u t) as [->|Hu].
          { rewrite updn_same. destruct P as [P|[r0 P]]; rewrite P; cbn; auto. }
          { rewrite updn_other by assumption. rewrite <- U2 by assumption. apply Bp. }
      + pose proof (Bp t) as Bt. rewrite U1 in Bt. destruct Bt as [Bt|Bt].
        * left. split; [reflexivity|]. split; cbn; [reflexivity|].
          intros u. destruct (Nat.eq_dec u t) as [->|Hu].
          { now rewrite updn_same. }
          { now rewrite updn_other. }
        * right. eapply a_take_effect with (a := a) (o := o) (t := t) (v' := rvals s a) (r := r); cbn.
          { apply updn_same. }
          { rewrite Bv, V. exact S. }
          { split; [now rewrite Bv, V|]. reflexivity. }
          { split; [exact Bt|]. intros u Hu. now rewrite updn_other. }
    - (* effect *)
      destruct U as [U1 U2]. destruct V as [V1 V2].
      exists (mk_astate (upd (avals A') a (rvals s a)) (updn (aphases A') t (APending a o))). split.
      + split; cbn.
        * intros x. destruct (Z.eq_dec x a) as [->|Hx].
          { now rewrite upd_same. }
          { rewrite upd_other by assumption. now rewrite Bv, V2. }
        * intros u. destruct (Nat.eq_dec u t) as [->|Hu].
          { rewrite updn_same. destruct P as [P|[r0 P]]; rewrite P; cbn; auto. }
          { rewrite updn_other by assumption. rewrite <- U2 by assumption. apply Bp. }
      + right. eapply a_take_effect with (a := a) (o := o) (t := t) (v' := v') (r := r); cbn.
        * apply updn_same.
        * rewrite upd_same. exact S.
        * split; [now rewrite Bv, V1|]. intros x Hx. now rewrite upd_other.
        * split.
          { specialize (Bp t). rewrite U1 in Bp. exact Bp. }
          { intros u Hu. now rewrite updn_other. }
    - (* return *)
      destruct U as [U1 U2].
      exists (aset A' t (ADone r)). split.
      + split; cbn.
        * intros x. now rewrite Bv, V.
        * intros u. destruct (Nat.eq_dec u t) as [->|Hu].
          { rewrite updn_same. destruct P as [P|[a [o P]]]; rewrite P; cbn; auto. }
          { rewrite updn_other by assumption. rewrite <- U2 by assumption. apply Bp. }
      + right. eapply a_return; cbn.
        * apply updn_same.
        * reflexivity.
        * split.
          { specialize (Bp t). rewrite U1 in Bp. exact Bp. }
          { intros u Hu. now rewrite updn_other. }
  Qed.

  Lemma back_steps s h s' A' : rsteps s h s' -> brel s' A' ->
    exists A, brel s A /\ asteps sem A h A'.
  Proof.
    intros H. revert A'. induction H as [s s' Hv Hp | s h s' e s'' H IH Hs]; intros A' B.
    - exists A'. split.
      + destruct B as [B1 B2]. split; intros; [now rewrite B1, Hv|]. rewrite <- Hp. apply B2.
      + apply as_nil; reflexivity.
    - destruct (back_step _ _ _ _ Hs B) as [A1 [B1 Hstep]].
      destruct (IH A1 B1) as [A0 [B0 H0]].
      exists A0. split; [exact B0|].
      destruct Hstep as [[-> E]|E].
      + rewrite app_nil_r. eapply asteps_aeq_r; eauto.
      + eapply as_snoc; eauto.
  Qed.

  (** Commit every observed-but-not-returned operation as pending. *)
  Definition acommit (s : rstate) : astate :=
    mk_astate (rvals s) (fun t => match rphases s t with
                              | RIdle => AIdle | RPending a o => APending a o
                              | RSeen a o _ => APending a o | RDone r => ADone r end).
  Lemma acommit_brel s : brel s (acommit s).
  Proof. split; cbn; auto. intros t. destruct (rphases s t); cbn; auto. Qed.

  Theorem rsteps_linearizable_to init h s :
    rsteps (mk_rstate init (fun _ => RIdle)) h s ->
    forall fin, (forall a v, fin a = Some v -> rvals s a = v) -> linearizable_to sem init h fin.
  Proof.
    intros H fin Hfin. destruct (back_steps _ _ _ _ H (acommit_brel s)) as [A [[B1 B2] HA]].
    exists (acommit s). split; [|exact Hfin].
    cbn in *. clear H.
    assert (Aeq : aeq (mk_astate init (fun _ => AIdle)) A) by (split; cbn; auto).
    remember (mk_astate init (fun _ => AIdle)) as I eqn:EI. clear EI.
    revert Aeq. clear B1 B2. induction HA as [s1 s' Hv Hp | s1 h s' e s'' H IH Hs]; intros Aeq.
    - destruct Aeq as [E1 E2]. apply as_nil; intros; [rewrite Hv|rewrite Hp]; auto.
    - eapply as_snoc; eauto.
  Qed.

  Lemma linearizable_to_linearizable init h f : linearizable_to sem init h f -> linearizable sem init h.
  Proof. intros [s [H _]]. now exists s. Qed.
End Lin.
