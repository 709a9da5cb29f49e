(** Calls with forbidden orderings inserted into histories. *)
From Coq Require Import ZArith List Bool Lia PeanoNat.
From Verif Require Import Words Spec WideSpec LinFacts EntrySpec.
Import ListNotations.
Open Scope Z_scope.

(** ** Histories *)
Section Shuffle.
  Context {Op Res : Type}.
  Variable forbidden : Op -> Prop.
  Variable panic : Res.
  Variable sem : Z -> Op -> Z -> Z * Res -> Prop.
  Local Notation sem' := (with_panics forbidden panic sem).
  Local Notation astate := (astate Op Res).

  Inductive who := WIdle | WBusy | WPanic.
  (** [h] is [h0] with forbidden calls inserted where their thread was idle. *)
  Inductive shuf : (nat -> who) -> list (event Op Res) -> list (event Op Res) -> Prop :=
  | sh_nil W : shuf W [] []
  | sh_pcall W W' t a o h h0 : W t = WIdle -> forbidden o -> fun_upd_eq W t WPanic W' -> shuf W' h h0 ->
      shuf W (Call t a o :: h) h0
  | sh_pret W W' t h h0 : W t = WPanic -> fun_upd_eq W t WIdle W' -> shuf W' h h0 -> shuf W (Return t panic :: h) h0
  | sh_call W W' t a o h h0 : W t = WIdle -> ~ forbidden o -> fun_upd_eq W t WBusy W' -> shuf W' h h0 ->
      shuf W (Call t a o :: h) (Call t a o :: h0)
  | sh_ret W W' t r h h0 : W t = WBusy -> fun_upd_eq W t WIdle W' -> shuf W' h h0 ->
      shuf W (Return t r :: h) (Return t r :: h0).

  (** [E] is [A] with the panicking threads on top. *)
  Definition over (W : nat -> who) (A E : astate) : Prop :=
    (forall x, avals E x = avals A x) /\
    forall t, match W t with
              | WIdle => aphases A t = AIdle /\ aphases E t = AIdle
              | WPanic => aphases A t = AIdle /\ aphases E t = ADone panic
              | WBusy => aphases A t <> AIdle /\ aphases E t = aphases A t /\
                         forall a o, aphases A t = APending a o -> ~ forbidden o
              end.

  Lemma asteps_app (s : Z -> Op -> Z -> Z * Res -> Prop) a h b h' c :
    asteps s a h b -> asteps s b h' c -> asteps s a (h ++ h') c.
  Proof.
    intros H1 H2. induction H2 as [x y V P|x h1 y e z H IH S].
    - rewrite app_nil_r. apply asteps_aeq_r with (s' := x); [exact H1|]. split; auto.
    - rewrite app_assoc. eapply as_snoc; [apply IH; exact H1|exact S].
  Qed.
  Lemma asteps_one (s : Z -> Op -> Z -> Z * Res -> Prop) a e b : astep s a e b -> asteps s a e b.
  Proof. intros H. rewrite <- (app_nil_l e). eapply as_snoc; [|exact H]. apply as_nil; auto. Qed.

  Lemma upd_at {K B} (f : K -> B) x v g : fun_upd_eq f x v g -> g x = v. Proof. now intros [H _]. Qed.
  Lemma upd_off {K B} (f : K -> B) x v g y : fun_upd_eq f x v g -> y <> x -> g y = f y. Proof. intros [_ H]. apply H. Qed.

  (** The first event and what silently precedes it. *)
  Lemma asteps_cons (s : Z -> Op -> Z -> Z * Res -> Prop) a h c : asteps s a h c -> forall e h', h = e :: h' ->
    exists b b', asteps s a [] b /\ astep s b [e] b' /\ asteps s b' h' c.
  Proof.
    intros H. induction H as [x y V P|x h1 y e1 z H IH S]; intros e h' E; [discriminate|].
    destruct h1 as [|e0 h1'].
    - cbn [app] in E. subst e1. destruct h' as [|e2 h2].
      + exists y, z. split; [exact H|]. split; [exact S|]. apply as_nil; auto.
      + inversion S.
    - cbn [app] in E. injection E as -> <-. destruct (IH _ _ eq_refl) as (b & b' & B1 & B2 & B3).
      exists b, b'. split; [exact B1|]. split; [exact B2|]. now apply as_snoc with (s' := y).
  Qed.

  Lemma tdec (t u : nat) : t = u \/ t <> u. Proof. destruct (Nat.eq_dec t u); auto. Qed.

  Lemma silent_over W A h A1 E : asteps sem A h A1 -> h = [] -> over W A E ->
    exists E1, asteps sem' E [] E1 /\ over W A1 E1.
  Proof.
    intros H. revert E. induction H as [x y V P|x h1 y e z H IH S]; intros E EH [OV OP].
    - exists E. split; [apply as_nil; auto|]. split; [intros; now rewrite OV, V|].
      intros t. specialize (OP t). rewrite P. exact OP.
    - destruct h1; [|discriminate]. cbn in EH. subst e.
      destruct (IH E eq_refl (conj OV OP)) as (E1 & S1 & OV1 & OP1).
      inversion S as [| s0 s0' t a o v' r P1 M UV UP |]; subst.
      pose proof (OP1 t) as Ot. assert (Wt : W t = WBusy) by (destruct (W t); [destruct Ot; congruence|reflexivity|destruct Ot; congruence]).
      rewrite Wt in Ot. destruct Ot as (N & EQ & F).
      exists (mk_astate (upd (avals E1) a v') (updn (aphases E1) t (ADone r))). split.
      + change (@nil (event Op Res)) with (@nil (event Op Res) ++ []). eapply as_snoc; [exact S1|].
        eapply a_take_effect with (t := t) (a := a) (o := o) (v' := v') (r := r); cbn [avals aphases].
        * rewrite EQ. exact P1.
        * right. split; [now apply F with (a := a)|]. rewrite OV1. exact M.
        * split; [apply upd_same|intros; now apply upd_other].
        * split; [apply updn_same|intros; now apply updn_other].
      + split; cbn [avals aphases].
        * intros x0. destruct (Z.eq_dec x0 a) as [->|D].
          -- rewrite upd_same. symmetry. apply (upd_at _ _ _ _ UV).
          -- rewrite upd_other by exact D. rewrite OV1. symmetry. now apply (upd_off _ _ _ _ _ UV).
        * intros u. destruct (tdec u t) as [->|D].
          -- rewrite Wt, updn_same, (upd_at _ _ _ _ UP). split; [discriminate|]. split; [reflexivity|]. discriminate.
          -- rewrite updn_other by exact D. rewrite (upd_off _ _ _ _ _ UP D). exact (OP1 u).
  Qed.

  Lemma shuf_lin W h h0 : shuf W h h0 -> forall A A1 E, asteps sem A h0 A1 -> over W A E ->
    exists E1, asteps sem' E h E1 /\ forall x, avals E1 x = avals A1 x.
  Proof.
    intros H. induction H as [W|W W' t a o h h0 Wt F U H IH|W W' t h h0 Wt U H IH
                             |W W' t a o h h0 Wt F U H IH|W W' t r h h0 Wt U H IH]; intros A A1 E S O.
    - destruct (silent_over W A [] A1 E S eq_refl O) as (E1 & S1 & V1 & _). exists E1. auto.
    - destruct O as [OV OP]. pose proof (OP t) as Ot. rewrite Wt in Ot. destruct Ot as [At Et].
      set (E1 := mk_astate (avals E) (updn (aphases E) t (APending a o))).
      set (E2 := mk_astate (upd (avals E) a (avals E a)) (updn (aphases E) t (ADone panic))).
      assert (S1 : astep sem' E [Call t a o] E1).
      { apply a_call; [exact Et|reflexivity|]. split; [apply updn_same|intros; now apply updn_other]. }
      assert (S2 : astep sem' E1 [] E2).
      { eapply a_take_effect with (t := t) (a := a) (o := o) (v' := avals E a) (r := panic).
        - unfold E1. cbn. apply updn_same.
        - left. auto.
        - split; [apply upd_same|intros; now apply upd_other].
        - split; [apply updn_same|]. intros y D. unfold E1, E2. cbn. now rewrite !updn_other. }
      destruct (IH A A1 E2) as (E3 & S3 & V3); [exact S| |].
      { split.
        - intros x. unfold E2. cbn. unfold upd. destruct (x =? a) eqn:EX; [apply Z.eqb_eq in EX; subst x|]; apply OV.
        - intros u. destruct (tdec u t) as [->|D].
          + rewrite (upd_at _ _ _ _ U). split; [exact At|]. unfold E2. cbn. apply updn_same.
          + rewrite (upd_off _ _ _ _ _ U D). unfold E2. cbn. rewrite updn_other by exact D. exact (OP u). }
      exists E3. split; [|exact V3]. change (Call t a o :: h) with ([Call t a o] ++ ([] ++ h)).
      eapply asteps_app; [apply asteps_one; exact S1|]. eapply asteps_app; [apply asteps_one; exact S2|exact S3].
    - destruct O as [OV OP]. pose proof (OP t) as Ot. rewrite Wt in Ot. destruct Ot as [At Et].
      set (E1 := mk_astate (avals E) (updn (aphases E) t AIdle)).
      assert (S1 : astep sem' E [Return t panic] E1).
      { apply a_return; [exact Et|reflexivity|]. split; [apply updn_same|intros; now apply updn_other]. }
      destruct (IH A A1 E1) as (E3 & S3 & V3); [exact S| |].
      { split; [exact OV|]. intros u. destruct (tdec u t) as [->|D].
        - rewrite (upd_at _ _ _ _ U). split; [exact At|]. apply updn_same.
        - rewrite (upd_off _ _ _ _ _ U D). unfold E1. cbn. rewrite updn_other by exact D. exact (OP u). }
      exists E3. split; [|exact V3]. change (Return t panic :: h) with ([Return t panic] ++ h).
      eapply asteps_app; [apply asteps_one; exact S1|exact S3].
    - destruct (asteps_cons sem A _ A1 S _ _ eq_refl) as (B & B' & S0 & S1 & S2).
      destruct (silent_over W A [] B E S0 eq_refl O) as (E0 & SE0 & OV & OP).
      pose proof (OP t) as Ot. rewrite Wt in Ot. destruct Ot as [At Et].
      inversion S1 as [s0 s0' t' a' o' P1 V UP| |]; subst.
      set (E1 := mk_astate (avals E0) (updn (aphases E0) t (APending a o))).
      assert (SE1 : astep sem' E0 [Call t a o] E1).
      { apply a_call; [exact Et|reflexivity|]. split; [apply updn_same|intros; now apply updn_other]. }
      destruct (IH B' A1 E1) as (E3 & S3 & V3); [exact S2| |].
      { split; [intros; cbn; now rewrite OV, V|]. intros u. destruct (tdec u t) as [->|D].
        - rewrite (upd_at _ _ _ _ U), (upd_at _ _ _ _ UP). split; [discriminate|]. split; [apply updn_same|].
          intros a1 o1 Q. injection Q as <- <-. exact F.
        - rewrite (upd_off _ _ _ _ _ U D), (upd_off _ _ _ _ _ UP D). unfold E1. cbn. rewrite updn_other by exact D. exact (OP u). }
      exists E3. split; [|exact V3]. change (Call t a o :: h) with ([] ++ ([Call t a o] ++ h)).
      eapply asteps_app; [exact SE0|]. eapply asteps_app; [apply asteps_one; exact SE1|exact S3].
    - destruct (asteps_cons sem A _ A1 S _ _ eq_refl) as (B & B' & S0 & S1 & S2).
      destruct (silent_over W A [] B E S0 eq_refl O) as (E0 & SE0 & OV & OP).
      pose proof (OP t) as Ot. rewrite Wt in Ot. destruct Ot as (At & Et & _).
      inversion S1 as [| |s0 s0' t' r' P1 V UP]; subst.
      set (E1 := mk_astate (avals E0) (updn (aphases E0) t AIdle)).
      assert (SE1 : astep sem' E0 [Return t r] E1).
      { apply a_return; [rewrite Et; exact P1|reflexivity|]. split; [apply updn_same|intros; now apply updn_other]. }
      destruct (IH B' A1 E1) as (E3 & S3 & V3); [exact S2| |].
      { split; [intros; cbn; now rewrite OV, V|]. intros u. destruct (tdec u t) as [->|D].
        - rewrite (upd_at _ _ _ _ U), (upd_at _ _ _ _ UP). split; [reflexivity|apply updn_same].
        - rewrite (upd_off _ _ _ _ _ U D), (upd_off _ _ _ _ _ UP D). unfold E1. cbn. rewrite updn_other by exact D. exact (OP u). }
      exists E3. split; [|exact V3]. change (Return t r :: h) with ([] ++ ([Return t r] ++ h)).
      eapply asteps_app; [exact SE0|]. eapply asteps_app; [apply asteps_one; exact SE1|exact S3].
  Qed.

  Theorem shuf_linearizable W init h h0 fin : (forall t, W t = WIdle) -> shuf W h h0 ->
    linearizable_to sem init h0 fin -> linearizable_to sem' init h fin.
  Proof.
    intros WI H (A1 & S & FV).
    destruct (shuf_lin W h h0 H _ A1 (mk_astate init (fun _ => AIdle)) S) as (E1 & S1 & V1).
    - split; [reflexivity|]. intros t. rewrite WI. auto.
    - exists E1. split; [exact S1|]. intros a v Ev. rewrite V1. now apply FV.
  Qed.
End Shuffle.
