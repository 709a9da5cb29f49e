(** * Atomic parts make an atomic whole *)
From Coq Require Import String ZArith List Bool Arith Lia.
From Verif Require Import Words Spec FrontSpec ConfigSpec ConfigTaut ConfigFlat ConfigTargets ConfigModel ConfigProofs ConfigMain.
From Verif Require Import LayerSpec LayerModel WholeSpec.
Import ListNotations.
Open Scope Z_scope.

Section Facts.
  Context {Op Res : Type}.
  Implicit Types (h : list (event Op Res)) (e : event Op Res).
  Definition after (at_ : nat -> option Z) h : nat -> option Z := fold_left moves h at_.

  Lemma part_app mine h1 h2 : forall at_, part_from mine at_ (h1 ++ h2) = part_from mine at_ h1 ++ part_from mine (after at_ h1) h2.
  Proof. induction h1 as [|e h1 IH]; intros at_; [reflexivity|]. cbn [app part_from]. rewrite IH, <- app_assoc. reflexivity. Qed.
  Lemma seq_app h1 h2 : forall at_, seq_from at_ (h1 ++ h2) <-> seq_from at_ h1 /\ seq_from (after at_ h1) h2.
  Proof. induction h1 as [|e h1 IH]; intros at_; cbn [app seq_from]; [unfold after; cbn; tauto|]. rewrite IH. unfold after. cbn [fold_left]. tauto. Qed.

  Variable sem : Z -> Op -> Z -> Z * Res -> Prop.
  Lemma asteps_snoc_inv s g s' : asteps sem s g s' -> forall h e, g = h ++ [e] ->
    exists s1 s2, asteps sem s h s1 /\ astep sem s1 [e] s2 /\ asteps sem s2 [] s'.
  Proof.
    induction 1 as [s s' V P|s g s' x s'' A IH St]; intros h e E; [destruct h; discriminate|].
    assert (X : x = [] \/ exists y, x = [y]) by (inversion St; eauto).
    destruct X as [->|[y ->]].
    - rewrite app_nil_r in E. destruct (IH h e E) as (s1 & s2 & A1 & S1 & A2). exists s1, s2. split; [exact A1|]. split; [exact S1|].
      exact (as_snoc sem s2 [] s' [] s'' A2 St).
    - apply app_inj_tail in E as [-> ->]. exists s', s''. split; [exact A|]. split; [exact St|]. constructor; auto.
  Qed.
  Lemma asteps_trans s h1 s1 : asteps sem s h1 s1 -> forall h2 s2, asteps sem s1 h2 s2 -> asteps sem s (h1 ++ h2) s2.
  Proof.
    intros A h2 s2 B. revert s h1 A. induction B as [s1 s2 V P|s1 g s2 x s3 B IH St]; intros s h1 A.
    - rewrite app_nil_r. destruct A as [s s1 V' P'|s g s1 x s3 A St].
      + constructor; congruence.
      + eapply as_snoc; [exact A|]. clear A. inversion St; subst.
        * eapply a_call; eauto; [intros; rewrite V; auto|]. destruct H1 as [U1 U2]. split; [rewrite P; exact U1|]. intros; rewrite P; auto.
        * destruct H1 as [U1 U2], H2 as [U3 U4]. eapply a_take_effect; eauto; split; intros; rewrite ?V, ?P; auto.
        * eapply a_return; eauto; [intros; rewrite V; auto|]. destruct H1 as [U1 U2]. split; [rewrite P; exact U1|]. intros; rewrite P; auto.
    - rewrite app_assoc. exact (as_snoc sem s _ s2 x s3 (IH s h1 A) St).
  Qed.
End Facts.

Lemma unrename {Op Op' Res} (base : Z -> Op' -> Z -> Z * Res -> Prop) (enc : Op -> Op') init h fin :
  linearizable_to base init (rename enc h) fin -> linearizable_to (fun a o => base a (enc o)) init h fin.
Proof.
  intros (s' & A & F).
  enough (G : exists s, asteps (fun a o => base a (enc o)) (mk_astate init (fun _ => AIdle)) h s /\ (forall a, avals s a = avals s' a)).
  { destruct G as (s & G & V). exists s. split; [exact G|]. intros a v H. rewrite V. auto. }
  assert (G : exists s, asteps (fun a o => base a (enc o)) (mk_astate init (fun _ => AIdle)) h s /\ (forall a, avals s a = avals s' a) /\
    forall t, aphases s' t = match aphases s t with AIdle => AIdle | APending a o => APending a (enc o) | ADone r => ADone r end).
  { clear F. remember (rename enc h) as g eqn:E. remember (mk_astate init (fun _ => AIdle)) as s0 eqn:E0. revert h E.
    induction A as [s s' V P|s g s' x s'' A IH St]; intros h E; subst s.
    - destruct h; [|discriminate]. exists (mk_astate init (fun _ => AIdle)). split; [constructor; auto|]. split; [intros; now rewrite V|]. intros t. rewrite P. reflexivity.
    - symmetry in E. apply map_eq_app in E as (h1 & h2 & -> & E1 & E2). destruct (IH eq_refl h1 (eq_sym E1)) as (s & B & V & P). clear IH.
      set (un := fun (t : nat) (p : aphase Op Res) u => if Nat.eqb u t then p else aphases s u).
      destruct St as [s' s'' t a o H H0 H1|s' s'' t a o v' r H H0 H1 H2|s' s'' t r H H0 H1].
      + destruct h2 as [|[t' a' o'|] [|]]; try discriminate. cbn in E2. injection E2 as -> -> <-.
        exists (mk_astate (avals s) (un t (APending a o'))). split; [|split].
        * eapply as_snoc; [exact B|]. apply a_call; [specialize (P t); rewrite H in P; destruct (aphases s t); congruence|reflexivity|].
          split; cbn [aphases]; unfold un; [now rewrite Nat.eqb_refl|]. intros y N. now rewrite (proj2 (Nat.eqb_neq y t) N).
        * intros x. cbn [avals]. now rewrite H0, V.
        * intros u. cbn [aphases]. unfold un. destruct H1 as [U1 U2]. destruct (Nat.eqb_spec u t) as [->|N]; [exact U1|]. rewrite U2 by exact N. apply P.
      + destruct h2; [|discriminate]. destruct H1 as [W1 W2], H2 as [U1 U2].
        assert (X : exists o', aphases s t = APending a o' /\ enc o' = o). { specialize (P t). rewrite H in P. destruct (aphases s t); try discriminate. injection P as -> ->. eauto. }
        destruct X as (o' & X & <-).
        exists (mk_astate (fun x => if x =? a then v' else avals s x) (un t (ADone r))). split; [|split].
        * eapply as_snoc; [exact B|]. eapply a_take_effect; [exact X| | |].
          -- cbn beta. rewrite V. exact H0.
          -- split; cbn [avals]; [now rewrite Z.eqb_refl|]. intros y N. now rewrite (proj2 (Z.eqb_neq y a) N).
          -- split; cbn [aphases]; unfold un; [now rewrite Nat.eqb_refl|]. intros y N. now rewrite (proj2 (Nat.eqb_neq y t) N).
        * intros x. cbn [avals]. destruct (Z.eqb_spec x a) as [->|N]; [now rewrite W1|]. now rewrite W2, V.
        * intros u. cbn [aphases]. unfold un. destruct (Nat.eqb_spec u t) as [->|N]; [exact U1|]. rewrite U2 by exact N. apply P.
      + destruct h2 as [|[|t' r'] [|]]; try discriminate. cbn in E2. injection E2 as -> ->.
        exists (mk_astate (avals s) (un t AIdle)). split; [|split].
        * eapply as_snoc; [exact B|]. apply a_return; [specialize (P t); rewrite H in P; destruct (aphases s t); congruence|reflexivity|].
          split; cbn [aphases]; unfold un; [now rewrite Nat.eqb_refl|]. intros y N. now rewrite (proj2 (Nat.eqb_neq y t) N).
        * intros x. cbn [avals]. now rewrite H0, V.
        * intros u. cbn [aphases]. unfold un. destruct H1 as [U1 U2]. destruct (Nat.eqb_spec u t) as [->|N]; [exact U1|]. rewrite U2 by exact N. apply P. }
  destruct G as (s & G & V & _). eauto.
Qed.

Section Merge.
  Context {Op Res : Type}.
  Variables (from : Z -> path) (Q : path -> Prop) (B : path -> Z -> Op -> Z -> Z * Res -> Prop) (init : Z -> Z) (inits : path -> Z -> Z).
  Hypothesis same_init : forall a, inits (from a) a = init a.
  Hypothesis all_Q : forall a, Q (from a).
  Definition whole (a : Z) : Op -> Z -> Z * Res -> Prop := B (from a) a.
  Definition mine (q : path) (a : Z) : bool := path_eqb q (from a).
  Lemma mine_true q a : mine q a = true <-> q = from a.
  Proof. apply path_eqb_eq. Qed.
  Lemma mine_self a : mine (from a) a = true.
  Proof. now apply mine_true. Qed.
  Lemma mine_false q a : q <> from a -> mine q a = false.
  Proof. intros N. destruct (mine q a) eqn:E; [|reflexivity]. now apply mine_true in E. Qed.

  Notation state := (astate Op Res).
  Definition merged (S : path -> state) (at_ : nat -> option Z) (s : state) : Prop :=
    (forall a, avals s a = avals (S (from a)) a) /\
    (forall t, match at_ t with
               | Some a => aphases s t = aphases (S (from a)) t /\ (forall a' o, aphases s t = APending a' o -> a' = a)
               | None => aphases s t = AIdle end) /\
    (forall t q, Q q -> (forall a, at_ t = Some a -> from a <> q) -> aphases (S q) t = AIdle).
  Definition put (S : path -> state) (q : path) (x : state) : path -> state := fun k => if path_eqb k q then x else S k.
  Lemma put_same S q x : put S q x q = x.
  Proof. unfold put. now rewrite (proj2 (path_eqb_eq q q) eq_refl). Qed.
  Lemma put_other S q x k : k <> q -> put S q x k = S k.
  Proof. intros N. unfold put. destruct (path_eqb k q) eqn:E; [|reflexivity]. now apply path_eqb_eq in E. Qed.
  Lemma path_dec (p q : path) : p = q \/ p <> q.
  Proof. destruct (path_eqb p q) eqn:E; [left; now apply path_eqb_eq|right; intros ->; now rewrite (proj2 (path_eqb_eq q q) eq_refl) in E]. Qed.

  (** one hidden step of part [q] *)
  Lemma hidden1 S at_ s q x : Q q -> merged S at_ s -> astep (B q) (S q) [] x -> exists s', astep whole s [] s' /\ merged (put S q x) at_ s'.
  Proof.
    intros HQ (V & P & I0) St. inversion St as [|? ? t a o v' r H H0 HW HU|]; subst; destruct HW as [W1 W2], HU as [U1 U2].
    assert (A : exists a0, at_ t = Some a0 /\ from a0 = q).
    { destruct (at_ t) as [a0|] eqn:E.
      - exists a0. split; [reflexivity|]. destruct (path_dec (from a0) q) as [?|N]; [assumption|]. rewrite (I0 t q HQ) in H; [discriminate|]. intros a1 H1. rewrite E in H1. now injection H1 as <-.
      - rewrite (I0 t q HQ) in H; [discriminate|]. intros a1 H1. now rewrite E in H1. }
    destruct A as (a0 & E & F). pose proof (P t) as Pt. rewrite E, F in Pt. destruct Pt as [P1 P2]. rewrite H in P1. pose proof (P2 a o P1) as ->. 
    exists (mk_astate (fun y => if y =? a0 then v' else avals s y) (fun u => if Nat.eqb u t then Spec.ADone r else aphases s u)). split.
    - eapply a_take_effect; [exact P1| | |].
      + unfold whole. rewrite F, V, F. exact H0.
      + split; cbn [avals]; [now rewrite Z.eqb_refl|]. intros y N. now rewrite (proj2 (Z.eqb_neq y a0) N).
      + split; cbn [aphases]; [now rewrite Nat.eqb_refl|]. intros y N. now rewrite (proj2 (Nat.eqb_neq y t) N).
    - split; [|split].
      + intros y. cbn [avals]. destruct (path_dec (from y) q) as [G|G].
        * rewrite G, put_same. destruct (Z.eqb_spec y a0) as [->|N]; [now rewrite W1|]. now rewrite W2, V, G.
        * rewrite put_other by exact G. destruct (Z.eqb_spec y a0) as [->|N]; [contradiction|]. apply V.
      + intros u. cbn [aphases]. pose proof (P u) as Pu. destruct (Nat.eqb_spec u t) as [->|N].
        * rewrite E, F, put_same, U1. split; [reflexivity|discriminate].
        * destruct (at_ u) as [a1|]; [|exact Pu]. destruct Pu as [Pu1 Pu2]. split; [|exact Pu2].
          destruct (path_dec (from a1) q) as [G|G]; [rewrite G, put_same, U2 by exact N; now rewrite <- G|now rewrite put_other by exact G].
      + intros u k Hk N. destruct (path_dec k q) as [->|G]; [|rewrite put_other by exact G; now apply I0].
        rewrite put_same. destruct (Nat.eq_dec u t) as [->|M]; [exfalso; exact (N a0 E F)|]. rewrite U2 by exact M. now apply I0.
  Qed.
  Lemma merged_ext S S' at_ s : merged S at_ s -> (forall q, Q q -> (forall a, avals (S' q) a = avals (S q) a) /\ forall t, aphases (S' q) t = aphases (S q) t) -> merged S' at_ s.
  Proof.
    intros (V & P & I0) X. split; [|split].
    - intros a. rewrite V. symmetry. apply X. apply all_Q.
    - intros t. specialize (P t). destruct (at_ t) as [a|]; [|exact P]. destruct P as [P1 P2]. split; [|exact P2]. rewrite P1. symmetry. apply X. apply all_Q.
    - intros t q Hq N. rewrite (proj2 (X q Hq) t). now apply I0.
  Qed.
  Lemma hidden q x g y : asteps (B q) x g y -> g = [] -> Q q -> forall S at_ s, S q = x -> merged S at_ s -> exists s', asteps whole s [] s' /\ merged (put S q y) at_ s'.
  Proof.
    induction 1 as [x y V P|x g y e z A IH St]; intros E HQ S at_ s <- M.
    - exists s. split; [constructor; auto|]. apply (merged_ext S); [exact M|]. intros k _. destruct (path_dec k q) as [->|N]; [rewrite put_same; auto|rewrite put_other by exact N; auto].
    - apply app_eq_nil in E as [-> ->]. destruct (IH eq_refl HQ S at_ s eq_refl M) as (s1 & A1 & M1).
      rewrite <- (put_same S q y) in St. destruct (hidden1 _ at_ s1 q z HQ M1 St) as (s2 & A2 & M2). exists s2. split; [exact (as_snoc whole s [] s1 [] s2 A1 A2)|].
      apply (merged_ext _ _ _ _ M2). intros k _. destruct (path_dec k q) as [->|N]; [rewrite !put_same; auto|rewrite !put_other by exact N; auto].
  Qed.

  Lemma merge h : sequential h -> forall S, (forall q, Q q -> asteps (B q) (mk_astate (inits q) (fun _ => AIdle)) (part_of (mine q) h) (S q)) ->
    exists s, asteps whole (mk_astate init (fun _ => AIdle)) h s /\ merged S (after (fun _ => None) h) s.
  Proof.
    unfold sequential, part_of. induction h as [|e h IH] using rev_ind; intros SQ S A.
    - exists (mk_astate init (fun _ => AIdle)). split; [constructor; auto|].
      assert (X : forall q, Q q -> (forall a, avals (S q) a = inits q a) /\ forall t, aphases (S q) t = AIdle).
      { intros q Hq. specialize (A q Hq). cbn [part_from] in A. clear - A. remember (mk_astate (inits q) (fun _ => AIdle)) as x eqn:E.
        remember (@nil (event Op Res)) as g eqn:G. revert E G. induction A as [x y V P|x g y e z A IH St]; intros -> G; [auto|].
        apply app_eq_nil in G as [-> ->]. destruct (IH eq_refl eq_refl) as [_ I0]. inversion St. congruence. }
      split; [|split].
      + intros a. cbn [avals]. rewrite (proj1 (X (from a) (all_Q a))). symmetry. apply same_init.
      + intros t. reflexivity.
      + intros t q Hq _. now apply X.
    - apply seq_app in SQ as [SQ [F _]].
      assert (E : exists q, Q q /\ (part_from (mine q) (fun _ => None) (h ++ [e]) = part_from (mine q) (fun _ => None) h ++ [e]) /\
        (forall k, k <> q -> part_from (mine k) (fun _ => None) (h ++ [e]) = part_from (mine k) (fun _ => None) h) /\
        (match e with Call t a o => q = from a | Return t r => exists a, after (fun _ => None) h t = Some a /\ q = from a end)).
      { destruct e as [t a o|t r]; cbn [fine] in F.
        - exists (from a). split; [apply all_Q|]. split; [|split]; [| |reflexivity].
          + rewrite part_app. cbn [part_from]. now rewrite mine_self.
          + intros k N. rewrite part_app. cbn [part_from]. rewrite mine_false by exact N. now rewrite !app_nil_r.
        - destruct (after (fun _ => None) h t) as [a|] eqn:E; [|contradiction]. exists (from a). split; [apply all_Q|]. split; [|split]; [| |eauto].
          + rewrite part_app. cbn [part_from]. now rewrite E, mine_self.
          + intros k N. rewrite part_app. cbn [part_from]. rewrite E, mine_false by exact N. now rewrite !app_nil_r. }
      destruct E as (q & HQ & Eq & Eo & Et). pose proof (A q HQ) as Aq. rewrite Eq in Aq.
      destruct (asteps_snoc_inv _ _ _ _ Aq _ _ eq_refl) as (x1 & x2 & A1 & St & A2).
      destruct (IH SQ (put S q x1)) as (s & As & M).
      { intros k Hk. destruct (path_dec k q) as [->|N]; [rewrite put_same; exact A1|]. rewrite put_other by exact N. rewrite <- (Eo k N). now apply A. }
      assert (Step : exists s', astep whole s [e] s' /\ merged (put S q x2) (after (fun _ => None) (h ++ [e])) s').
      { set (at_ := after (fun _ => None) h) in *. assert (Ea : after (fun _ => None) (h ++ [e]) = moves at_ e) by (unfold after; rewrite fold_left_app; reflexivity). rewrite Ea.
        destruct M as (V & P & I0). destruct e as [t a o|t r]; cbn [fine] in F.
        - subst q. inversion St as [? ? ? ? ? H V2 HU| |]; subst; destruct HU as [U1 U2].
          exists (mk_astate (avals s) (fun u => if Nat.eqb u t then APending a o else aphases s u)). split; [|split; [|split]].
          + apply a_call; [specialize (P t); now rewrite F in P|reflexivity|]. split; cbn [aphases]; [now rewrite Nat.eqb_refl|]. intros y N. now rewrite (proj2 (Nat.eqb_neq y t) N).
          + intros y. cbn [avals]. rewrite V. destruct (path_dec (from y) (from a)) as [G|G]; [rewrite G, !put_same; now rewrite V2|now rewrite !put_other by exact G].
          + intros u. cbn [moves aphases]. destruct (Nat.eqb_spec u t) as [->|N].
            * rewrite put_same, U1. split; [reflexivity|]. intros a' o' E. now injection E as <- _.
            * specialize (P u). destruct (at_ u) as [a1|]; [|exact P]. destruct P as [P1 P2]. split; [|exact P2]. rewrite P1.
              destruct (path_dec (from a1) (from a)) as [G|G]; [rewrite G, !put_same; now rewrite U2|now rewrite !put_other by exact G].
          + intros u k Hk N. cbn [moves] in N. destruct (Nat.eqb_spec u t) as [->|M].
            * assert (G : k <> from a) by (intros ->; exact (N a eq_refl eq_refl)). rewrite put_other by exact G. rewrite <- (put_other S (from a) x1 k G). apply I0; [exact Hk|]. rewrite F. discriminate.
            * specialize (I0 u k Hk N). destruct (path_dec k (from a)) as [->|G]; [rewrite put_same in *; now rewrite U2|now rewrite put_other in * by exact G].
        - destruct Et as (a & Et & ->). inversion St as [| |? ? ? ? H V2 HU]; subst; destruct HU as [U1 U2].
          exists (mk_astate (avals s) (fun u => if Nat.eqb u t then AIdle else aphases s u)). split; [|split; [|split]].
          + apply a_return; [|reflexivity|].
            * specialize (P t). rewrite Et, put_same in P. destruct P as [P1 _]. now rewrite P1.
            * split; cbn [aphases]; [now rewrite Nat.eqb_refl|]. intros y N. now rewrite (proj2 (Nat.eqb_neq y t) N).
          + intros y. cbn [avals]. rewrite V. destruct (path_dec (from y) (from a)) as [G|G]; [rewrite G, !put_same; now rewrite V2|now rewrite !put_other by exact G].
          + intros u. cbn [moves aphases]. destruct (Nat.eqb_spec u t) as [->|N]; [reflexivity|].
            specialize (P u). destruct (at_ u) as [a1|]; [|exact P]. destruct P as [P1 P2]. split; [|exact P2]. rewrite P1.
            destruct (path_dec (from a1) (from a)) as [G|G]; [rewrite G, !put_same; now rewrite U2|now rewrite !put_other by exact G].
          + intros u k Hk N. cbn [moves] in N. destruct (Nat.eqb_spec u t) as [->|M].
            * destruct (path_dec k (from a)) as [->|G]; [rewrite put_same; exact U1|]. rewrite put_other by exact G. rewrite <- (put_other S (from a) x1 k G). apply I0; [exact Hk|].
              intros a1 E. rewrite Et in E. injection E as <-. auto.
            * specialize (I0 u k Hk N). destruct (path_dec k (from a)) as [->|G]; [rewrite put_same in *; now rewrite U2|now rewrite put_other in * by exact G]. }
      destruct Step as (s' & St' & M'). destruct (hidden q x2 [] (S q) A2 eq_refl HQ (put S q x2) _ s' (put_same S q x2) M') as (s2 & A3 & M2).
      exists s2. split.
      + rewrite <- (app_nil_r (h ++ [e])). apply (asteps_trans _ _ _ _ (as_snoc _ _ _ _ _ _ As St') _ _ A3).
      + apply (merged_ext _ _ _ _ M2). intros k _. destruct (path_dec k q) as [->|N]; [rewrite put_same; auto|rewrite !put_other by exact N; auto].
  Qed.
End Merge.
