(** * The SeqCst operations of a weak-memory execution and the order they force (proofs for C38)

    A log of the operations that have made their access, with the times of their fences and the timestamps
    of their accesses.  Abstract state: [M a ts] the value of the message, [W a] what the SeqCst fences
    know, [C t a] what thread [t] knows. *)
From Coq Require Import ZArith List Bool Lia PeanoNat Permutation.
From Verif Require Import Words Spec LinFacts ScOrder.
Import ListNotations.
Open Scope Z_scope.

Section Log.
  Variable ty : Z -> ity.
  Variable vars : Z -> Z.
  Variable P : Z -> bool.
  Local Notation item := (item op res).
  Local Notation orec := (orec op res).
  Record rec := mk_rec { r_o : orec; r_l : nat; r_ts : Z; r_w : bool; r_v : Z }.
  Local Notation rc r := (oc (r_o r)).
  Local Notation ra r := (oa (r_o r)).
  Inductive gph := Out | Called (c : nat) (a : Z) (o : op) | Fenced (c l : nat) (a : Z) (o : op) | Accd (r : rec) | Ended (r : rec).
  Definition gcall (g : gph) : option nat :=
    match g with Out => None | Called c _ _ | Fenced c _ _ _ => Some c | Accd r | Ended r => Some (rc r) end.
  Definition result_ok (M : Z -> Z -> option Z) (r : rec) : Prop :=
    let q := orr (r_o r) in let prev x := M (ra r) (r_ts r - 1) = Some x in
    match oo (r_o r) with
    | OLoad _ => r_w r = false /\ q = RVal (r_v r)
    | OStore v _ => r_w r = true /\ r_v r = v /\ q = RUnit
    | ORmw f _ => r_w r = true /\ exists x, prev x /\ q = RVal x /\ r_v r = spec_rmw (ty (ra r)) f x
    | OCas cu nw _ _ => (r_w r = true /\ r_v r = nw /\ prev cu /\ q = ROk cu) \/
                        (r_w r = false /\ r_v r <> cu /\ q = RErr (r_v r))
    end.
  Record LInv (its : list item) (G : nat -> gph) (log : list rec) (E : nat -> option nat)
      (M : Z -> Z -> option Z) (W : Z -> Z) (C : nat -> Z -> Z) : Prop := {
    l_wf : exists f, wfh its f /\ forall t, f t = gcall (G t);
    l_thr : forall t, match G t with
      | Out => True
      | Called c a o => P a = true /\ nth_error its c = Some (ICall t a o) /\ (c < length its)%nat /\ forall r, In r log -> rc r <> c
      | Fenced c l a o => P a = true /\ nth_error its c = Some (ICall t a o) /\ (c < l < length its)%nat /\ (forall r, In r log -> rc r <> c) /\
          (forall r, In r log -> r_l r <> l) /\ (forall u c' l' a' o', u <> t -> G u = Fenced c' l' a' o' -> l' <> l) /\
          (forall r e, In r log -> ra r = a -> E (rc r) = Some e -> (e < l)%nat -> r_ts r <= C t a)
      | Accd r => In r log /\ ot (r_o r) = t /\ E (rc r) = None /\ r_ts r <= C t (ra r)
      | Ended r => In r log /\ ot (r_o r) = t /\ exists e, E (rc r) = Some e
      end;
    l_rec : forall r, In r log -> P (ra r) = true /\ nth_error its (rc r) = Some (ICall (ot (r_o r)) (ra r) (oo (r_o r))) /\
      (rc r < r_l r < length its)%nat;
    l_E : forall c e, E c = Some e -> (e < length its)%nat /\ exists r, In r log /\ rc r = c;
    l_end : forall r e, In r log -> E (rc r) = Some e -> r_ts r <= W (ra r) /\ (r_l r < e)%nat;
    l_ret : forall m t c q, nth_error its m = Some (IRet t c q) -> exists r, In r log /\ rc r = c /\ orr (r_o r) = q /\
      exists e, E c = Some e /\ (e < m)%nat;
    l_ord : forall r b e, In r log -> In b log -> ra r = ra b -> E (rc b) = Some e -> (e < r_l r)%nat ->
      r_ts b <= r_ts r /\ (r_w r = true -> r_ts b < r_ts r);
    l_nodup : NoDup (map (fun r => rc r) log);
    l_times : forall r b, In r log -> In b log -> r_l r = r_l b -> r = b;
    l_mem : forall a ts x, P a = true -> M a ts = Some x -> (ts = 0 /\ x = vars a) \/
      exists r, In r log /\ ra r = a /\ r_w r = true /\ r_ts r = ts /\ r_v r = x;
    l_wr : forall r, In r log -> M (ra r) (r_ts r) = Some (r_v r) /\ 0 <= r_ts r /\ (r_w r = true -> 0 < r_ts r);
    l_uniq : forall r b, In r log -> In b log -> ra r = ra b -> r_w r = true -> r_w b = true -> r_ts r = r_ts b -> r = b;
    l_res : forall r, In r log -> result_ok M r }.

  Lemma nth_snoc {X} (l : list X) n x y : nth_error l n = Some x -> nth_error (l ++ [y]) n = Some x.
  Proof. intros H. rewrite nth_error_app1; [exact H|]. apply nth_error_Some. congruence. Qed.
  Lemma nth_snoc_inv {X} (l : list X) n x y : nth_error (l ++ [y]) n = Some x -> nth_error l n = Some x \/ (n = length l /\ x = y).
  Proof.
    intros H. destruct (Nat.lt_ge_cases n (length l)) as [L|L].
    - rewrite nth_error_app1 in H by exact L. auto.
    - rewrite nth_error_app2 in H by exact L. destruct (n - length l)%nat as [|k] eqn:Ek; cbn in H.
      + injection H as <-. right. split; [lia|reflexivity].
      + now destruct k.
  Qed.
  Lemma len_snoc {X} (l : list X) y : length (l ++ [y]) = S (length l).
  Proof. rewrite app_length. cbn. lia. Qed.
  Lemma result_mono (M M' : Z -> Z -> option Z) r : (forall ts x, M (ra r) ts = Some x -> M' (ra r) ts = Some x) -> result_ok M r -> result_ok M' r.
  Proof.
    unfold result_ok. intros H. destruct (oo (r_o r)); auto.
    - intros (A & x & B & D). split; [exact A|]. exists x. auto.
    - intros [(A & B & D & F)|A]; auto 6.
  Qed.

  (** One step that changes neither memory nor the log, with the thread's new phase given. *)
  Lemma step_gen its G log E M W C i g T E' M' W' C' f' :
    LInv its G log E M W C ->
    (forall a ts, P a = true -> M' a ts = M a ts) -> (forall a, W a <= W' a) -> (forall t a, C t a <= C' t a) ->
    (forall f, wfh its f -> (forall t, f t = gcall (G t)) -> wfh (its ++ [i]) (f' f)) ->
    (forall f, (forall t, f t = gcall (G t)) -> forall t, f' f t = gcall (updn G T g t)) ->
    (forall c e, E c = Some e -> E' c = Some e) ->
    (forall c e, E' c = Some e -> E c = Some e \/ (e = length its /\ exists r, In r log /\ rc r = c /\ r_ts r <= W' (ra r))) ->
    (forall t c q, i = IRet t c q -> exists r, In r log /\ rc r = c /\ orr (r_o r) = q /\ exists e, E c = Some e) ->
    (forall t r, t <> T -> G t = Accd r -> E' (rc r) = None) ->
    (match g with
      | Out => True
      | Called c a o => P a = true /\ c = length its /\ i = ICall T a o
      | Fenced c l a o => P a = true /\ nth_error its c = Some (ICall T a o) /\ (c < l)%nat /\ l = length its /\ (forall r, In r log -> rc r <> c) /\
          (forall r e, In r log -> ra r = a -> E (rc r) = Some e -> r_ts r <= C' T a)
      | Accd r => In r log /\ ot (r_o r) = T /\ E' (rc r) = None /\ r_ts r <= C' T (ra r)
      | Ended r => In r log /\ ot (r_o r) = T /\ exists e, E' (rc r) = Some e
      end) ->
    LInv (its ++ [i]) (updn G T g) log E' M' W' C'.
  Proof.
    intros [Lwf Lthr Lrec LE Lend Lret Lord Lnd Ltm Lmem Lwr Luq Lres] HM HW HC Hwf Hg HE1 HE2 Hr HA Hnew.
    constructor.
    - destruct Lwf as (f & F1 & F2). exists (f' f). split; [auto|]. apply Hg, F2.
    - intros t. rewrite len_snoc. destruct (Nat.eq_dec t T) as [->|N].
      + rewrite updn_same. destruct g as [|c a o|c l a o|r|r]; auto.
        * destruct Hnew as (Pa & -> & ->). split; [exact Pa|]. split; [rewrite nth_error_app2, Nat.sub_diag by lia; reflexivity|].
          split; [lia|]. intros r Hr' Ec. destruct (Lrec r Hr') as (_ & _ & L). lia.
        * destruct Hnew as (Pa & En & L & -> & Nc & V). split; [exact Pa|]. split; [now apply nth_snoc|]. split; [lia|]. split; [exact Nc|].
          split; [intros r Hr' El; destruct (Lrec r Hr') as (_ & _ & L'); lia|]. split.
          { intros u c' l' a' o' Nu Gu El. rewrite updn_other in Gu by exact Nu. specialize (Lthr u). rewrite Gu in Lthr. destruct Lthr as (_ & _ & L' & _). lia. }
          intros r e Hr' Ea Ee Le. destruct (HE2 _ _ Ee) as [Ee'|(-> & _)]; [eauto|lia].
      + rewrite updn_other by exact N. pose proof (Lthr t) as H. destruct (G t) as [|c a o|c l a o|r|r] eqn:Gt; auto.
        * destruct H as (Pa & En & L & Nc). split; [exact Pa|]. split; [now apply nth_snoc|]. split; [lia|exact Nc].
        * destruct H as (Pa & En & L & Nc & Nl & Nu & V). split; [exact Pa|]. split; [now apply nth_snoc|]. split; [lia|]. split; [exact Nc|]. split; [exact Nl|].
          split.
          { intros u c' l' a' o' Nut Gu. destruct (Nat.eq_dec u T) as [->|NuT].
            - rewrite updn_same in Gu. rewrite Gu in Hnew. destruct Hnew as (_ & _ & _ & -> & _). lia.
            - rewrite updn_other in Gu by exact NuT. eapply Nu; eauto. }
          intros r e Hr' Ea Ee Le. destruct (HE2 _ _ Ee) as [Ee'|(-> & _)]; [|lia].
          specialize (V r e Hr' Ea Ee' Le). specialize (HC t a). lia.
        * destruct H as (H1 & H2 & H3 & H4). repeat split; auto; [eapply HA; eauto|]. specialize (HC t (ra r)). lia.
        * destruct H as (H1 & H2 & e & H3). repeat split; auto. exists e. auto.
    - intros r Hr'. destruct (Lrec r Hr') as (A & B & D). rewrite len_snoc. split; [exact A|]. split; [now apply nth_snoc|lia].
    - intros c e Ec. rewrite len_snoc. destruct (HE2 _ _ Ec) as [Ec'|(-> & r & A & B & _)].
      + destruct (LE _ _ Ec') as [A B]. split; [lia|exact B].
      + split; [lia|eauto].
    - intros r e Hr' Ee. destruct (HE2 _ _ Ee) as [Ee'|(-> & b & Hb & Eb & L)].
      + specialize (Lend r e Hr' Ee'). specialize (HW (ra r)). lia.
      + assert (b = r) as ->; [|split; [exact L|apply Lrec, Hr']]. clear -Lnd Hb Hr' Eb. induction log as [|x l IH]; [easy|]. cbn in Lnd. inversion Lnd; subst.
        destruct Hb as [->|Hb], Hr' as [->|Hr']; auto.
        * exfalso. apply H1. rewrite Eb. apply (in_map (fun r => rc r)). exact Hr'.
        * exfalso. apply H1. rewrite <- Eb. apply (in_map (fun r => rc r)). exact Hb.
    - intros m t c q En. apply nth_snoc_inv in En as [En|[-> Ei]].
      + destruct (Lret _ _ _ _ En) as (r & A & B & D & e & F & L). exists r. repeat split; auto. exists e. auto.
      + symmetry in Ei. destruct (Hr _ _ _ Ei) as (r & A & B & D & e & F). exists r. repeat split; auto. exists e. split; [auto|]. apply LE in F. lia.
    - intros r b e Hr' Hb Ea Ee Le. destruct (HE2 _ _ Ee) as [Ee'|(-> & _)]; [eauto|]. destruct (Lrec r Hr') as (_ & _ & L). lia.
    - exact Lnd.
    - exact Ltm.
    - intros a ts x Pa Ex. rewrite HM in Ex by exact Pa. auto.
    - intros r Hr'. destruct (Lrec r Hr') as (Pa & _). rewrite HM by exact Pa. auto.
    - exact Luq.
    - intros r Hr'. destruct (Lrec r Hr') as (Pa & _). eapply result_mono; [|apply Lres, Hr']. intros ts x. rewrite HM by exact Pa. auto.
  Qed.

  Lemma updn_id {B} (f : nat -> B) t : forall u, updn f t (f t) u = f u.
  Proof. intros u. unfold updn. destruct (Nat.eqb_spec u t); congruence. Qed.

  (** The access. *)
  Lemma step_acc its G log E M W C T c l a o q ts w v M' C' :
    LInv its G log E M W C -> G T = Fenced c l a o ->
    let r := mk_rec (mk_orec c T a o q) l ts w v in
    (forall t b, C t b <= C' t b) -> ts <= C' T a ->
    C T a <= ts -> (w = true -> C T a < ts) -> 0 <= C T a ->
    (forall b u, P b = true -> M' b u = if w && (b =? a) && (u =? ts) then Some v else M b u) ->
    (if w then M a ts = None else M a ts = Some v) ->
    result_ok M r ->
    LInv (its ++ [ISkip]) (updn G T (Accd r)) (log ++ [r]) E M' W C'.
  Proof.
    intros [Lwf Lthr Lrec LE Lend Lret Lord Lnd Ltm Lmem Lwr Luq Lres] GT r HC HC' Lts Lw L0 HM Hm Hres.
    pose proof (Lthr T) as H. rewrite GT in H. destruct H as (Pa & En & L & Nc & Nl & Nu & V).
    assert (Er : E c = None).
    { destruct (E c) as [e|] eqn:Ec; [|reflexivity]. destruct (LE _ _ Ec) as (_ & b & Hb & Eb). now apply Nc in Hb. }
    assert (MM : forall b u x, P b = true -> M b u = Some x -> M' b u = Some x).
    { intros b u x Pb Ex. rewrite HM by exact Pb. destruct (w && (b =? a) && (u =? ts)) eqn:Q; [|exact Ex].
      apply andb_true_iff in Q as [Q Qu]. apply andb_true_iff in Q as [Qw Qb]. apply Z.eqb_eq in Qu, Qb. subst b u. rewrite Qw in Hm. congruence. }
    assert (Mr : M' a ts = Some v).
    { rewrite HM by exact Pa. rewrite !Z.eqb_refl. destruct w; cbn; auto. }
    assert (In_ : forall b, In b (log ++ [r]) -> In b log \/ b = r) by (intros b Hb; apply in_app_or in Hb as [Hb|[<-|[]]]; auto).
    assert (Inl : forall b, In b log -> In b (log ++ [r])) by (intros b Hb; apply in_or_app; auto).
    constructor.
    - destruct Lwf as (f & F1 & F2). exists f. split; [now constructor|]. intros t. rewrite F2. destruct (Nat.eq_dec t T) as [->|N].
      + now rewrite updn_same, GT.
      + now rewrite updn_other.
    - intros t. rewrite len_snoc. destruct (Nat.eq_dec t T) as [->|N].
      + rewrite updn_same. split; [apply in_or_app; right; now left|]. repeat split; [exact Er|exact HC'].
      + rewrite updn_other by exact N. pose proof (Lthr t) as H. destruct (G t) as [|c' a' o'|c' l' a' o'|b|b] eqn:Gt; auto.
        * destruct H as (Pa' & En' & L' & Nc'). split; [exact Pa'|]. split; [now apply nth_snoc|]. split; [lia|].
          intros b Hb. apply In_ in Hb as [Hb| ->]; [auto|]. cbn. intros ->. congruence.
        * destruct H as (Pa' & En' & L' & Nc' & Nl' & Nu' & V'). split; [exact Pa'|]. split; [now apply nth_snoc|]. split; [lia|].
          split; [intros b Hb; apply In_ in Hb as [Hb| ->]; [auto|]; cbn; intros ->; congruence|].
          split; [intros b Hb; apply In_ in Hb as [Hb| ->]; [auto|]; cbn; apply (Nu' T c l a o); [auto|exact GT]|].
          split.
          { intros u c2 l2 a2 o2 Nut Gu. destruct (Nat.eq_dec u T) as [->|NuT]; [rewrite updn_same in Gu; easy|].
            rewrite updn_other in Gu by exact NuT. eapply Nu'; eauto. }
          intros b e Hb Ea Ee Le. apply In_ in Hb as [Hb| ->]; [|cbn in Ee; congruence].
          specialize (V' b e Hb Ea Ee Le). specialize (HC t a'). lia.
        * destruct H as (H1 & H2 & H3 & H4). repeat split; auto. specialize (HC t (ra b)). lia.
        * destruct H as (H1 & H2 & H3). repeat split; auto.
    - intros b Hb. rewrite len_snoc. apply In_ in Hb as [Hb| ->].
      + destruct (Lrec b Hb) as (A & B & D). split; [exact A|]. split; [now apply nth_snoc|lia].
      + cbn. split; [exact Pa|]. split; [now apply nth_snoc|lia].
    - intros c' e Ec. rewrite len_snoc. destruct (LE _ _ Ec) as (A & b & B & D). split; [lia|]. exists b. auto.
    - intros b e Hb Ee. apply In_ in Hb as [Hb| ->]; [eauto|]. cbn in Ee. congruence.
    - intros m t c' q' Em. apply nth_snoc_inv in Em as [Em|[_ Em]]; [|easy].
      destruct (Lret _ _ _ _ Em) as (b & A & B). exists b. auto.
    - intros b1 b2 e H1 H2 Ea Ee Le. apply In_ in H2 as [H2| ->]; [|cbn in Ee; congruence].
      apply In_ in H1 as [H1| ->]; [eauto|]. cbn in *. specialize (V b2 e H2 (eq_sym Ea) Ee Le). split; [lia|]. intros Hw. specialize (Lw Hw). lia.
    - rewrite map_app. apply Permutation_NoDup with (l := rc r :: map (fun r => rc r) log).
      + cbn. rewrite <- Permutation_cons_append. reflexivity.
      + constructor; [|exact Lnd]. intros Hi. apply in_map_iff in Hi as (b & Eb & Hb). now apply Nc in Hb.
    - intros b1 b2 H1 H2 El. apply In_ in H1 as [H1| ->]; apply In_ in H2 as [H2| ->]; auto; cbn in El.
      + now apply Nl in H1.
      + symmetry in El. now apply Nl in H2.
    - intros b u x Pb Ex. rewrite HM in Ex by exact Pb. destruct (w && (b =? a) && (u =? ts)) eqn:Q.
      + apply andb_true_iff in Q as [Q Qu]. apply andb_true_iff in Q as [Qw Qb]. apply Z.eqb_eq in Qu, Qb. subst b u. injection Ex as <-.
        right. exists r. split; [apply in_or_app; right; now left|]. repeat split; auto.
      + destruct (Lmem b u x Pb Ex) as [H|(b' & A & B)]; [auto|]. right. exists b'. auto.
    - intros b Hb. apply In_ in Hb as [Hb| ->].
      + destruct (Lwr b Hb) as (A & B). split; [|exact B]. apply MM; [apply Lrec, Hb|exact A].
      + cbn. split; [exact Mr|]. split; [lia|]. intros Hw. specialize (Lw Hw). lia.
    - assert (K : forall b, In b log -> ra b = a -> r_w b = true -> w = true -> r_ts b = ts -> False).
      { intros b Hb Eb _ Hw Et. destruct (Lwr b Hb) as (A & _). rewrite Eb, Et in A. rewrite Hw in Hm. congruence. }
      intros b1 b2 H1 H2 Ea W1 W2 Et. apply In_ in H1 as [H1| ->]; apply In_ in H2 as [H2| ->]; auto; cbn in *; exfalso; eauto.
    - intros b Hb. apply In_ in Hb as [Hb| ->].
      + eapply result_mono; [|apply Lres, Hb]. intros u x. apply MM. apply Lrec, Hb.
      + eapply result_mono; [|exact Hres]. intros u x. apply MM. exact Pa.
  Qed.

  (** ** The order *)
  Section Final.
    Variables (its : list item) (G : nat -> gph) (log : list rec) (E : nat -> option nat)
      (M : Z -> Z -> option Z) (W : Z -> Z) (C : nat -> Z -> Z).
    Hypothesis H : LInv its G log E M W C.
    Variable objs : Z -> option ity.
    Hypothesis Pobj : forall a, P a = true -> objs a <> None.
    Hypothesis no_panic : forall n t a o x, nth_error its n = Some (ICall t a o) -> snd (spec_op (ty a) o x) <> RPanic.

    Definition below (b r : rec) : bool :=
      (ra b =? ra r) && ((r_ts b <? r_ts r) || ((r_ts b =? r_ts r) && r_w b && negb (r_w r))).
    Definition key (r : rec) : nat := fold_right Nat.max (r_l r) (map r_l (filter (fun b => below b r) log)).
    Lemma fold_max n l : (n <= fold_right Nat.max n l)%nat /\ (forall x, In x l -> (x <= fold_right Nat.max n l)%nat) /\
      (fold_right Nat.max n l = n \/ In (fold_right Nat.max n l) l).
    Proof.
      induction l as [|y l (I1 & I2 & I3)]; cbn; [repeat split; auto; easy|]. split; [lia|]. split.
      - intros x [<-|Hx]; [lia|]. specialize (I2 x Hx). lia.
      - destruct (Nat.max_spec y (fold_right Nat.max n l)) as [[_ ->]|[_ ->]]; [|auto]. destruct I3; auto.
    Qed.
    Lemma key_own r : (r_l r <= key r)%nat.
    Proof. exact (proj1 (fold_max _ _)). Qed.
    Lemma key_below b r : In b log -> below b r = true -> (r_l b <= key r)%nat.
    Proof. intros Hb B. apply (proj1 (proj2 (fold_max _ _))). apply in_map. apply filter_In. auto. Qed.
    Lemma key_cases r : key r = r_l r \/ exists b, In b log /\ below b r = true /\ key r = r_l b.
    Proof.
      unfold key. destruct (fold_max (r_l r) (map r_l (filter (fun b => below b r) log))) as (_ & _ & [K|K]); [auto|].
      right. apply in_map_iff in K as (b & Eb & Hb). apply filter_In in Hb as [Hb B]. eauto.
    Qed.
    Lemma below_spec b r : below b r = true <-> ra b = ra r /\ (r_ts b < r_ts r \/ (r_ts b = r_ts r /\ r_w b = true /\ r_w r = false)).
    Proof.
      unfold below. rewrite andb_true_iff, orb_true_iff, !andb_true_iff, negb_true_iff, Z.eqb_eq, Z.ltb_lt, Z.eqb_eq. tauto.
    Qed.
    Lemma below_trans a b c : below a b = true -> below b c = true -> below a c = true.
    Proof.
      rewrite !below_spec. intros (E1 & H1) (E2 & H2). split; [congruence|].
      destruct H1 as [H1|(H1 & H1' & H1'')], H2 as [H2|(H2 & H2' & H2'')]; try (left; lia). congruence.
    Qed.
    Lemma key_mono b r : In b log -> below b r = true -> (key b <= key r)%nat.
    Proof.
      intros Hb B. destruct (key_cases b) as [->|(x & Hx & Bx & ->)]; [now apply key_below|].
      apply key_below; [exact Hx|]. eapply below_trans; eauto.
    Qed.
    Definition leb (x y : rec) : bool :=
      Nat.ltb (key x) (key y) || (Nat.eqb (key x) (key y) && ((r_ts x <? r_ts y) || ((r_ts x =? r_ts y) && (r_w x || negb (r_w y))))).
    Lemma leb_spec x y : leb x y = true <-> (key x < key y)%nat \/ (key x = key y /\ (r_ts x < r_ts y \/ (r_ts x = r_ts y /\ (r_w y = true -> r_w x = true)))).
    Proof.
      unfold leb. rewrite orb_true_iff, andb_true_iff, orb_true_iff, andb_true_iff, orb_true_iff, negb_true_iff, Nat.ltb_lt, Nat.eqb_eq, Z.ltb_lt, Z.eqb_eq.
      destruct (r_w x), (r_w y); intuition congruence.
    Qed.
    Lemma leb_total x y : leb x y = false -> leb y x = true.
    Proof.
      intros Q. apply leb_spec. destruct (Nat.lt_trichotomy (key x) (key y)) as [L|[L|L]]; [|right; split; [auto|]|auto].
      - exfalso. assert (leb x y = true) by (apply leb_spec; auto). congruence.
      - destruct (Z.lt_trichotomy (r_ts x) (r_ts y)) as [K|[K|K]]; auto.
        + exfalso. assert (leb x y = true) by (apply leb_spec; auto). congruence.
        + right. split; [auto|]. intros Wx. destruct (r_w y) eqn:Wy; [reflexivity|]. exfalso.
          assert (leb x y = true) by (apply leb_spec; right; split; [exact L|right; split; [exact K|congruence]]). congruence.
    Qed.
    Lemma leb_trans x y z : leb x y = true -> leb y z = true -> leb x z = true.
    Proof.
      rewrite !leb_spec. intros A B. destruct A as [A|(A & A')], B as [B|(B & B')]; try (left; lia).
      right. split; [congruence|]. destruct A' as [A'|(A' & A'')], B' as [B'|(B' & B'')]; try (left; lia). right. split; [congruence|auto].
    Qed.
    (** Within one variable the order follows the timestamps. *)
    Lemma leb_ts x y : In x log -> In y log -> ra x = ra y -> leb x y = true -> r_ts x <= r_ts y.
    Proof.
      intros Hx Hy Ea L. apply Z.nlt_ge. intros Lt. assert (B : below y x = true) by (apply below_spec; auto).
      apply key_mono in B; [|exact Hy]. apply leb_spec in L. lia.
    Qed.
    Definition L := isort leb log.
    Lemma L_in r : In r L <-> In r log.
    Proof. split; apply Permutation_in; [apply Permutation_sym|]; apply isort_perm. Qed.
    Lemma L_sorted : sorted leb L.
    Proof. apply isort_sorted; [exact leb_total|exact leb_trans]. Qed.
    Lemma L_nodup : NoDup (map (fun r => rc r) L).
    Proof. eapply Permutation_NoDup; [|apply (l_nodup _ _ _ _ _ _ _ H)]. apply Permutation_map, isort_perm. Qed.
    Lemma below_before b r l1 l2 : L = l1 ++ r :: l2 -> In b log -> below b r = true -> In b l1.
    Proof.
      intros EL Hb B. pose proof (proj2 (L_in b) Hb) as Hi. rewrite EL in Hi. apply in_app_or in Hi as [Hi|[->|Hi]]; [exact Hi| |].
      - apply below_spec in B as (_ & [B|(_ & B1 & B2)]); [lia|congruence].
      - exfalso. pose proof L_sorted as S. rewrite EL in S. apply sorted_app in S as [_ S]. specialize (S b Hi).
        apply leb_spec in S. pose proof (key_mono b r Hb B) as K. apply below_spec in B as (_ & B).
        destruct S as [S|(S1 & S2)]; [lia|]. destruct B as [B|(B1 & B2 & B3)], S2 as [S2|(S2 & S3)]; try lia. specialize (S3 B2). congruence.
    Qed.
    Definition sem (a : Z) (o : op) (x : Z) (out : Z * res) : Prop := exists t, objs a = Some t /\ ty a = t /\ out = spec_op t o x.
    Hypothesis ty_objs : forall a t, objs a = Some t -> ty a = t.

    (** [v]: the values after the operations [l1] *)
    Definition St (l1 : list rec) (v : Z -> Z) : Prop := forall a, P a = true -> exists ts0,
      ((ts0 = 0 /\ v a = vars a) \/ exists b, In b l1 /\ ra b = a /\ r_w b = true /\ r_ts b = ts0 /\ r_v b = v a) /\
      (forall b, In b l1 -> ra b = a -> r_w b = true -> r_ts b <= ts0).
    Lemma cur_val l1 v a ts1 x : St l1 v -> (forall b, In b l1 -> In b log) -> P a = true -> M a ts1 = Some x ->
      (forall b, In b l1 -> ra b = a -> r_w b = true -> r_ts b <= ts1) ->
      (forall b, In b log -> ra b = a -> r_w b = true -> r_ts b = ts1 -> In b l1) -> v a = x.
    Proof.
      intros S Sub Pa Ex U V. destruct (S a Pa) as (ts0 & A & B). destruct (l_mem _ _ _ _ _ _ _ H a ts1 x Pa Ex) as [(-> & ->)|(w & Hw & Ew & Ww & Tw & Vw)].
      - destruct A as [(_ & A)|(b & Hb & Eb & Wb & Tb & Vb)]; [exact A|]. specialize (U b Hb Eb Wb).
        destruct (l_wr _ _ _ _ _ _ _ H b (Sub b Hb)) as (_ & _ & K). specialize (K Wb). lia.
      - pose proof (V w Hw Ew Ww Tw) as Hl. specialize (B w Hl Ew Ww).
        destruct (l_wr _ _ _ _ _ _ _ H w Hw) as (_ & _ & K). specialize (K Ww).
        destruct A as [(-> & _)|(b & Hb & Eb & Wb & Tb & Vb)]; [lia|].
        assert (b = w) as ->; [|congruence]. apply (l_uniq _ _ _ _ _ _ _ H); auto; [congruence|]. specialize (U b Hb Eb Wb). lia.
    Qed.
    Lemma exec_from l2 : forall l1 v, L = l1 ++ l2 -> St l1 v -> exists vF, exec sem v (map r_o l2) vF.
    Proof.
      induction l2 as [|r l2 IH]; intros l1 v EL S; [exists v; constructor|].
      assert (Hr : In r log) by (apply L_in; rewrite EL; apply in_or_app; right; now left).
      assert (Sub : forall b, In b l1 -> In b log) by (intros b Hb; apply L_in; rewrite EL; apply in_or_app; auto).
      pose proof L_sorted as So. rewrite EL in So. apply sorted_app in So as [So _].
      destruct (l_rec _ _ _ _ _ _ _ H r Hr) as (Pa & En & _).
      assert (Ub : forall b, In b l1 -> ra b = ra r -> r_ts b <= r_ts r) by (intros b Hb Eb; apply leb_ts; auto).
      assert (Nr : ~ In r l1).
      { intros Hi. pose proof L_nodup as ND. rewrite EL, map_app in ND. cbn in ND. apply NoDup_remove_2 in ND. apply ND.
        apply in_or_app. left. apply (in_map (fun r => rc r)). exact Hi. }
      assert (Us : forall b, In b l1 -> ra b = ra r -> r_w b = true -> r_w r = true -> r_ts b <= r_ts r - 1).
      { intros b Hb Eb Wb Wr. specialize (Ub b Hb Eb). destruct (Z.eq_dec (r_ts b) (r_ts r)) as [Et|]; [|lia].
        exfalso. apply Nr. replace r with b; [exact Hb|]. apply (l_uniq _ _ _ _ _ _ _ H); auto. }
      assert (Rd : r_w r = false -> v (ra r) = r_v r).
      { intros Wr. apply (cur_val l1 v (ra r) (r_ts r)); auto.
        - apply (l_wr _ _ _ _ _ _ _ H r Hr).
        - intros b Hb Eb Wb Tb. apply (below_before b r l1 l2 EL Hb). apply below_spec. auto. }
      assert (Pv : forall x, r_w r = true -> M (ra r) (r_ts r - 1) = Some x -> v (ra r) = x).
      { intros x Wr Ex. apply (cur_val l1 v (ra r) (r_ts r - 1)); auto.
        intros b Hb Eb Wb Tb. apply (below_before b r l1 l2 EL Hb). apply below_spec. split; [exact Eb|left; lia]. }
      set (v' := updz v (ra r) (r_v r)).
      assert (S' : St (l1 ++ [r]) v').
      { intros a Qa. destruct (S a Qa) as (ts0 & A & B). destruct (Z.eq_dec a (ra r)) as [->|Na].
        - assert (Ev : v' (ra r) = r_v r) by (unfold v', updz; now rewrite Z.eqb_refl). destruct (r_w r) eqn:Wr.
          + exists (r_ts r). split.
            * right. exists r. repeat split; auto. apply in_or_app. right. now left.
            * intros b Hb Eb Wb. apply in_app_or in Hb as [Hb|[->|[]]]; [auto|lia].
          + exists ts0. rewrite Ev, <- (Rd eq_refl). split.
            * destruct A as [A|(b & Hb & A)]; [auto|]. right. exists b. split; [apply in_or_app; auto|exact A].
            * intros b Hb Eb Wb. apply in_app_or in Hb as [Hb|[<-|[]]]; [auto|congruence].
        - assert (Ev : v' a = v a) by (unfold v', updz; destruct (Z.eqb_spec a (ra r)); congruence). rewrite Ev. exists ts0. split.
          + destruct A as [A|(b & Hb & A)]; [auto|]. right. exists b. split; [apply in_or_app; auto|exact A].
          + intros b Hb Eb Wb. apply in_app_or in Hb as [Hb|[<-|[]]]; [auto|congruence]. }
      destruct (IH (l1 ++ [r]) v') as (vF & X); [now rewrite <- app_assoc|exact S'|].
      exists vF. cbn [map]. apply ex_cons with (x := r_v r); [|exact X].
      destruct (objs (ra r)) as [t|] eqn:Eo; [|exfalso; exact (Pobj _ Pa Eo)]. pose proof (ty_objs _ _ Eo) as Et.
      exists t. split; [exact Eo|]. split; [exact Et|].
      pose proof (l_res _ _ _ _ _ _ _ H r Hr) as R. unfold result_ok in R.
      pose proof (no_panic _ _ _ _ (v (ra r)) En) as NP. rewrite Et in NP, R.
      destruct (oo (r_o r)) as [ord|y ord|f ord|cu nw su fa].
      + destruct R as (Wr & ->). rewrite (Rd Wr) in NP |- *. destruct ord; cbn in *; congruence.
      + destruct R as (Wr & -> & ->). destruct ord; cbn in *; congruence.
      + destruct R as (Wr & x & Ex & -> & ->). rewrite (Pv x Wr Ex) in NP |- *. reflexivity.
      + destruct R as [(Wr & -> & Ex & ->)|(Wr & Ne & ->)].
        * rewrite (Pv cu Wr Ex) in NP |- *. destruct fa; cbn in *; rewrite ?Z.eqb_refl in *; congruence.
        * rewrite (Rd Wr) in NP |- *. destruct fa; cbn in *; destruct (Z.eqb_spec (r_v r) cu); congruence.
    Qed.
    Lemma split_map {X Y} (g : X -> Y) l : forall l1 p l2, map g l = l1 ++ p :: l2 -> exists m1 r m2, l = m1 ++ r :: m2 /\ l1 = map g m1 /\ p = g r.
    Proof.
      induction l as [|x l IH]; intros l1 p l2 Q; cbn in Q; [now destruct l1|]. destruct l1 as [|y l1]; cbn in Q; injection Q as Q1 Q2.
      - exists [], x, l. auto.
      - destruct (IH _ _ _ Q2) as (m1 & r & m2 & -> & -> & ->). exists (x :: m1), r, m2. subst y. auto.
    Qed.
    Theorem log_linearizable : linearizable sem vars (flat_map ev_of its).
    Proof.
      destruct (l_wf _ _ _ _ _ _ _ H) as (f & F & _).
      destruct (exec_from L [] vars eq_refl) as (vF & X).
      { intros a Pa. exists 0. split; [auto|]. easy. }
      apply (order_linearizable sem vars its (map r_o L) vF) with (f := f); auto.
      - intros p Hp. apply in_map_iff in Hp as (r & <- & Hr). apply (l_rec _ _ _ _ _ _ _ H). now apply L_in.
      - rewrite map_map. apply L_nodup.
      - intros n t c q En. destruct (l_ret _ _ _ _ _ _ _ H _ _ _ _ En) as (r & Hr & A & B & _). exists (r_o r). split; [|auto].
        apply in_map. now apply L_in.
      - intros l1 p l2 n t q EL En p' Hp'. apply split_map in EL as (m1 & r & m2 & EL & -> & ->).
        apply in_map_iff in Hp' as (b & <- & Hb).
        pose proof L_sorted as So. rewrite EL in So. apply sorted_app in So as [So _]. specialize (So b Hb).
        assert (Hr : In r log) by (apply L_in; rewrite EL; apply in_or_app; right; now left).
        assert (Hb' : In b log) by (apply L_in; rewrite EL; apply in_or_app; auto).
        destruct (l_ret _ _ _ _ _ _ _ H _ _ _ _ En) as (_ & _ & _ & _ & e & Ee & Le).
        destruct (l_end _ _ _ _ _ _ _ H r e Hr Ee) as (_ & Lr). destruct (l_rec _ _ _ _ _ _ _ H b Hb') as (_ & _ & Lb).
        pose proof (key_own b) as Kb. apply Nat.nle_gt. intros Ln.
        assert (K : (key b <= key r)%nat) by (apply leb_spec in So; lia).
        destruct (key_cases r) as [Kr|(x & Hx & Bx & Kr)]; [lia|].
        assert (e < r_l x)%nat as Lx by lia. apply below_spec in Bx as (Ea & Bx).
        destruct (l_ord _ _ _ _ _ _ _ H x r e Hx Hr Ea Ee Lx) as (O1 & O2). destruct Bx as [Bx|(Bx & Bw & _)]; [lia|]. specialize (O2 Bw). lia.
    Qed.
  End Final.
End Log.
