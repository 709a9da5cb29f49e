(** Deadlock freedom with a bound: in a fair execution of the lock-based fallback some call returns every so many rounds. *)
From Coq Require Import ZArith Lia Bool List PeanoNat.
From Verif Require Import Words Spec WordsFacts LinFacts OrderingModel FallbackModel FallbackFacts FallbackProofs FallbackStruct
  FallbackProgress.
Import ListNotations.
Open Scope Z_scope.

Section Fair.
  Variable c : config.

  (** A round: a piece of the schedule in which every thread that is inside a call takes at least one step. *)
  Definition round (s : state) (ls : list label) : Prop :=
    forall t, pcs s t <> Idle -> exists l, In l ls /\ tid l = t.
  (** [rounds s rs s' h]: [rs] is a succession of rounds leading from [s] to [s'] with history [h]. *)
  Fixpoint rounds (s : state) (rs : list (list label)) (s' : state) (h : list (event op res)) : Prop :=
    match rs with
    | [] => s' = s /\ h = []
    | ls :: rs' => round s ls /\ exists s1 h1 h2, run c s ls = Some (s1, h1) /\ rounds s1 rs' s' h2 /\ h = h1 ++ h2
    end.

  (** inside the critical section, or about to return *)
  Definition committed (p : pc) : Prop := (exists k, holder p k) \/ exists r, p = Fin r.
  Lemma committed_not_idle p : committed p -> p <> Idle.
  Proof. intros [(k & H)|(r & ->)] Q; [now rewrite Q in H | discriminate]. Qed.

  Lemma step_eq s l : pcs s (tid l) <> Idle -> step c s l = step c s (solo (tid l)).
  Proof. intros H. exact (step_call_irrelevant c s (tid l) l eq_refl H). Qed.

  (** its own step: it returns, or stays committed, closer to the end *)
  Lemma committed_step s l s' e : SInv c s -> step c s l = Some (s', e) -> committed (pcs s (tid l)) ->
    (exists r, In (Return (tid l) r) e) \/
    (committed (pcs s' (tid l)) /\ (todo c (pcs s' (tid l)) < todo c (pcs s (tid l)))%nat).
  Proof.
    intros I ST C. pose proof (committed_not_idle _ C) as NI.
    assert (TD : (todo c (pcs s' (tid l)) < todo c (pcs s (tid l)))%nat).
    { destruct (unblocked_step c s (tid l) I NI) as (s1 & e1 & ST1 & L & _).
      - destruct C as [(k & H)|(r & Q)].
        + left. destruct (holder_pc_obj _ _ H) as (a & o & -> & ->). exact H.
        + right. rewrite Q. discriminate.
      - rewrite step_eq in ST by exact NI. rewrite ST in ST1. injection ST1 as <- <-. exact L. }
    revert ST. unfold step. destruct (pcs s (tid l)) eqn:Ep; destruct C as [(k & H)|(r0 & Q)]; try discriminate Q; try (destruct H; fail);
      intros ST; repeat match type of ST with
      | context [match ?d with _ => _ end] => destruct d; try discriminate ST
      end; injection ST as <- <-; cbn [go pcs] in *; rewrite set_n_same in *;
      try (right; split; [left; exists k; exact H | exact TD]).
    - right. split; [right; eauto | exact TD].
    - right. split; [right; eauto | exact TD].
    - left. eexists. now left.
  Qed.

  Lemma own_cons t l ls : own_steps t (l :: ls) = ((if Nat.eqb (tid l) t then 1 else 0) + own_steps t ls)%nat.
  Proof. unfold own_steps. cbn [filter]. now destruct (Nat.eqb (tid l) t). Qed.
  Lemma own_in t ls l : In l ls -> tid l = t -> (1 <= own_steps t ls)%nat.
  Proof.
    induction ls as [|l' ls IH]; [intros []|]. intros [->|Hi] T; rewrite own_cons.
    - rewrite T, Nat.eqb_refl. lia.
    - specialize (IH Hi T). lia.
  Qed.

  Lemma committed_run ls : forall s s' h t, SInv c s -> run c s ls = Some (s', h) -> committed (pcs s t) ->
    (exists r, In (Return t r) h) \/
    (committed (pcs s' t) /\ (todo c (pcs s' t) + own_steps t ls <= todo c (pcs s t))%nat).
  Proof.
    induction ls as [|l ls IH]; intros s s' h t I; cbn [run].
    - intros [= <- <-] C. right. split; [exact C|]. cbn. lia.
    - destruct (step c s l) as [[s1 e]|] eqn:E; [|discriminate].
      destruct (run c s1 ls) as [[s2 es]|] eqn:E2; [|discriminate]. intros [= <- <-] C. rewrite own_cons.
      assert (I1 : SInv c s1) by exact (SInv_step _ _ _ _ _ I E).
      destruct (Nat.eqb_spec (tid l) t) as [T|T].
      + subst t. destruct (committed_step _ _ _ _ I E C) as [(r & Hr)|[C1 L]].
        * left. exists r. apply in_or_app. now left.
        * destruct (IH _ _ _ _ I1 E2 C1) as [(r & Hr)|[C2 L2]]; [left; exists r; apply in_or_app; now right|].
          right. split; [exact C2 | lia].
      + rewrite <- (step_other c _ _ _ _ t E T) in C |- *.
        destruct (IH _ _ _ _ I1 E2 C) as [(r & Hr)|[C2 L2]]; [left; exists r; apply in_or_app; now right|].
        right. split; [exact C2 | lia].
  Qed.

  (** a pending thread gets closer to the end with each step unless somebody is committed *)
  Lemma pending_run ls : forall s s' h t, SInv c s -> run c s ls = Some (s', h) -> pcs s t <> Idle ->
    (exists u r, In (Return u r) h) \/ (exists u, committed (pcs s' u)) \/
    (pcs s' t <> Idle /\ (todo c (pcs s' t) + own_steps t ls <= todo c (pcs s t))%nat).
  Proof.
    induction ls as [|l ls IH]; intros s s' h t I; cbn [run].
    - intros [= <- <-] C. right. right. split; [exact C|]. cbn. lia.
    - destruct (step c s l) as [[s1 e]|] eqn:E; [|discriminate].
      destruct (run c s1 ls) as [[s2 es]|] eqn:E2; [|discriminate]. intros [= <- <-] NI. rewrite own_cons.
      assert (I1 : SInv c s1) by exact (SInv_step _ _ _ _ _ I E).
      assert (CO : forall u, committed (pcs s1 u) -> (exists u r, In (Return u r) (e ++ es)) \/ (exists u, committed (pcs s2 u))).
      { intros u C. destruct (committed_run _ _ _ _ _ I1 E2 C) as [(r & Hr)|[C2 _]]; [left; exists u, r; apply in_or_app; now right | right; eauto]. }
      destruct (Nat.eqb_spec (tid l) t) as [T|T].
      + subst t.
        assert (D : (exists u k, holder (pcs s u) k) \/
                    (forall a o, pc_obj (pcs s (tid l)) = Some (a, o) -> forall u, u <> tid l -> ~ holder (pcs s u) (lock_index a))).
        { destruct (pc_obj (pcs s (tid l))) as [[a o]|] eqn:Eo; [|right; discriminate].
          destruct I as (_ & H2 & _ & H4 & _). destruct (Z.eq_dec (lo (locks s (lock_index a))) LOCKED) as [Q|Q].
          - left. destruct (H4 _ Q) as (u & Hu). eauto.
          - right. intros ? ? [= <- <-] u _ Hu. exact (Q (H2 _ _ Hu)). }
        destruct D as [(u & k & Hu)|D].
        * (* somebody holds a lock *)
          destruct (committed_run (l :: ls) s s2 (e ++ es) u I) as [(r & Hr)|[C2 _]]; [cbn [run]; now rewrite E, E2 | left; eauto | left; eauto | right; left; eauto].
        * destruct (unblocked_step c s (tid l) I NI (or_intror D)) as (s1' & e' & ST & L & _).
          rewrite <- step_eq in ST by exact NI. rewrite E in ST. injection ST as <- <-.
          assert (Dc : pcs s1 (tid l) = Idle \/ pcs s1 (tid l) <> Idle) by (destruct (pcs s1 (tid l)); auto; right; discriminate).
          destruct Dc as [Q|Q].
          -- (* it has returned *)
             left. revert E. unfold step. destruct (pcs s (tid l)) eqn:Ep; intros E;
               repeat match type of E with
               | context [match ?d with _ => _ end] => destruct d; try discriminate E
               end; injection E as <- <-; cbn [go pcs] in Q; rewrite ?set_n_same in Q; try discriminate Q; try congruence.
             eexists _, _. apply in_or_app. left. now left.
          -- destruct (IH _ _ _ (tid l) I1 E2 Q) as [(u & r & Hr)|[Hc|[Q2 L2]]].
             ++ left. exists u, r. apply in_or_app. now right.
             ++ right. now left.
             ++ right. right. split; [exact Q2 | lia].
      + rewrite <- (step_other c _ _ _ _ t E T) in NI |- *.
        destruct (IH _ _ _ t I1 E2 NI) as [(u & r & Hr)|[Hc|[Q2 L2]]].
        * left. exists u, r. apply in_or_app. now right.
        * right. now left.
        * right. right. split; [exact Q2 | lia].
  Qed.

  (** every variable has at most [L] chunks *)
  Variable L : nat.
  Hypothesis small : forall a ty, objs c a = Some ty -> (len c ty <= L)%nat.

  Lemma obj_len s t a o : SInv c s -> pc_obj (pcs s t) = Some (a, o) -> (len c (obj_ty c a) <= L)%nat.
  Proof. intros (H & _) E. destruct (H t) as [P _]. destruct (P _ _ E) as (ty & Q). unfold obj_ty. rewrite Q. exact (small _ _ Q). Qed.
  Lemma todo_committed s t : SInv c s -> committed (pcs s t) -> (todo c (pcs s t) <= 2 * L + 6)%nat.
  Proof.
    intros I C. pose proof (obj_len s t) as OL. destruct (pcs s t); destruct C as [(k & H)|(r0 & Q)]; try discriminate Q; try (destruct H; fail); cbn [todo].
    all: try (specialize (OL _ _ I eq_refl)); lia.
  Qed.
  Lemma todo_bound s t : SInv c s -> (todo c (pcs s t) <= 3 * L + 14)%nat.
  Proof. intros I. pose proof (obj_len s t) as OL. destruct (pcs s t); cbn [todo]; try (specialize (OL _ _ I eq_refl)); lia. Qed.

  Lemma rounds_SInv rs : forall s s' h, SInv c s -> rounds s rs s' h -> SInv c s'.
  Proof.
    induction rs as [|ls rs IH]; intros s s' h I; cbn [rounds].
    - now intros (-> & _).
    - intros (_ & s1 & h1 & h2 & R & RS & _). eapply IH; [|exact RS]. exact (SInv_run _ _ _ _ _ I R).
  Qed.
  Lemma committed_rounds rs : forall s s' h t, SInv c s -> rounds s rs s' h -> committed (pcs s t) ->
    (todo c (pcs s t) <= length rs)%nat -> exists r, In (Return t r) h.
  Proof.
    induction rs as [|ls rs IH]; intros s s' h t I; cbn [rounds length].
    - intros _ C H. exfalso. destruct (pcs s t); cbn in H; try lia. now apply committed_not_idle in C.
    - intros (F & s1 & h1 & h2 & R & RS & ->) C H.
      destruct (F t (committed_not_idle _ C)) as (l & Hl & T). pose proof (own_in t ls l Hl T) as O1.
      destruct (committed_run _ _ _ _ _ I R C) as [(r & Hr)|[C1 L1]]; [exists r; apply in_or_app; now left|].
      destruct (IH s1 s' h2 t (SInv_run _ _ _ _ _ I R) RS C1) as (r & Hr); [lia|]. exists r. apply in_or_app. now right.
  Qed.
  Lemma pending_rounds rs : forall s s' h t, SInv c s -> rounds s rs s' h -> pcs s t <> Idle ->
    (todo c (pcs s t) + (2 * L + 6) <= length rs)%nat -> exists u r, In (Return u r) h.
  Proof.
    induction rs as [|ls rs IH]; intros s s' h t I; cbn [rounds length].
    - intros _ _ H. exfalso. lia.
    - intros (F & s1 & h1 & h2 & R & RS & ->) NI H.
      destruct (F t NI) as (l & Hl & T). pose proof (own_in t ls l Hl T) as O1.
      pose proof (SInv_run _ _ _ _ _ I R) as I1.
      destruct (pending_run _ _ _ _ _ I R NI) as [(u & r & Hr)|[(u & C)|[N1 L1]]].
      + exists u, r. apply in_or_app. now left.
      + destruct (committed_rounds rs s1 s' h2 u I1 RS C) as (r & Hr).
        { pose proof (todo_committed s1 u I1 C). assert (1 <= todo c (pcs s t))%nat by (destruct (pcs s t); cbn; try lia; congruence). lia. }
        exists u, r. apply in_or_app. now right.
      + destruct (IH s1 s' h2 t I1 RS N1) as (u & r & Hr); [lia|]. exists u, r. apply in_or_app. now right.
  Qed.
  Lemma some_call_returns rs s s' h t : SInv c s -> rounds s rs s' h -> pcs s t <> Idle -> (5 * L + 20 <= length rs)%nat ->
    exists u r, In (Return u r) h.
  Proof. intros I RS NI H. eapply pending_rounds; [exact I | exact RS | exact NI |]. pose proof (todo_bound s t I). lia. Qed.

  (** ** Without new calls everything returns *)
  Definition busyb (p : pc) : bool := match p with Idle => false | _ => true end.
  Lemma busyb_spec p : busyb p = true <-> p <> Idle.
  Proof. destruct p; cbn; split; congruence. Qed.

  Lemma quiet_step s l s' e : step c s l = Some (s', e) -> call l = None ->
    (forall u, pcs s u = Idle -> pcs s' u = Idle) /\ (forall u r, In (Return u r) e -> pcs s u <> Idle /\ pcs s' u = Idle).
  Proof.
    intros E N. assert (NI : pcs s (tid l) <> Idle) by (intros Q; unfold step in E; rewrite Q, N in E; discriminate). split.
    - intros u Q. rewrite (step_other c s l s' e u E); [exact Q | congruence].
    - intros u r Hi. assert (ST := E). unfold step in E. destruct (pcs s (tid l)) eqn:Ep; try congruence;
        repeat match type of E with
        | context [match ?d with _ => _ end] => destruct d; try discriminate E
        end; injection E as <- <-; cbn [In] in Hi; try contradiction.
      destruct Hi as [Hi|[]]. injection Hi as <- <-. split; [congruence|]. cbn. apply set_n_same.
  Qed.
  Lemma quiet_run ls : forall s s' h, run c s ls = Some (s', h) -> Forall (fun l => call l = None) ls ->
    (forall u, pcs s u = Idle -> pcs s' u = Idle) /\ (forall u r, In (Return u r) h -> pcs s u <> Idle /\ pcs s' u = Idle).
  Proof.
    induction ls as [|l ls IH]; intros s s' h; cbn [run].
    - intros [= <- <-] _. split; [auto | intros u r []].
    - destruct (step c s l) as [[s1 e]|] eqn:E; [|discriminate].
      destruct (run c s1 ls) as [[s2 es]|] eqn:E2; [|discriminate]. intros [= <- <-] F. inversion F as [|? ? F1 F2]; subst.
      destruct (quiet_step _ _ _ _ E F1) as [A1 B1], (IH _ _ _ E2 F2) as [A2 B2]. split; [auto|].
      intros u r Hi. apply in_app_or in Hi as [Hi|Hi].
      + destruct (B1 _ _ Hi). auto.
      + destruct (B2 _ _ Hi) as [Q1 Q2]. auto.
  Qed.
  Lemma quiet_rounds rs : forall s s' h, rounds s rs s' h -> Forall (Forall (fun l => call l = None)) rs ->
    (forall u, pcs s u = Idle -> pcs s' u = Idle) /\ (forall u r, In (Return u r) h -> pcs s u <> Idle /\ pcs s' u = Idle).
  Proof.
    induction rs as [|ls rs IH]; intros s s' h; cbn [rounds].
    - intros (-> & ->) _. split; [auto | intros u r []].
    - intros (_ & s1 & h1 & h2 & R & RS & ->) F. inversion F as [|? ? F1 F2]; subst.
      destruct (quiet_run _ _ _ _ R F1) as [A1 B1], (IH _ _ _ RS F2) as [A2 B2]. split; [auto|].
      intros u r Hi. apply in_app_or in Hi as [Hi|Hi].
      + destruct (B1 _ _ Hi). auto.
      + destruct (B2 _ _ Hi) as [Q1 Q2]. auto.
  Qed.
  Lemma rounds_app rs1 : forall s s' h rs2, rounds s (rs1 ++ rs2) s' h ->
    exists s1 h1 h2, rounds s rs1 s1 h1 /\ rounds s1 rs2 s' h2 /\ h = h1 ++ h2.
  Proof.
    induction rs1 as [|ls rs1 IH]; intros s s' h rs2; cbn [app rounds].
    - intros R. exists s, [], h. auto.
    - intros (F & s1 & h1 & h2 & R & RS & ->). destruct (IH _ _ _ _ RS) as (s2 & g1 & g2 & R1 & R2 & ->).
      exists s2, (h1 ++ g1), g2. split; [|split; [exact R2 | apply app_assoc]]. split; [exact F|]. eauto 8.
  Qed.
  Definition busy_of (s : state) (ts : list nat) : nat := length (filter (fun t => busyb (pcs s t)) ts).
  Lemma busy_less s s' ts u : (forall t, pcs s t = Idle -> pcs s' t = Idle) -> In u ts -> pcs s u <> Idle -> pcs s' u = Idle ->
    (busy_of s' ts < busy_of s ts)%nat.
  Proof.
    intros M Hi N Q. unfold busy_of.
    assert (LE : forall l, (length (filter (fun t => busyb (pcs s' t)) l) <= length (filter (fun t => busyb (pcs s t)) l))%nat).
    { induction l as [|t l IH]; [auto|]. cbn [filter]. destruct (busyb (pcs s' t)) eqn:B'; destruct (busyb (pcs s t)) eqn:B; cbn [length]; try lia.
      exfalso. apply busyb_spec in B'. apply B', M. destruct (pcs s t); cbn in B; congruence. }
    induction ts as [|t ts IH]; [destruct Hi|]. cbn [filter]. pose proof (LE ts) as LT. destruct Hi as [->|Hi].
    - rewrite Q. cbn [busyb]. rewrite (proj2 (busyb_spec _) N). cbn [length]. lia.
    - specialize (IH Hi). destruct (busyb (pcs s' t)) eqn:B'; destruct (busyb (pcs s t)) eqn:B; cbn [length]; try lia.
      exfalso. apply busyb_spec in B'. apply B', M. destruct (pcs s t); cbn in B; congruence.
  Qed.
  Lemma all_return ts n : forall rs s s' h, SInv c s -> rounds s rs s' h -> Forall (Forall (fun l => call l = None)) rs ->
    (forall t, pcs s t <> Idle -> In t ts) -> (busy_of s ts <= n)%nat -> (n * (5 * L + 20) <= length rs)%nat ->
    forall t, pcs s' t = Idle.
  Proof.
    induction n as [|n IH]; intros rs s s' h I R F C B LE t.
    - apply (quiet_rounds _ _ _ _ R F). assert (D : pcs s t = Idle \/ pcs s t <> Idle) by (destruct (pcs s t); auto; right; discriminate).
      destruct D as [D|D]; [exact D|]. exfalso. pose proof (C t D) as Hi. unfold busy_of in B.
      assert (G : In t (filter (fun t => busyb (pcs s t)) ts)) by (apply filter_In; split; [exact Hi | now apply busyb_spec]).
      destruct (filter (fun t => busyb (pcs s t)) ts); [destruct G | cbn in B; lia].
    - assert (D : pcs s t = Idle \/ pcs s t <> Idle) by (destruct (pcs s t); auto; right; discriminate).
      destruct D as [D|D]; [exact (proj1 (quiet_rounds _ _ _ _ R F) t D)|].
      rewrite <- (firstn_skipn (5 * L + 20) rs) in R, F. apply Forall_app in F as [F1 F2].
      destruct (rounds_app _ _ _ _ _ R) as (s1 & h1 & h2 & R1 & R2 & _).
      destruct (some_call_returns _ _ _ _ t I R1 D) as (u & r & Hr). { rewrite firstn_length. lia. }
      destruct (quiet_rounds _ _ _ _ R1 F1) as [M E]. destruct (E _ _ Hr) as [N1 N2].
      eapply (IH (skipn (5 * L + 20) rs) s1 s' h2).
      + exact (rounds_SInv _ _ _ _ I R1).
      + exact R2.
      + exact F2.
      + intros v Hv. apply C. intros Q. exact (Hv (M _ Q)).
      + pose proof (busy_less s s1 ts u M (C u N1) N1 N2). lia.
      + rewrite skipn_length. lia.
  Qed.
End Fair.
