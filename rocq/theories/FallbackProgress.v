(** Progress of the fallback machine. *)
From Coq Require Import ZArith Lia Bool List PeanoNat ZifyBool.
From Verif Require Import Words Spec WordsFacts LinFacts OrderingModel FallbackModel FallbackFacts FallbackProofs FallbackStruct.
Import ListNotations.
Open Scope Z_scope.

Section Progress.
  Variable c : config.

  Definition solo (t : nat) : label := mk_label t None.

  (** number of own steps left when nobody else interferes *)
  Definition todo (p : pc) : nat :=
    let n a := len c (obj_ty c a) in
    match p with
    | Idle => 0
    | Fin _ => 1
    | Rel _ _ _ _ _ => 2
    | RelHiSt _ _ _ _ _ => 3
    | RelHiLd _ _ _ _ => 4
    | LWrite a _ _ _ i _ => 5 + (n a - i)
    | LRead a _ _ acc => 6 + n a + (n a - length acc)
    | Acq a _ => 7 + 2 * n a
    | Spin a _ => 8 + 2 * n a
    | ValHi a _ _ _ _ _ _ _ _ => 9 + 2 * n a
    | ValLo a _ _ _ _ _ _ => 10 + 2 * n a
    | OptRead a _ _ _ acc _ _ => 11 + 2 * n a + (n a - length acc)
    | OptLo a _ _ _ => 12 + 3 * n a
    | OptHi a _ => 13 + 3 * n a
    | Start a _ => 14 + 3 * n a
    end%nat.

  Ltac done_step := eexists _, _; split; [reflexivity|]; split; [cbn; rewrite set_n_same; cbn [todo length]; rewrite ?app_length; cbn [length]; try lia
                                                    | intros u Hu; cbn; now rewrite ?set_n_other by assumption].

  (** A thread that is not blocked by a foreign holder can step and gets strictly closer to returning. *)
  Lemma unblocked_step s t :
    SInv c s -> pcs s t <> Idle ->
    (holder (pcs s t) (match pc_obj (pcs s t) with Some (a, _) => lock_index a | None => 0 end) \/
     (forall a o, pc_obj (pcs s t) = Some (a, o) -> forall u, u <> t -> ~ holder (pcs s u) (lock_index a))) ->
    exists s' e, step c s (solo t) = Some (s', e) /\
      (todo (pcs s' t) < todo (pcs s t))%nat /\ (forall u, u <> t -> pcs s' u = pcs s u).
  Proof.
    intros I NI NH. pose proof I as (I1 & I2 & I3 & I4 & I5 & I6).
    pose proof (I1 t) as [Po Pt]. unfold step. cbn [solo tid call].
    destruct (pcs s t) as [ | a o | a o | a o sh0 g | a o sh0 sl acc g g2 | a o sh0 sl v g g2
                          | a o sh0 sl lo' v g g2 g3 | a o | a o | a o st acc | a o st new i r
                          | a o st r | a o st h r | a o next bump r | r ] eqn:Ep.
    - congruence.
    - destruct (order_ok o); [destruct o; [destruct (wide c)|..]|]; done_step.
    - done_step.
    - destruct (lo (locks s (lock_index a)) =? LOCKED); done_step.
    - destruct (Nat.ltb_spec (length acc) (len c (obj_ty c a))); done_step.
    - destruct (wide c); [|destruct (lo (locks s (lock_index a)) =? sl)]; done_step.
    - destruct ((hi (locks s (lock_index a)) =? sh0) && (lo' =? sl)); done_step.
    - assert (lo (locks s (lock_index a)) <> LOCKED) as NL.
      { intros E. destruct (I4 _ E) as [u Hu]. cbn in NH. destruct NH as [NH|NH]; [contradiction|].
        destruct (Nat.eq_dec u t) as [->|Hn].
        - rewrite Ep in Hu. contradiction.
        - apply (NH a o eq_refl u Hn Hu). }
      destruct (Z.eqb_spec (lo (locks s (lock_index a))) LOCKED); [contradiction|].
      destruct o; done_step.
    - assert (lo (locks s (lock_index a)) <> LOCKED) as NL.
      { intros E. destruct (I4 _ E) as [u Hu]. cbn in NH. destruct NH as [NH|NH]; [contradiction|].
        destruct (Nat.eq_dec u t) as [->|Hn].
        - rewrite Ep in Hu. contradiction.
        - apply (NH a o eq_refl u Hn Hu). }
      destruct (Z.eqb_spec (lo (locks s (lock_index a))) LOCKED); [contradiction|]. done_step.
    - destruct (Nat.ltb_spec (length acc) (len c (obj_ty c a))); [done_step|].
      destruct Pt as [Ps _]. destruct o; [done_step|discriminate|done_step|].
      destruct (of_chunks c (obj_ty c a) acc =? current); done_step.
    - destruct (Nat.ltb_spec i (len c (obj_ty c a))).
      + done_step.
      + destruct (wide c && (next_lo c st =? 0)); done_step.
    - done_step.
    - done_step.
    - done_step.
    - done_step.
  Qed.

  (** Schedules in which only thread [t] runs. *)
  Lemma run_app ls1 : forall s s1 h1 ls2 s2 h2,
    run c s ls1 = Some (s1, h1) -> run c s1 ls2 = Some (s2, h2) -> run c s (ls1 ++ ls2) = Some (s2, h1 ++ h2).
  Proof.
    induction ls1 as [|l ls1 IH]; cbn [run app]; intros s s1 h1 ls2 s2 h2 H1 H2.
    - now injection H1 as -> <-.
    - destruct (step c s l) as [[s' e]|]; [|discriminate].
      destruct (run c s' ls1) as [[s'' es]|] eqn:E; [|discriminate]. injection H1 as -> <-.
      rewrite (IH _ _ _ _ _ _ E H2). now rewrite app_assoc.
  Qed.

  Lemma solo_finish n : forall s t,
    SInv c s -> (todo (pcs s t) <= n)%nat ->
    (forall a o, pc_obj (pcs s t) = Some (a, o) -> forall u, u <> t -> ~ holder (pcs s u) (lock_index a)) ->
    exists k s' h, (k <= n)%nat /\ run c s (repeat (solo t) k) = Some (s', h) /\
      pcs s' t = Idle /\ (forall u, u <> t -> pcs s' u = pcs s u).
  Proof.
    induction n as [|n IH]; intros s t I Hn NH.
    - assert (pcs s t = Idle) as E by (destruct (pcs s t); cbn in Hn; try lia; reflexivity).
      exists 0%nat, s, []. splits; auto.
    - destruct (todo (pcs s t)) eqn:Et.
      + assert (pcs s t = Idle) as E by (destruct (pcs s t); cbn in Et; try lia; reflexivity).
        exists 0%nat, s, []. splits; auto; lia.
      + destruct (unblocked_step s t I) as (s1 & e & Hs & Hlt & Ho).
        { intros E. rewrite E in Et. discriminate. }
        { now right. }
        destruct (IH s1 t) as (k & s' & h & Hk & Hr & Hi & Ho').
        * eauto using SInv_step.
        * lia.
        * intros a o Ha u Hu. rewrite Ho by assumption.
          destruct (pc_obj (pcs s t)) as [[a0 o0]|] eqn:Eo.
          { assert (Ea : a = a0).
            { clear - Hs Ha Eo. unfold step in Hs. cbn [solo tid call] in Hs.
              destruct (pcs s t) eqn:Ep; cbn in Eo; try discriminate; injection Eo as -> ->;
              repeat match type of Hs with
                | context [match ?d with _ => _ end] => destruct d; try discriminate
                end; injection Hs as <- <-; cbn in Ha; rewrite ?set_n_same, ?Ep in Ha; cbn in Ha; congruence. }
            subst a. eapply NH; eauto. }
          { exfalso. clear - Hs Ha Eo. unfold step in Hs. cbn [solo tid call] in Hs.
            destruct (pcs s t) eqn:Ep; cbn in Eo; try discriminate; injection Hs as <- <-; cbn in Ha; rewrite ?set_n_same in Ha; discriminate. }
        * exists (S k), s', (e ++ h). splits.
          { lia. }
          { cbn [repeat run]. now rewrite Hs, Hr. }
          { exact Hi. }
          { intros u Hu. rewrite Ho', Ho by assumption. reflexivity. }
  Qed.

  Lemma holder_pc_obj p k : holder p k -> exists a o, pc_obj p = Some (a, o) /\ lock_index a = k.
  Proof. destruct p; cbn; try tauto; intros <-; eauto. Qed.

  (** In every reachable state every pending call can complete: let the holder of its lock
      (if any) run to the end, then run the caller. *)
  Lemma can_finish s t : SInv c s ->
    exists ls s' h, run c s ls = Some (s', h) /\ pcs s' t = Idle.
  Proof.
    intros I. pose proof I as (I1 & I2 & I3 & I4 & I5 & I6).
    destruct (pc_obj (pcs s t)) as [[a o]|] eqn:Eo.
    2:{ destruct (solo_finish (todo (pcs s t)) s t I (Nat.le_refl _)) as (k & s' & h & _ & Hr & Hi & _).
        { rewrite Eo; discriminate. }
        eauto. }
    destruct (Z.eq_dec (lo (locks s (lock_index a))) LOCKED) as [E|E].
    - destruct (I4 _ E) as [u Hu]. destruct (Nat.eq_dec u t) as [->|Hn].
      + destruct (solo_finish (todo (pcs s t)) s t I (Nat.le_refl _)) as (k & s' & h & _ & Hr & Hi & _).
        { rewrite Eo. intros ? ? [= <- <-] v Hv Hh. apply Hv. eauto. }
        eauto.
      + destruct (solo_finish (todo (pcs s u)) s u I (Nat.le_refl _)) as (k & s1 & h1 & _ & Hr1 & Hi1 & Ho1).
        { intros b o' Hb v Hv Hh. destruct (holder_pc_obj _ _ Hu) as (a' & o2 & Ha' & Hl).
          rewrite Hb in Ha'. injection Ha' as -> ->. apply Hv. eapply I3; eauto. now rewrite Hl. }
        assert (I' : SInv c s1) by eauto using SInv_run.
        destruct (solo_finish (todo (pcs s1 t)) s1 t I' (Nat.le_refl _)) as (k2 & s2 & h2 & _ & Hr2 & Hi2 & _).
        { rewrite Ho1 by auto. rewrite Eo. intros ? ? [= <- <-] v Hv Hh.
          destruct (Nat.eq_dec v u) as [->|Hvu].
          - rewrite Hi1 in Hh. contradiction.
          - rewrite Ho1 in Hh by assumption. apply Hvu. eauto. }
        eexists _, s2, _. split; [|exact Hi2]. eapply run_app; eauto.
    - destruct (solo_finish (todo (pcs s t)) s t I (Nat.le_refl _)) as (k & s' & h & _ & Hr & Hi & _).
      { rewrite Eo. intros ? ? [= <- <-] v Hv Hh. apply E. eauto. }
      eauto.
  Qed.

  Lemma classic_holder p k : holder p k \/ ~ holder p k.
  Proof. destruct p; cbn; try tauto; destruct (Z.eq_dec (lock_index a) k); tauto. Qed.

  (** Own steps of a thread in a schedule. *)
  Definition own_steps (t : nat) (ls : list label) : nat := length (filter (fun l => Nat.eqb (tid l) t) ls).

  Lemma step_other s l s' e t : step c s l = Some (s', e) -> tid l <> t -> pcs s' t = pcs s t.
  Proof.
    intros Hs Hn. unfold step in Hs.
    repeat match type of Hs with
    | context [match ?d with _ => _ end] => destruct d; try discriminate
    end; injection Hs as <- <-; cbn; rewrite ?set_n_other by congruence; reflexivity.
  Qed.

  Lemma step_call_irrelevant s t l : tid l = t -> pcs s t <> Idle -> step c s l = step c s (solo t).
  Proof.
    intros <- H. unfold step. cbn [solo tid call]. destruct (pcs s (tid l)); try reflexivity. congruence.
  Qed.

  (** Whatever the others do, a thread that holds a lock has released it after at most
      [2 * len + 6] of its own steps. *)
  Lemma holder_releases ls : forall s s' h t k n,
    SInv c s -> run c s ls = Some (s', h) -> holder (pcs s t) k ->
    (todo (pcs s t) <= n)%nat -> (n <= own_steps t ls)%nat ->
    exists ls1 ls2 s1 h1, ls = ls1 ++ ls2 /\ run c s ls1 = Some (s1, h1) /\ ~ holder (pcs s1 t) k.
  Proof.
    induction ls as [|l ls IH]; intros s s' h t k n I Hr Hh Hn Ho.
    - cbn in Ho. exfalso. destruct (pcs s t); cbn in Hh, Hn; try contradiction; lia.
    - cbn [run] in Hr. destruct (step c s l) as [[s1 e]|] eqn:Es; [|discriminate].
      destruct (run c s1 ls) as [[s2 es]|] eqn:Er; [|discriminate].
      assert (I1 : SInv c s1) by eauto using SInv_step.
      destruct (Nat.eq_dec (tid l) t) as [Et|Et].
      + assert (NI : pcs s t <> Idle) by (intros E; rewrite E in Hh; contradiction).
        destruct (unblocked_step s t I NI) as (s1' & e' & Hs' & Hlt & _).
        { left. destruct (holder_pc_obj _ _ Hh) as (a & o & -> & ->). exact Hh. }
        rewrite <- (step_call_irrelevant s t l Et NI), Es in Hs'. injection Hs' as <- <-.
        destruct (classic_holder (pcs s1 t) k) as [H1|H1].
        * destruct (IH s1 s2 es t k (n - 1)%nat I1 Er H1) as (ls1 & ls2 & s3 & h3 & -> & Hr3 & Hnh).
          { lia. }
          { unfold own_steps in *. cbn [filter] in Ho. rewrite (proj2 (Nat.eqb_eq _ _) Et) in Ho. cbn [length] in Ho. lia. }
          exists (l :: ls1), ls2, s3, (e ++ h3). splits; auto. cbn [run]. now rewrite Es, Hr3.
        * exists [l], ls, s1, (e ++ []). splits; auto. cbn [run]. now rewrite Es.
      + assert (Ep : pcs s1 t = pcs s t) by (eapply step_other; eauto).
        destruct (IH s1 s2 es t k n I1 Er) as (ls1 & ls2 & s3 & h3 & -> & Hr3 & Hnh).
        { now rewrite Ep. }
        { now rewrite Ep. }
        { unfold own_steps in *. cbn [filter] in Ho. rewrite (proj2 (Nat.eqb_neq _ _) Et) in Ho. exact Ho. }
        exists (l :: ls1), ls2, s3, (e ++ h3). splits; auto. cbn [run]. now rewrite Es, Hr3.
  Qed.
End Progress.
