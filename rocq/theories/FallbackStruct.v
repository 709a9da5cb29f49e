(** Structural invariants of the fallback machine (no assumption on windows):
    mutual exclusion, race freedom, who may change what, progress. *)
From Coq Require Import ZArith Lia Bool List PeanoNat ZifyBool.
From Verif Require Import Words Spec WordsFacts LinFacts OrderingModel FallbackModel FallbackFacts FallbackProofs.
Import ListNotations.
Open Scope Z_scope.

Section Struct.
  Variable c : config.

  Definition pc_obj (p : pc) : option (Z * op) :=
    match p with
    | Idle | Fin _ => None
    | Start a o | OptHi a o | OptLo a o _ _ | OptRead a o _ _ _ _ _ | ValLo a o _ _ _ _ _
    | ValHi a o _ _ _ _ _ _ _ | Acq a o | Spin a o | LRead a o _ _ | LWrite a o _ _ _ _
    | RelHiLd a o _ _ | RelHiSt a o _ _ _ | Rel a o _ _ _ => Some (a, o)
    end.
  Definition is_store (o : op) : bool := match o with OStore _ _ => true | _ => false end.
  Definition is_load (o : op) : bool := match o with OLoad _ => true | _ => false end.
  Definition is_err (r : res) : bool := match r with RErr _ | RPanic => true | _ => false end.

  (** local facts about a program counter *)
  Definition pc_ok (p : pc) : Prop :=
    (forall a o, pc_obj p = Some (a, o) -> exists ty, objs c a = Some ty) /\
    match p with
    | OptHi _ o | OptLo _ o _ _ | OptRead _ o _ _ _ _ _ | ValLo _ o _ _ _ _ _ | ValHi _ o _ _ _ _ _ _ _ => is_load o = true
    | LRead a o st acc => is_store o = false /\ st <> LOCKED
    | LWrite a o st new i r => is_load o = false /\ is_err r = false /\ next_lo c st <> LOCKED
    | RelHiLd a o st r | RelHiSt a o st _ r => is_load o = false /\ is_err r = false /\ next_lo c st <> LOCKED
    | Rel a o next true r => is_load o = false /\ is_err r = false /\ next <> LOCKED
    | Rel a o next false r => is_store o = false /\ next <> LOCKED /\ (is_load o = false -> is_err r = true)
    | _ => True
    end.

  Definition SInv (s : state) : Prop :=
    (forall t, pc_ok (pcs s t)) /\
    (forall t k, holder (pcs s t) k -> lo (locks s k) = LOCKED) /\
    (forall t t' k, holder (pcs s t) k -> holder (pcs s t') k -> t = t') /\
    (forall k, lo (locks s k) = LOCKED -> exists t, holder (pcs s t) k) /\
    (forall k, lo (locks s k) <> LOCKED -> exists n, lo (locks s k) = stamp c n) /\
    (forall t, match pcs s t with
               | LRead _ _ st _ | LWrite _ _ st _ _ _ | RelHiLd _ _ st _ | RelHiSt _ _ st _ _ => exists n, st = stamp c n
               | Rel _ _ st _ _ => exists n, st = stamp c n
               | _ => True end).

  Lemma SInv_init m : SInv (init m).
  Proof.
    unfold SInv, init; cbn. splits; try tauto; try discriminate.
    - intros t. split; cbn; auto. discriminate.
    - intros k _. exists 0. unfold stamp. now rewrite Z.mul_0_r, Z.mod_0_l by (unfold state_bits; destruct (wide c); lia).
  Qed.

  (** One generic preservation lemma. *)
  Lemma SInv_after s s' t p' :
    SInv s ->
    pcs s' = set_n (pcs s) t p' ->
    pc_ok p' ->
    (match p' with
     | LRead _ _ st _ | LWrite _ _ st _ _ _ | RelHiLd _ _ st _ | RelHiSt _ _ st _ _ => exists n, st = stamp c n
     | Rel _ _ st _ _ => exists n, st = stamp c n
     | _ => True end) ->
    (forall k, holder p' k -> lo (locks s' k) = LOCKED) ->
    (forall k, holder p' k -> holder (pcs s t) k \/ lo (locks s k) <> LOCKED) ->
    (forall u k, u <> t -> holder (pcs s u) k -> lo (locks s' k) = LOCKED) ->
    (forall k, lo (locks s' k) = LOCKED -> holder p' k \/ (lo (locks s k) = LOCKED /\ ~ holder (pcs s t) k)) ->
    (forall k, lo (locks s' k) <> LOCKED -> exists n, lo (locks s' k) = stamp c n) ->
    SInv s'.
  Proof.
    intros (I1 & I2 & I3 & I4 & I5 & I6) Ep P1 P2 H1 H2 H3 H4 H5.
    assert (Es : pcs s' t = p') by (rewrite Ep; apply set_n_same).
    assert (Eo : forall u, u <> t -> pcs s' u = pcs s u) by (intros; rewrite Ep; now apply set_n_other).
    unfold SInv. splits; auto.
    - intros u. destruct (Nat.eq_dec u t) as [->|Hn]; [now rewrite Es|now rewrite Eo].
    - intros u k. destruct (Nat.eq_dec u t) as [->|Hn]; [rewrite Es; auto|rewrite Eo; eauto].
    - intros u u' k Hu Hu'.
      destruct (Nat.eq_dec u t) as [->|Hn], (Nat.eq_dec u' t) as [->|Hn']; auto.
      + rewrite Es in Hu. rewrite Eo in Hu' by assumption. destruct (H2 k Hu) as [H|H]; [eauto|].
        exfalso. apply H. eauto.
      + rewrite Es in Hu'. rewrite Eo in Hu by assumption. destruct (H2 k Hu') as [H|H]; [eauto|].
        exfalso. apply H. eauto.
      + rewrite Eo in Hu, Hu' by assumption. eauto.
    - intros k Hk. destruct (H4 k Hk) as [H|[Hl Hn]].
      + exists t. now rewrite Es.
      + destruct (I4 k Hl) as [u Hu]. exists u. rewrite Eo; auto. intros ->. contradiction.
    - intros u. destruct (Nat.eq_dec u t) as [->|Hn]; [now rewrite Es|]. rewrite Eo by assumption. apply I6.
  Qed.

  Lemma next_lo_not_locked st : (exists n, st = stamp c n) -> next_lo c st <> LOCKED.
  Proof. intros [n ->]. rewrite next_lo_stamp. apply stamp_even. Qed.
  Lemma stamp_not_locked st : (exists n, st = stamp c n) -> st <> LOCKED.
  Proof. intros [n ->]. apply stamp_even. Qed.

  Ltac fin := splits; auto; try discriminate; try (apply next_lo_not_locked; assumption); try (apply stamp_not_locked; assumption).
  (** A step that changes no lock and keeps what the thread holds. *)
  Lemma SInv_local s s' t p' :
    SInv s -> pcs s' = set_n (pcs s) t p' ->
    (forall k, lo (locks s' k) = lo (locks s k)) ->
    pc_ok p' ->
    (match p' with
     | LRead _ _ st _ | LWrite _ _ st _ _ _ | RelHiLd _ _ st _ | RelHiSt _ _ st _ _ => exists n, st = stamp c n
     | Rel _ _ st _ _ => exists n, st = stamp c n
     | _ => True end) ->
    (forall k, holder p' k <-> holder (pcs s t) k) ->
    SInv s'.
  Proof.
    intros I Ep El P1 P2 Hh. pose proof I as (I1 & I2 & I3 & I4 & I5 & I6).
    eapply SInv_after; eauto.
    - intros k Hk. rewrite El. apply Hh in Hk. eauto.
    - intros k Hk. left. now apply Hh.
    - intros u k Hu Hk. rewrite El. eauto.
    - intros k Hk. rewrite El in Hk. destruct (I4 k Hk) as [u Hu]. destruct (Nat.eq_dec u t) as [->|Hn].
      + left. now apply Hh.
      + right. split; auto. intros Ht. apply Hn. eauto.
    - intros k Hk. rewrite El in *. auto.
  Qed.

  Lemma SInv_step s l s' e : SInv s -> step c s l = Some (s', e) -> SInv s'.
  Proof.
    intros I. pose proof I as (I1 & I2 & I3 & I4 & I5 & I6). unfold step. set (t := tid l).
    pose proof (I1 t) as [Po Pt]. pose proof (I6 t) as Pn.
    destruct (pcs s t) as [ | a o | a o | a o sh0 g | a o sh0 sl acc g g2 | a o sh0 sl v g g2
                          | a o sh0 sl lo' v g g2 g3 | a o | a o | a o st acc | a o st new i r
                          | a o st r | a o st h r | a o next bump r | r ] eqn:Ep.
    - destruct (call l) as [[a o]|]; [|discriminate].
      destruct (objs c a) as [ty|] eqn:Ety; [|discriminate].
      destruct (op_typedb ty o) eqn:Eo; [|discriminate]. intros [= <- <-].
      eapply (SInv_local s _ t); [exact I | reflexivity | try (intros; reflexivity) | .. ]; [|exact Logic.I|rewrite Ep; cbn; tauto].
      split; auto. cbn. intros ? ? [= <- <-]; eauto.
    - destruct (order_ok o) eqn:Eo.
      + destruct o; [destruct (wide c)| | |]; intros [= <- <-];
          (eapply (SInv_local s _ t); [exact I | reflexivity | try (intros; reflexivity) | .. ]; [|exact Logic.I|rewrite Ep; cbn; tauto]);
          (split; [cbn; intros ? ? [= <- <-]; cbn in Po; eauto | cbn; auto]).
      + intros [= <- <-]. eapply (SInv_local s _ t); [exact I | reflexivity | try (intros; reflexivity) | .. ]; [|exact Logic.I|rewrite Ep; cbn; tauto].
        split; cbn; auto; discriminate.
    - intros [= <- <-]. eapply (SInv_local s _ t); [exact I | reflexivity | try (intros; reflexivity) | .. ]; [|exact Logic.I|rewrite Ep; cbn; tauto].
      split; [cbn; intros ? ? [= <- <-]; cbn in Po; eauto | cbn; auto].
    - destruct (lo (locks s (lock_index a)) =? LOCKED); intros [= <- <-];
      (eapply (SInv_local s _ t); [exact I | reflexivity | try (intros; reflexivity) | .. ]; [|exact Logic.I|rewrite Ep; cbn; tauto]);
      (split; [cbn; intros ? ? [= <- <-]; cbn in Po; eauto | cbn; auto]).
    - destruct (Nat.ltb (length acc) (len c (obj_ty c a))); intros [= <- <-];
      (eapply (SInv_local s _ t); [exact I | reflexivity | try (intros; reflexivity) | .. ]; [|exact Logic.I|rewrite Ep; cbn; tauto]);
      (split; [cbn; intros ? ? [= <- <-]; cbn in Po; eauto | cbn; auto]).
    - destruct (wide c); [|destruct (lo (locks s (lock_index a)) =? sl)]; intros [= <- <-];
      (eapply (SInv_local s _ t); [exact I | reflexivity | try (intros; reflexivity) | .. ]; [|exact Logic.I|rewrite Ep; cbn; tauto]);
      (split; [cbn; intros ? ? [= <- <-]; cbn in Po; eauto | cbn; auto]).
    - destruct ((hi (locks s (lock_index a)) =? sh0) && (lo' =? sl)); intros [= <- <-];
      (eapply (SInv_local s _ t); [exact I | reflexivity | try (intros; reflexivity) | .. ]; [|exact Logic.I|rewrite Ep; cbn; tauto]);
      (split; [cbn; intros ? ? [= <- <-]; cbn in Po; eauto | cbn; auto]).
    - (* Acq *)
      set (k := lock_index a).
      destruct (Z.eqb_spec (lo (locks s k)) LOCKED) as [E|E].
      + intros [= <- <-]. eapply (SInv_local s _ t); [exact I | reflexivity | try (intros; reflexivity) | .. ]; [| |exact Logic.I|rewrite Ep; cbn; tauto].
        * intros k'. cbn. unfold set_z. destruct (Z.eqb_spec k' k) as [E'|]; [rewrite E', E|]; auto.
        * split; [cbn; intros ? ? [= <- <-]; cbn in Po; eauto | cbn; auto].
      + assert (Hp : exists p', (match o with
             | OStore v _ => Some (go (mk_state (mem s) (set_z (locks s) k (mk_lock LOCKED (hi (locks s k)))) (pcs s) (writes s)) t (LWrite a o (lo (locks s k)) (to_chunks c (obj_ty c a) v) 0 RUnit), [])
             | _ => Some (go (mk_state (mem s) (set_z (locks s) k (mk_lock LOCKED (hi (locks s k)))) (pcs s) (writes s)) t (LRead a o (lo (locks s k)) []), [])
             end) = Some (go (mk_state (mem s) (set_z (locks s) k (mk_lock LOCKED (hi (locks s k)))) (pcs s) (writes s)) t p', @nil (event op res)) /\
               (forall k', holder p' k' <-> k' = k) /\ pc_ok p' /\
               (match p' with
     | LRead _ _ st _ | LWrite _ _ st _ _ _ | RelHiLd _ _ st _ | RelHiSt _ _ st _ _ => exists n, st = stamp c n
     | Rel _ _ st _ _ => exists n, st = stamp c n
     | _ => True end)).
        { cbn in Po. destruct o; (eexists; split; [reflexivity|]); (split; [cbn; intros; split; [intros <-; reflexivity | intros ->; reflexivity]|]); (split; [|auto]);
          (split; [cbn; intros ? ? [= <- <-]; eauto|]); cbn; auto.
          splits; auto. apply next_lo_not_locked. auto. }
        destruct Hp as (p' & -> & Hh & Pk & Pn'). intros [= <- <-].
        eapply SInv_after with (t := t) (s := s); eauto; try reflexivity; cbn.
        * intros k' Hk. apply Hh in Hk. subst k'. now rewrite set_z_same.
        * intros k' Hk. apply Hh in Hk. subst k'. auto.
        * intros u k' Hu Hk. unfold set_z. destruct (k' =? k); eauto.
        * intros k' Hk. unfold set_z in Hk. destruct (Z.eqb_spec k' k) as [E'|Hne].
          { left. now apply Hh. }
          { right. split; auto. rewrite Ep. cbn. auto. }
        * intros k' Hk. unfold set_z in *. destruct (Z.eqb_spec k' k) as [E'|Hne]; [cbn in Hk; contradiction|]. auto.
    - (* Spin *)
      destruct (lo (locks s (lock_index a)) =? LOCKED); intros [= <- <-]; auto.
      eapply (SInv_local s _ t); [exact I | reflexivity | try (intros; reflexivity) | .. ]; [|exact Logic.I|rewrite Ep; cbn; tauto].
      split; [cbn; intros ? ? [= <- <-]; cbn in Po; eauto | cbn; auto].
    - (* LRead *)
      destruct (Nat.ltb (length acc) (len c (obj_ty c a))).
      + intros [= <- <-]. eapply (SInv_local s _ t); [exact I | reflexivity | try (intros; reflexivity) | .. ]; [|exact Pn|rewrite Ep; cbn; tauto].
        split; [cbn; intros ? ? [= <- <-]; cbn in Po; eauto | cbn; auto].
      + cbn in Pt, Po. destruct Pt as [Ps Pl]. destruct o as [ord|v ord|rm ord|cu nw su fa]; try discriminate.
        * intros [= <- <-]. eapply (SInv_local s _ t); [exact I | reflexivity | try (intros; reflexivity) | .. ]; [|exact Pn|rewrite Ep; cbn; tauto].
          split; [cbn; intros ? ? [= <- <-]; eauto | cbn; fin].
        * intros [= <- <-]. eapply (SInv_local s _ t); [exact I | reflexivity | try (intros; reflexivity) | .. ]; [|exact Pn|rewrite Ep; cbn; tauto].
          split; [cbn; intros ? ? [= <- <-]; eauto | cbn; fin].
        * destruct (of_chunks c (obj_ty c a) acc =? cu); intros [= <- <-]; (eapply (SInv_local s _ t); [exact I | reflexivity | try (intros; reflexivity) | .. ]; [|exact Pn|rewrite Ep; cbn; tauto]);
          (split; [cbn; intros ? ? [= <- <-]; eauto | cbn; fin]). 
    - (* LWrite *)
      destruct Pt as (P1 & P2 & P3). destruct (Nat.ltb i (len c (obj_ty c a))).
      + intros [= <- <-]. eapply (SInv_local s _ t); [exact I | reflexivity | try (intros; reflexivity) | .. ]; [|exact Pn|rewrite Ep; cbn; tauto].
        split; [cbn; intros ? ? [= <- <-]; cbn in Po; eauto | cbn; auto].
      + destruct (wide c && (next_lo c st =? 0)); intros [= <- <-].
        * eapply (SInv_local s _ t); [exact I | reflexivity | try (intros; reflexivity) | .. ]; [|exact Pn|rewrite Ep; cbn; tauto].
          split; [cbn; intros ? ? [= <- <-]; cbn in Po; eauto | cbn; auto].
        * eapply (SInv_local s _ t); [exact I | reflexivity | try (intros; reflexivity) | .. ]; [| |rewrite Ep; cbn; tauto].
          { split; [cbn; intros ? ? [= <- <-]; cbn in Po; eauto | cbn; auto]. }
          { cbn. destruct Pn as [n ->]. exists (n + 1). apply next_lo_stamp. }
    - intros [= <- <-]. eapply (SInv_local s _ t); [exact I | reflexivity | try (intros; reflexivity) | .. ]; [|exact Pn|rewrite Ep; cbn; tauto].
      split; [cbn; intros ? ? [= <- <-]; cbn in Po; eauto | cbn; auto].
    - intros [= <- <-]. eapply (SInv_local s _ t); [exact I | reflexivity | try (intros; reflexivity) | .. ]; [| | |rewrite Ep; cbn; tauto].
      + intros k'. cbn. unfold set_z. destruct (Z.eqb_spec k' (lock_index a)) as [E'|]; [rewrite E'|]; auto.
      + split; [cbn; intros ? ? [= <- <-]; cbn in Po; eauto | cbn; auto].
      + cbn. destruct Pn as [n ->]. exists (n + 1). apply next_lo_stamp.
    - (* Rel *)
      assert (Hnl : next <> LOCKED) by now apply stamp_not_locked.
      intros [= <- <-]. set (k := lock_index a) in *.
      eapply SInv_after with (t := t) (s := s) (p' := Fin r); eauto; cbn; try tauto.
      + split; cbn; auto; discriminate.
      + intros u k' Hu Hk. unfold set_z. destruct (Z.eqb_spec k' k) as [E'|]; eauto. rewrite E' in Hk.
        exfalso. apply Hu. eapply I3; eauto. rewrite Ep. reflexivity.
      + intros k' Hk. unfold set_z in Hk. destruct (Z.eqb_spec k' k) as [E'|Hne]; [cbn in Hk; contradiction|].
        right. split; auto. rewrite Ep. cbn. auto.
      + intros k' Hk. unfold set_z in *. destruct (Z.eqb_spec k' k) as [E'|Hne]; auto.
    - intros [= <- <-]. eapply (SInv_local s _ t); [exact I | reflexivity | try (intros; reflexivity) | .. ]; [|exact Logic.I|rewrite Ep; cbn; tauto].
      split; cbn; auto; discriminate.
  Qed.

  Lemma SInv_run ls : forall s s' h, SInv s -> run c s ls = Some (s', h) -> SInv s'.
  Proof.
    induction ls as [|l ls IH]; intros s s' h I; cbn [run].
    - now intros [= <- <-].
    - destruct (step c s l) as [[s1 e]|] eqn:E; [|discriminate].
      destruct (run c s1 ls) as [[s2 es]|] eqn:E2; [|discriminate]. intros [= <- <-].
      eauto using SInv_step.
  Qed.

  (** ** Race freedom *)
  Inductive access := ALoad | AStore | PlainRead.
  (** [accesses p k x]: a thread at [p] is about to make (or is in the middle of making) an
      access of kind [k] to the memory cell [x].  The plain read under the lock covers
      all chunks of the variable at once. *)
  Definition accesses (p : pc) (k : access) (x : Z) : Prop :=
    match p with
    | OptRead a _ _ _ acc _ _ => k = ALoad /\ (length acc < len c (obj_ty c a))%nat /\ x = chunk_addr c a (length acc)
    | LRead a _ _ acc => k = PlainRead /\ exists i, (i < len c (obj_ty c a))%nat /\ x = chunk_addr c a i
    | LWrite a _ _ _ i _ => k = AStore /\ (i < len c (obj_ty c a))%nat /\ x = chunk_addr c a i
    | _ => False
    end.
  Definition race (s : state) : Prop :=
    exists t u x k k', t <> u /\ accesses (pcs s t) k x /\ accesses (pcs s u) k' x /\
      (k = AStore \/ k' = AStore) /\ (k = PlainRead \/ k' = PlainRead \/ (k = AStore /\ k' = AStore)).

  Lemma no_race s : wf_config c -> SInv s -> ~ race s.
  Proof.
    intros WF (I1 & I2 & I3 & I4 & I5 & I6) (t & u & x & k & k' & Hne & A1 & A2 & HS & HP).
    assert (Key : forall v kk, accesses (pcs s v) kk x -> kk <> ALoad ->
       exists a ty i, objs c a = Some ty /\ (i < len c ty)%nat /\ x = chunk_addr c a i /\ holder (pcs s v) (lock_index a)).
    { intros v kk Hacc Hk. destruct (I1 v) as [Po _].
      destruct (pcs s v) eqn:Ev; cbn in Hacc; try contradiction.
      - destruct Hacc as [-> _]. contradiction.
      - destruct Hacc as [_ [i [Hi Hx]]]. destruct (Po a o eq_refl) as [ty Hty].
        rewrite (obj_ty_eq _ _ _ Hty) in Hi. exists a, ty, i. cbn. auto.
      - destruct Hacc as [_ [Hi Hx]]. destruct (Po a o eq_refl) as [ty Hty].
        rewrite (obj_ty_eq _ _ _ Hty) in Hi. exists a, ty, i. cbn. auto. }
    assert (k <> ALoad /\ k' <> ALoad) as [K1 K2] by (destruct HS as [-> | ->]; destruct HP as [HP|[HP|[HP HP']]]; subst; split; try discriminate; congruence).
    destruct (Key t k A1 K1) as (a & ty & i & Ha & Hi & Hx & Hh).
    destruct (Key u k' A2 K2) as (b & tb & j & Hb & Hj & Hx' & Hh').
    assert (a = b) as -> by (apply (proj2 WF a b ty tb i j); auto; congruence).
    apply Hne. eapply I3; eauto.
  Qed.

  (** ** Who may change what *)
  Lemma step_mem_change s l s' e x :
    SInv s -> step c s l = Some (s', e) -> mem s' x <> mem s x ->
    exists a o ty i, pc_obj (pcs s (tid l)) = Some (a, o) /\ objs c a = Some ty /\ (i < len c ty)%nat /\
      x = chunk_addr c a i /\ is_load o = false /\ holder (pcs s (tid l)) (lock_index a) /\
      exists st new j r, pcs s (tid l) = LWrite a o st new j r /\ is_err r = false.
  Proof.
    intros (I1 & _) Hs Hx. unfold step in Hs. pose proof (I1 (tid l)) as [Po Pt].
    destruct (pcs s (tid l)) as [ | a o | a o | a o sh0 g | a o sh0 sl acc g g2 | a o sh0 sl v g g2
                          | a o sh0 sl lo' v g g2 g3 | a o | a o | a o st acc | a o st new i r
                          | a o st r | a o st h r | a o next bump r | r ] eqn:Ep;
      try (repeat match type of Hs with
           | context [match ?d with _ => _ end] => destruct d; try discriminate
           end; injection Hs as <- <-; cbn in Hx; congruence).
    destruct (Nat.ltb_spec i (len c (obj_ty c a))) as [Hlt|Hge].
    - injection Hs as <- <-. cbn in Hx. unfold set_z in Hx.
      destruct (Z.eqb_spec x (chunk_addr c a i)) as [->|]; [|contradiction].
      destruct (Po a o eq_refl) as [ty Hty]. rewrite (obj_ty_eq _ _ _ Hty) in Hlt.
      destruct Pt as (P1 & P2 & P3).
      exists a, o, ty, i. splits; auto; [reflexivity|]. exists st, new, i, r. auto.
    - destruct (wide c && (next_lo c st =? 0)); injection Hs as <- <-; cbn in Hx; congruence.
  Qed.
End Struct.
