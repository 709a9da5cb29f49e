(** Simulation proof for the lock-based fallback. *)
From Coq Require Import ZArith Lia Bool List PeanoNat ZifyBool.
From Verif Require Import Words Spec WordsFacts LinFacts OrderingModel FallbackModel FallbackFacts.
Import ListNotations.
Open Scope Z_scope.

Local Arguments spec_op : simpl never.
Local Arguments order_ok : simpl never.
Ltac splits := repeat match goal with |- _ /\ _ => split end.

Ltac dlia := cbv beta iota in *; Z.to_euclidean_division_equations; lia.

Ltac klia := first [lia | repeat match goal with k := _ |- _ => subst k end; lia].

Ltac kcong := first [congruence | repeat match goal with k := _ |- _ => subst k end; congruence].

Section Sim.
  Variable c : config.
  Hypothesis WF : wf_config c.

  Local Notation rstate := (@rstate op res).
  Local Notation B := (state_bits c).

  (** era of the high word, stamp of the low word *)
  Definition era (n : Z) : Z := n / 2 ^ 31.
  Definition stamp (n : Z) : Z := (2 * n) mod 2 ^ B.

  Definition holder (p : pc) (k : Z) : Prop :=
    match p with
    | LRead a _ _ _ | LWrite a _ _ _ _ _ | RelHiLd a _ _ _ | RelHiSt a _ _ _ _ | Rel a _ _ _ _ =>
      lock_index a = k
    | _ => False
    end.
  (** about to bump the version: will complete a write *)
  Definition writing_at (p : pc) (a : Z) : Prop :=
    match p with
    | LWrite a' _ _ _ _ _ | RelHiLd a' _ _ _ | RelHiSt a' _ _ _ _ | Rel a' _ _ true _ => a' = a
    | _ => False
    end.
  Definition writing (p : pc) (k : Z) : Prop := exists a, writing_at p a /\ lock_index a = k.
  Definition rel_true (p : pc) (k : Z) : Prop :=
    match p with Rel a _ _ true _ => lock_index a = k | _ => False end.

  Record shared := mk_shared {
    xm : Z -> Z; xl : Z -> lock_state; xw : Z -> Z; xv : Z -> Z; xWR : Z -> Prop; xRT : Z -> Prop }.
  Definition sh (s : state) (A : rstate) : shared :=
    mk_shared (mem s) (locks s) (writes s) (rvals A)
              (fun k => exists t, writing (pcs s t) k) (fun k => exists t, rel_true (pcs s t) k).

  Definition pend (ph : @rphase op res) (a : Z) (o : op) : Prop :=
    ph = RPending a o \/ exists r, ph = RSeen a o r.
  Definition good (a : Z) (o : op) : Prop :=
    exists ty, objs c a = Some ty /\ op_typed ty o /\ order_ok o = true.
  Definition isload (o : op) : Prop := exists ord, o = OLoad ord.

  Definition held (x : shared) (k : Z) (st : Z) : Prop :=
    lo (xl x k) = LOCKED /\ st = stamp (xw x k) /\
    (wide c = true -> hi (xl x k) = era (xw x k) mod 2 ^ 32).

  Definition hi_inv (sh g g2 : Z) : Prop :=
    wide c = true -> g <= g2 /\ exists hc, sh = hc mod 2 ^ 32 /\ era g <= hc <= era g2.

  Definition will_write (x : shared) (a : Z) (o : op) (r : res) (w : Z) : Prop :=
    spec_op (obj_ty c a) o (xv x a) = (w, r) /\ in_range (obj_ty c a) w.

  Definition tinv (x : shared) (p : pc) (ph : @rphase op res) : Prop :=
    match p with
    | Idle => ph = RIdle
    | Start a o => (exists ty, objs c a = Some ty /\ op_typed ty o) /\ pend ph a o
    | OptHi a o => wide c = true /\ good a o /\ isload o /\ pend ph a o
    | OptLo a o sh g =>
      good a o /\ isload o /\ pend ph a o /\
      (wide c = true ->
         let W := xw x (lock_index a) in
         g <= W /\ exists hc, sh = hc mod 2 ^ 32 /\ era g <= hc /\
           (hc <= era W \/ (xRT x (lock_index a) /\ hc <= era (W + 1))))
    | OptRead a o sh sl acc g g2 =>
      good a o /\ isload o /\ pend ph a o /\
      sl = stamp g2 /\ g2 <= xw x (lock_index a) /\ hi_inv sh g g2 /\
      (length acc <= len c (obj_ty c a))%nat /\
      (g2 = xw x (lock_index a) -> ~ xWR x (lock_index a) ->
         acc = firstn (length acc) (to_chunks c (obj_ty c a) (xv x a)))
    | ValLo a o sh sl v g g2 =>
      good a o /\ isload o /\ pend ph a o /\
      sl = stamp g2 /\ g2 <= xw x (lock_index a) /\ hi_inv sh g g2 /\
      (g2 = xw x (lock_index a) -> ~ xWR x (lock_index a) -> v = xv x a)
    | ValHi a o sh sl lo' v g g2 g3 =>
      wide c = true /\ good a o /\ isload o /\ pend ph a o /\
      sl = stamp g2 /\ g2 <= g3 <= xw x (lock_index a) /\ hi_inv sh g g2 /\
      (lo' = sl -> lo' = stamp g3) /\
      (lo' = sl -> g2 = g3 -> ph = RSeen a o (RVal v))
    | Acq a o | Spin a o => good a o /\ pend ph a o
    | LRead a o st acc =>
      good a o /\ pend ph a o /\ (forall v ord, o <> OStore v ord) /\
      held x (lock_index a) st /\
      (length acc <= len c (obj_ty c a))%nat /\
      acc = firstn (length acc) (to_chunks c (obj_ty c a) (xv x a))
    | LWrite a o st new i r =>
      good a o /\ pend ph a o /\ held x (lock_index a) st /\
      (i <= len c (obj_ty c a))%nat /\
      exists w, will_write x a o r w /\ new = to_chunks c (obj_ty c a) w /\
        (forall j, (j < i)%nat -> xm x (chunk_addr c a j) = nth j new 0)
    | RelHiLd a o st r =>
      good a o /\ pend ph a o /\ held x (lock_index a) st /\ wide c = true /\ next_lo c st = 0 /\
      exists w, will_write x a o r w /\
        chunks_at c (xm x) a (len c (obj_ty c a)) = to_chunks c (obj_ty c a) w
    | RelHiSt a o st h r =>
      good a o /\ pend ph a o /\ held x (lock_index a) st /\ wide c = true /\ next_lo c st = 0 /\
      h = hi (xl x (lock_index a)) /\
      exists w, will_write x a o r w /\
        chunks_at c (xm x) a (len c (obj_ty c a)) = to_chunks c (obj_ty c a) w
    | Rel a o next false r =>
      good a o /\ pend ph a o /\ held x (lock_index a) next /\
      spec_op (obj_ty c a) o (xv x a) = (xv x a, r)
    | Rel a o next true r =>
      good a o /\ pend ph a o /\
      lo (xl x (lock_index a)) = LOCKED /\ next = stamp (xw x (lock_index a) + 1) /\
      (wide c = true -> hi (xl x (lock_index a)) = era (xw x (lock_index a) + 1) mod 2 ^ 32) /\
      exists w, will_write x a o r w /\
        chunks_at c (xm x) a (len c (obj_ty c a)) = to_chunks c (obj_ty c a) w
    | Fin r => ph = RDone r \/ exists a o, ph = RSeen a o r
    end.

  Definition lock_inv (s : state) (k : Z) : Prop :=
    0 <= writes s k /\
    (lo (locks s k) <> LOCKED ->
       lo (locks s k) = stamp (writes s k) /\
       (wide c = true -> hi (locks s k) = era (writes s k) mod 2 ^ 32)) /\
    (lo (locks s k) = LOCKED -> exists t, holder (pcs s t) k).
  Definition obj_inv (s : state) (vals : Z -> Z) (a : Z) : Prop :=
    forall ty, objs c a = Some ty ->
      in_range ty (vals a) /\
      ((forall t, ~ writing_at (pcs s t) a) -> chunks_at c (mem s) a (len c ty) = to_chunks c ty (vals a)).

  Definition R (s : state) (A : rstate) : Prop :=
    (forall t, tinv (sh s A) (pcs s t) (rphases A t)) /\
    (forall t t' k, holder (pcs s t) k -> holder (pcs s t') k -> t = t') /\
    (forall k, lock_inv s k) /\
    (forall a, obj_inv s (rvals A) a).

  (** ** Stability of a thread's invariant under other threads' steps *)
  Definition stableN (x x' : shared) (k : Z) : Prop :=
    xw x k <= xw x' k /\
    (xRT x k -> xRT x' k \/ xw x k < xw x' k) /\
    (xw x' k = xw x k -> ~ xWR x' k -> ~ xWR x k /\ forall a, lock_index a = k -> xv x' a = xv x a).
  Definition stableH (x x' : shared) (k : Z) : Prop :=
    xl x' k = xl x k /\ xw x' k = xw x k /\
    forall a ty, objs c a = Some ty -> lock_index a = k ->
      xv x' a = xv x a /\ forall i, (i < len c ty)%nat -> xm x' (chunk_addr c a i) = xm x (chunk_addr c a i).

  Lemma era_mono a b : a <= b -> era a <= era b.
  Proof. unfold era. intros. apply Z.div_le_mono; lia. Qed.

  Lemma tinv_stable x x' p ph :
    (forall k, stableN x x' k) -> (forall k, holder p k -> stableH x x' k) ->
    tinv x p ph -> tinv x' p ph.
  Proof.
    intros SN SH. destruct p; cbn [tinv]; try tauto.
    - (* OptLo *)
      intros (G & L & P & H). splits; auto.
      destruct (SN (lock_index a)) as (W & T & _). intros Hw. cbv zeta in *. split.
      + destruct (H Hw) as [Hg _]. lia.
      + destruct (H Hw) as [Hg [hc [E [Hl Hu]]]]. exists hc. splits; auto.
        pose proof (era_mono _ _ W). destruct Hu as [Hu|[HT Hu]].
        * left. lia.
        * destruct (T HT) as [T'|T'].
          { right. split; auto. pose proof (era_mono (xw x (lock_index a) + 1) (xw x' (lock_index a) + 1)). lia. }
          { left. pose proof (era_mono (xw x (lock_index a) + 1) (xw x' (lock_index a))). lia. }
    - (* OptRead *)
      destruct (SN (lock_index a)) as (W & T & V).
      intros (G & L & P & E & Hg & HI & Hl & Hacc). splits; auto; try lia.
      intros Eg HW. assert (xw x' (lock_index a) = xw x (lock_index a)) as Ew by lia.
      destruct (V Ew HW) as [HW' Hv]. rewrite Hv by reflexivity. apply Hacc; auto. lia.
    - (* ValLo *)
      destruct (SN (lock_index a)) as (W & T & V).
      intros (G & L & P & E & Hg & HI & Hacc). splits; auto; try lia.
      intros Eg HW. assert (xw x' (lock_index a) = xw x (lock_index a)) as Ew by lia.
      destruct (V Ew HW) as [HW' Hv]. rewrite Hv by reflexivity. apply Hacc; auto. lia.
    - (* ValHi *)
      destruct (SN (lock_index a)) as (W & T & V).
      intros (Hw & G & L & P & E & Hg & HI & H1 & H2). splits; auto; try lia.
    - (* LRead *)
      destruct (SH (lock_index a) eq_refl) as (El & Ew & Eo).
      intros (G & P & NS & Hh & Hl & Hacc).
      destruct G as [ty [Hty G]]. destruct (Eo a ty Hty eq_refl) as [Ev _].
      splits; auto; try (exists ty; auto; fail); unfold held in *; rewrite ?El, ?Ew, ?Ev; tauto.
    - (* LWrite *)
      destruct (SH (lock_index a) eq_refl) as (El & Ew & Eo).
      intros (G & P & Hh & Hi & w & Hw & En & Hj).
      destruct G as [ty [Hty G]]. destruct (Eo a ty Hty eq_refl) as [Ev Em].
      splits; auto; try (exists ty; auto; fail); unfold held in *; rewrite ?El, ?Ew; try tauto.
      exists w. unfold will_write in *. rewrite Ev. split; [tauto|]. split; [tauto|].
      intros j Hji. rewrite Em; auto. rewrite (obj_ty_eq _ _ _ Hty) in Hi. lia.
    - (* RelHiLd *)
      destruct (SH (lock_index a) eq_refl) as (El & Ew & Eo).
      intros (G & P & Hh & Hwd & Hn & w & Hw & Hm).
      destruct G as [ty [Hty G]]. destruct (Eo a ty Hty eq_refl) as [Ev Em].
      splits; auto; try (exists ty; auto; fail); unfold held in *; rewrite ?El, ?Ew; try tauto.
      exists w. unfold will_write in *. rewrite Ev. split; [tauto|].
      rewrite <- Hm. apply chunks_at_ext. rewrite (obj_ty_eq _ _ _ Hty). exact Em.
    - (* RelHiSt *)
      destruct (SH (lock_index a) eq_refl) as (El & Ew & Eo).
      intros (G & P & Hh & Hwd & Hn & Eh & w & Hw & Hm).
      destruct G as [ty [Hty G]]. destruct (Eo a ty Hty eq_refl) as [Ev Em].
      splits; auto; try (exists ty; auto; fail); unfold held in *; rewrite ?El, ?Ew; try tauto.
      exists w. unfold will_write in *. rewrite Ev. split; [tauto|].
      rewrite <- Hm. apply chunks_at_ext. rewrite (obj_ty_eq _ _ _ Hty). exact Em.
    - (* Rel *)
      destruct (SH (lock_index a) eq_refl) as (El & Ew & Eo). destruct bump.
      + intros (G & P & Hlo & Hn & Hhi & w & Hw & Hm).
        destruct G as [ty [Hty G]]. destruct (Eo a ty Hty eq_refl) as [Ev Em].
        splits; auto; try (exists ty; auto; fail); rewrite ?El, ?Ew; try tauto.
        exists w. unfold will_write in *. rewrite Ev. split; [tauto|].
        rewrite <- Hm. apply chunks_at_ext. rewrite (obj_ty_eq _ _ _ Hty). exact Em.
      + intros (G & P & Hh & Hs).
        destruct G as [ty [Hty G]]. destruct (Eo a ty Hty eq_refl) as [Ev Em].
        splits; auto; try (exists ty; auto; fail); unfold held in *; rewrite ?El, ?Ew, ?Ev; tauto.
  Qed.

  (** ** Assembling the relation after a step of thread [t] *)
  Lemma R_after s A s' A' t :
    R s A ->
    (forall u, u <> t -> pcs s' u = pcs s u /\ rphases A' u = rphases A u) ->
    (forall k, stableN (sh s A) (sh s' A') k) ->
    (forall u k, u <> t -> holder (pcs s u) k -> stableH (sh s A) (sh s' A') k) ->
    tinv (sh s' A') (pcs s' t) (rphases A' t) ->
    (forall k, holder (pcs s' t) k -> holder (pcs s t) k \/ lo (locks s k) <> LOCKED) ->
    (forall k, lock_inv s' k) ->
    (forall a, obj_inv s' (rvals A') a) ->
    R s' A'.
  Proof.
    intros (RT & RM & RL & RO) Hu SN SH Ht Hm HL HO.
    assert (NH : forall u k, lo (locks s k) <> LOCKED -> ~ holder (pcs s u) k).
    { intros u k Hk Hh. specialize (RT u). unfold tinv in RT.
      destruct (pcs s u); cbn in Hh; try contradiction; subst k; unfold held in RT; cbn in RT; try tauto.
      destruct bump; tauto. }
    split; [|split; [|split]]; auto.
    - intros u. destruct (Nat.eq_dec u t) as [->|Hn]; auto.
      destruct (Hu u Hn) as [E1 E2]. rewrite E1, E2. eapply tinv_stable; eauto.
    - intros u u' k H1 H2.
      destruct (Nat.eq_dec u t) as [->|Hn], (Nat.eq_dec u' t) as [->|Hn']; auto.
      + destruct (Hu u' Hn') as [E _]. rewrite E in H2. destruct (Hm k H1) as [H|H].
        * eauto.
        * exfalso. eapply NH; eauto.
      + destruct (Hu u Hn) as [E _]. rewrite E in H1. destruct (Hm k H2) as [H|H].
        * eauto.
        * exfalso. eapply NH; eauto.
      + destruct (Hu u Hn) as [E _], (Hu u' Hn') as [E' _]. rewrite E in H1. rewrite E' in H2. eauto.
  Qed.

  (** A step that only moves thread [t]'s program counter (shared state untouched) and
      does not change what it holds. *)
  Definition setph (A : rstate) (t : nat) (ph : @rphase op res) : rstate :=
    mk_rstate (rvals A) (updn (rphases A) t ph).

  Lemma R_local s A t p' ph' :
    R s A ->
    (forall k, holder p' k -> holder (pcs s t) k) ->
    (forall k, holder (pcs s t) k -> holder p' k) ->
    (forall k, rel_true (pcs s t) k -> rel_true p' k) ->
    (forall a, writing_at (pcs s t) a -> writing_at p' a) ->
    tinv (sh (go s t p') (setph A t ph')) p' ph' ->
    R (go s t p') (setph A t ph').
  Proof.
    intros HR H1 H2 H3 H4 Ht. pose proof HR as (RT & RM & RL & RO).
    eapply R_after with (t := t); eauto.
    - intros u Hu. cbn. now rewrite set_n_other, updn_other.
    - intros k. split; [cbn; lia|]. split.
      + intros [u Hr]. left. exists u. cbn. destruct (Nat.eq_dec u t) as [->|Hn].
        * rewrite set_n_same. auto.
        * now rewrite set_n_other.
      + intros _ NW. split; [|reflexivity]. intros [u [a [Hw Hk]]]. apply NW. exists u, a. split; auto. cbn.
        destruct (Nat.eq_dec u t) as [->|Hn].
        * rewrite set_n_same. auto.
        * now rewrite set_n_other.
    - intros u k Hu Hh. split; [|split]; auto.
    - cbn. now rewrite set_n_same, updn_same.
    - intros k. cbn. rewrite set_n_same. auto.
    - intros k. destruct (RL k) as (W & L1 & L2). split; [exact W|]. split; [exact L1|].
      intros E. destruct (L2 E) as [u Hh]. exists u. cbn. destruct (Nat.eq_dec u t) as [->|Hn].
      + rewrite set_n_same. auto.
      + now rewrite set_n_other.
    - intros a ty Hty. destruct (RO a ty Hty) as [Hr Hm]. split; [exact Hr|]. intros NW. apply Hm.
      intros u Hw. apply (NW u). cbn. destruct (Nat.eq_dec u t) as [->|Hn].
      + rewrite set_n_same. auto.
      + now rewrite set_n_other.
  Qed.

  Lemma stamp_even n : stamp n <> LOCKED.
  Proof.
    unfold stamp, LOCKED. intros E.
    assert (B = 32 \/ B = 64) as [Hb|Hb] by (unfold state_bits; destruct (wide c); auto); rewrite Hb in E.
    - pose proof (Z.div_mod (2 * n) (2 ^ 32)). lia.
    - pose proof (Z.div_mod (2 * n) (2 ^ 64)). lia.
  Qed.

  Lemma next_lo_stamp n : next_lo c (stamp n) = stamp (n + 1).
  Proof.
    unfold next_lo, stamp. rewrite Z.add_mod_idemp_l.
    - f_equal. lia.
    - unfold state_bits; destruct (wide c); lia.
  Qed.

  Lemma era_next n : wide c = true -> next_lo c (stamp n) <> 0 -> era (n + 1) = era n.
  Proof.
    rewrite next_lo_stamp. unfold stamp, era, state_bits. intros ->. intros H.
    dlia.
  Qed.
  Lemma era_wrap n : wide c = true -> next_lo c (stamp n) = 0 -> era (n + 1) = era n + 1.
  Proof.
    rewrite next_lo_stamp. unfold stamp, era, state_bits. intros ->. intros H.
    dlia.
  Qed.

  (** the abstract semantics used *)
  Local Notation sem := (atomic_var c).

  Lemma pend_effect A t a o v' r A' :
    pend (rphases A t) a o -> sem a o (rvals A a) (v', r) ->
    fun_upd_eq (rvals A) a v' (rvals A') ->
    fun_upd_eq (rphases A) t (RDone r) (rphases A') -> rstep sem A [] A'.
  Proof. intros P S V U. eapply r_effect; eauto. Qed.

  Lemma updn_eq (f : nat -> @rphase op res) t v : fun_upd_eq f t v (updn f t v).
  Proof. split; [apply updn_same|]. intros; now apply updn_other. Qed.

  Lemma setph_noop_R s A t p : R s (setph A t (rphases A t)) -> pcs s t = p -> R s A.
  Proof.
    intros (H1 & H2 & H3 & H4) _. split; [|split; [|split]]; auto.
    intros u. specialize (H1 u). cbn in H1. unfold updn in H1.
    destruct (Nat.eqb_spec u t) as [E|]; [subst u|]; exact H1.
  Qed.

  Lemma updn_id_ph (A : rstate) t u : updn (rphases A) t (rphases A t) u = rphases A u.
  Proof. unfold updn. destruct (Nat.eqb_spec u t) as [->|]; auto. Qed.

  Definition sim_result (A : rstate) (e : list (event op res)) (s' : state) : Prop :=
    exists A', ((e = [] /\ A' = A) \/ rstep sem A e A') /\ R s' A'.

  (** local step, no abstract step *)
  Lemma local_silent s A t p' :
    R s A ->
    (forall k, holder p' k -> holder (pcs s t) k) ->
    (forall k, holder (pcs s t) k -> holder p' k) ->
    (forall k, rel_true (pcs s t) k -> rel_true p' k) ->
    (forall a, writing_at (pcs s t) a -> writing_at p' a) ->
    tinv (sh (go s t p') A) p' (rphases A t) ->
    sim_result A [] (go s t p').
  Proof.
    intros. exists A. split; [now left|].
    eapply setph_noop_R with (t := t); [|reflexivity]. apply R_local; auto.
  Qed.

  Lemma good_intro a o ty : objs c a = Some ty -> op_typed ty o -> order_ok o = true -> good a o.
  Proof. intros; exists ty; auto. Qed.

  Lemma writer_holds p a : writing_at p a -> holder p (lock_index a).
  Proof. destruct p; cbn; try tauto; try (now intros ->). destruct bump; cbn; [now intros ->|tauto]. Qed.

  Lemma others_not_writing s A t a :
    R s A -> holder (pcs s t) (lock_index a) -> ~ writing_at (pcs s t) a ->
    forall u, ~ writing_at (pcs s u) a.
  Proof.
    intros (RT & RM & RL & RO) Hh Hn u Hw. pose proof (writer_holds _ _ Hw) as Hu.
    rewrite (RM _ _ _ Hu Hh) in Hw. contradiction.
  Qed.

  (** Acquiring the lock. *)
  Lemma R_acquire s A t a p' :
    R s A ->
    (forall k, ~ holder (pcs s t) k) ->
    lo (locks s (lock_index a)) <> LOCKED ->
    (forall k, holder p' k -> k = lock_index a) -> holder p' (lock_index a) ->
    (forall k, ~ rel_true p' k) ->
    let s' := mk_state (mem s) (set_z (locks s) (lock_index a) (mk_lock LOCKED (hi (locks s (lock_index a)))))
                       (set_n (pcs s) t p') (writes s) in
    tinv (sh s' A) p' (rphases A t) ->
    R s' A.
  Proof.
    intros HR NH NL Hp Hp' NRT s' Ht. pose proof HR as (RT & RM & RL & RO).
    assert (Hot : forall u, u <> t -> pcs s' u = pcs s u) by (intros; cbn; now rewrite set_n_other).
    assert (NW : forall b, ~ writing_at (pcs s t) b) by (intros b Hb; apply writer_holds in Hb; eapply NH; eauto).
    eapply R_after with (t := t); eauto.
    - intros k. split; [cbn; lia|]. split.
      + intros [u Hu]. left. exists u. cbn. destruct (Nat.eq_dec u t) as [->|Hn].
        * exfalso. apply (NH k). cbn in Hu. destruct (pcs s t); cbn in *; try contradiction. destruct bump; auto; contradiction.
        * now rewrite set_n_other.
      + intros _ H. split; [|reflexivity]. intros [u [b [Hb1 Hb2]]]. apply H. exists u, b. split; auto. cbn.
        destruct (Nat.eq_dec u t) as [->|Hn].
        * exfalso. eapply NW; eauto.
        * now rewrite set_n_other.
    - intros u k Hu Hh. split; [|split]; auto. cbn. apply set_z_other. intros ->.
      pose proof (RT u) as Tu. destruct (pcs s u); cbn in Hh; try contradiction; cbn [tinv] in Tu; unfold held in Tu; cbn [sh xl] in Tu; rewrite ?Hh in Tu; try tauto.
      destruct bump; cbn in Tu; rewrite ?Hh in Tu; tauto.
    - cbn. now rewrite set_n_same.
    - cbn. rewrite set_n_same. intros k Hk. right. now rewrite (Hp k Hk).
    - intros k. destruct (RL k) as (W & L1 & L2). split; [exact W|]. cbn.
      destruct (Z.eq_dec k (lock_index a)) as [->|Hk].
      + rewrite set_z_same. cbn. split; [tauto|]. intros _. exists t. now rewrite set_n_same.
      + rewrite set_z_other by assumption. split; [exact L1|]. intros E. destruct (L2 E) as [u Hu]. exists u.
        rewrite set_n_other; auto. intros ->. eapply NH; eauto.
    - intros b ty Hty. destruct (RO b ty Hty) as [Hr Hm]. split; [exact Hr|]. intros H. apply Hm. intros u Hw.
      destruct (Nat.eq_dec u t) as [->|Hn]; [eapply NW; eauto|]. apply (H u). now rewrite Hot.
  Qed.

  Lemma sim_step s A l s' e :
    R s A -> window_ok c s (tid l) -> step c s l = Some (s', e) -> sim_result A e s'.
  Proof.
    intros HR HW. pose proof HR as (RT & RM & RL & RO).
    unfold step. set (t := tid l) in *. pose proof (RT t) as Ht.
    destruct (pcs s t) as [ | a o | a o | a o sh0 g | a o sh0 sl acc g g2 | a o sh0 sl v g g2
                          | a o sh0 sl lo' v g g2 g3 | a o | a o | a o st acc | a o st new i r
                          | a o st r | a o st h r | a o next bump r | r ] eqn:Ep; cbn [tinv] in Ht.
    - (* Idle: call *)
      destruct (call l) as [[a o]|]; [|discriminate].
      destruct (objs c a) as [ty|] eqn:Ety; [|discriminate].
      destruct (op_typedb ty o) eqn:Eo; [|discriminate]. intros [= <- <-].
      exists (setph A t (RPending a o)). split.
      + right. eapply r_call; [exact Ht|reflexivity|apply updn_eq].
      + apply R_local; auto; try (rewrite Ep; cbn; tauto); cbn; try tauto.
        split; [|now left]. exists ty. split; auto. now apply op_typedb_iff.
    - (* Start *)
      destruct Ht as [[ty [Ety To]] P].
      destruct (order_ok o) eqn:Eo.
      + assert (G : good a o) by (eapply good_intro; eauto).
        destruct o as [ord|v ord|r ord|cu nw su fa].
        * destruct (wide c) eqn:Ew; intros [= <- <-]; apply local_silent; auto; try (rewrite Ep; cbn; tauto); cbn; try tauto.
          { splits; auto. now exists ord. }
          { splits; auto; try (now exists ord); intros; kcong. }
        * intros [= <- <-]. apply local_silent; auto; try (rewrite Ep; cbn; tauto); cbn; try tauto.
        * intros [= <- <-]. apply local_silent; auto; try (rewrite Ep; cbn; tauto); cbn; try tauto.
        * intros [= <- <-]. apply local_silent; auto; try (rewrite Ep; cbn; tauto); cbn; try tauto.
      + intros [= <- <-]. exists (setph A t (RDone RPanic)). split.
        * right. eapply pend_effect with (a := a) (o := o) (t := t) (v' := rvals A a) (r := RPanic); auto.
          { exists ty. split; auto. symmetry. now apply order_bad_spec. }
          { split; reflexivity. }
          { apply updn_eq. }
        * apply R_local; auto; try (rewrite Ep; cbn; tauto); cbn; try tauto.
    - (* OptHi *)
      destruct Ht as (Ew & G & L & P). intros [= <- <-].
      apply local_silent; auto; try (rewrite Ep; cbn; tauto); cbn; try tauto.
      splits; auto. intros _. split; [lia|].
      set (k := lock_index a). destruct (RL k) as (W0 & L1 & L2).
      destruct (Z.eq_dec (lo (locks s k)) LOCKED) as [E|E].
      + destruct (L2 E) as [u Hh]. pose proof (RT u) as Hu.
        assert ((hi (locks s k) = era (writes s k) mod 2 ^ 32) \/
                (rel_true (pcs s u) k /\ hi (locks s k) = era (writes s k + 1) mod 2 ^ 32)) as D.
        { destruct (pcs s u) eqn:Eu; cbn in Hh; try contradiction; cbn [tinv] in Hu; unfold held in Hu; cbn [sh xl xw] in Hu; rewrite ?Hh in Hu; try (left; tauto).
          destruct bump.
          - right. split; [exact Hh|]. cbn in Hu. rewrite ?Hh in Hu. tauto.
          - left. cbn in Hu. rewrite ?Hh in Hu. tauto. }
        destruct D as [D|[D1 D2]].
        * exists (era (writes s k)). splits; auto; try klia.
        * exists (era (writes s k + 1)). splits; auto.
          { apply era_mono; lia. }
          { right. split; [|lia]. exists u. cbn. destruct (Nat.eq_dec u t) as [->|Hn].
            - rewrite Ep in D1. contradiction.
            - now rewrite set_n_other. }
      + destruct (L1 E) as [_ Hhi]. exists (era (writes s k)). splits; auto; try klia.
    - (* OptLo *)
      destruct Ht as (G & L & P & HI). set (k := lock_index a) in *.
      destruct (Z.eqb_spec (lo (locks s k)) LOCKED) as [E|E]; intros [= <- <-].
      + apply local_silent; auto; try (rewrite Ep; cbn; tauto); cbn; try tauto.
      + destruct (RL k) as (W0 & L1 & L2). destruct (L1 E) as [Elo Ehi].
        apply local_silent; auto; try (rewrite Ep; cbn; tauto); cbn; try tauto.
        splits; auto; try klia.
        intros Hw. split.
        * apply (HI Hw).
        * destruct (HI Hw) as [Hg [hc [Eh [Hl Hu]]]]. exists hc. splits; auto.
          destruct Hu as [Hu|[[u Hu] Hu']]; [exact Hu|]. exfalso.
          pose proof (RT u) as Tu. cbn in Hu. destruct (pcs s u); cbn in Hu; try contradiction.
          destruct bump; try contradiction. cbn [tinv] in Tu. destruct Tu as (_ & _ & Hlo & _).
          rewrite Hu in Hlo. contradiction.
    - (* OptRead *)
      destruct Ht as (G & L & P & Esl & Hg & HI & Hl & Hacc). set (k := lock_index a) in *.
      destruct G as [ty [Ety Gr]]. assert (G : good a o) by (exists ty; auto).
      rewrite (obj_ty_eq _ _ _ Ety) in *.
      destruct (Nat.ltb_spec (length acc) (len c ty)) as [Hlt|Hge]; intros [= <- <-].
      + apply local_silent; auto; try (rewrite Ep; cbn; tauto); cbn; try tauto.
        rewrite ?(obj_ty_eq _ _ _ Ety). splits; auto.
        * rewrite app_length; cbn; lia.
        * intros Eg NW. assert (NW' : ~ (exists t0, writing (pcs s t0) k)).
          { intros [u [b [Hw Hb]]]. apply NW. exists u, b. split; auto. destruct (Nat.eq_dec u t) as [->|Hn].
            - rewrite Ep in Hw. contradiction.
            - now rewrite set_n_other. }
          specialize (Hacc Eg NW'). destruct (RO a ty Ety) as [Hr Hm].
          rewrite app_length; cbn [length]. rewrite Nat.add_1_r.
          rewrite firstn_snoc with (d := 0) by now rewrite to_chunks_length.
          f_equal; auto. f_equal. rewrite <- Hm.
          { symmetry. now apply chunks_at_nth. }
          { intros u Hw. apply NW'. exists u, a. auto. }
      + apply local_silent; auto; try (rewrite Ep; cbn; tauto); cbn; try tauto.
        splits; auto.
        intros Eg NW. assert (NW' : ~ (exists t0, writing (pcs s t0) k)).
        { intros [u [b [Hw Hb]]]. apply NW. exists u, b. split; auto. destruct (Nat.eq_dec u t) as [->|Hn].
          - rewrite Ep in Hw. contradiction.
          - now rewrite set_n_other. }
        specialize (Hacc Eg NW'). destruct (RO a ty Ety) as [Hr Hm].
        rewrite ?(obj_ty_eq _ _ _ Ety).
        rewrite firstn_all2 in Hacc by (rewrite to_chunks_length; lia). cbn in Hacc. rewrite Hacc. eapply of_to_chunks; eauto.
    - (* ValLo *)
      destruct Ht as (G & L & P & Esl & Hg & HI & Hv). set (k := lock_index a) in *.
      destruct G as [ty [Ety [To Oo]]]. assert (G : good a o) by (exists ty; auto).
      destruct (RL k) as (W0 & L1 & L2).
      assert (NWR : lo (locks s k) = sl -> ~ (exists t0, writing (pcs s t0) k)).
      { intros Es [u [b [Hw Hb]]]. pose proof (RT u) as Tu.
        assert (lo (locks s k) = LOCKED) as El.
        { destruct (pcs s u); cbn in Hw; try contradiction; try subst b; cbn [tinv] in Tu; unfold held in Tu; cbn [sh xl] in Tu; rewrite ?Hb in Tu; try tauto.
          destruct bump; try contradiction. subst b. cbn in Tu. rewrite ?Hb in Tu. tauto. }
        rewrite El in Es. apply (stamp_even g2). kcong. }
      destruct L as [ord ->].
      assert (Hsem : sem a (OLoad ord) (rvals A a) (rvals A a, RVal (rvals A a))).
      { exists ty. split; auto. symmetry. now apply spec_load. }
      destruct (wide c) eqn:Ew.
      + intros [= <- <-].
        destruct (Z.eq_dec (lo (locks s k)) sl) as [Es|Es].
        * destruct (Z.eq_dec g2 (writes s k)) as [Eg|Eg].
          { (* observe *)
            exists (setph A t (RSeen a (OLoad ord) (RVal v))). split.
            - right. eapply r_observe with (a := a) (o := OLoad ord) (t := t) (r := RVal v).
              + destruct P as [P|P]; auto.
              + rewrite Hv; auto.
              + reflexivity.
              + apply updn_eq.
            - apply R_local; auto; try (rewrite Ep; cbn; tauto); cbn; try tauto.
              splits; auto; try klia; try (now exists ord).
              { right. now exists (RVal v). }
              { intros _. rewrite Es. subst sl g2. reflexivity. } }
          { apply local_silent; auto; try (rewrite Ep; cbn; tauto); cbn; try tauto.
            splits; auto; try klia; try (now exists ord).
            intros _. apply L1. rewrite Es, Esl. apply stamp_even. }
        * apply local_silent; auto; try (rewrite Ep; cbn; tauto); cbn; try tauto.
          splits; auto; try klia; try (now exists ord); fold k; tauto.
      + destruct (Z.eqb_spec (lo (locks s k)) sl) as [Es|Es]; intros [= <- <-].
        * exists (setph A t (RDone (RVal v))). split.
          { right. assert (v = rvals A a) as ->.
            { apply Hv; [|now apply NWR].
              unfold window_ok in HW. rewrite Ep in HW. specialize (HW Ew). unfold max_window in HW. rewrite Ew in HW.
              cbn in Hg. fold k in HW.
              assert (lo (locks s k) <> LOCKED) as NL by (rewrite Es, Esl; apply stamp_even).
              destruct (L1 NL) as [El _]. rewrite Es, Esl in El. unfold stamp, state_bits in El. rewrite Ew in El.
              cbn. dlia. }
            eapply pend_effect with (a := a) (o := OLoad ord) (t := t) (v' := rvals A a); auto.
            - exact Hsem.
            - split; reflexivity.
            - apply updn_eq. }
          { apply R_local; auto; try (rewrite Ep; cbn; tauto); cbn; try tauto. }
        * apply local_silent; auto; try (rewrite Ep; cbn; tauto); cbn; try tauto.
    - (* ValHi *)
      destruct Ht as (Ew & G & L & P & Esl & Hg & HI & Hl3 & Hseen). set (k := lock_index a) in *.
      destruct (Z.eqb_spec (hi (locks s k)) sh0) as [Eh|Eh];
        [destruct (Z.eqb_spec lo' sl) as [El|El]|]; cbn [andb]; intros [= <- <-].
      + specialize (Hl3 El). specialize (Hseen El).
        assert (exists hc', hi (locks s k) = hc' mod 2 ^ 32 /\ era (writes s k) <= hc' <= era (writes s k + 1)) as [hc' [Eh' Hb']].
        { pose proof (era_mono (writes s k) (writes s k + 1)).
          destruct (RL k) as (W0 & L1 & L2). destruct (Z.eq_dec (lo (locks s k)) LOCKED) as [E|E].
          - destruct (L2 E) as [u Hh]. pose proof (RT u) as Tu.
            destruct (pcs s u) eqn:Eu; cbn in Hh; try contradiction; cbn [tinv] in Tu; unfold held in Tu; cbn [sh xl xw] in Tu; rewrite ?Hh in Tu;
              try (exists (era (writes s k)); split; [tauto|lia]).
            destruct bump; cbn in Tu; rewrite ?Hh in Tu.
            + exists (era (writes s k + 1)). split; [tauto|lia].
            + exists (era (writes s k)). split; [tauto|lia].
          - exists (era (writes s k)). split; [apply L1; auto|lia]. }
        destruct (HI Ew) as [Hgg [hc [Ehc Hhc]]].
        assert (g2 = g3) as E23.
        { unfold window_ok in HW. rewrite Ep in HW. unfold max_window in HW. rewrite Ew in HW. fold k in HW. cbn in Hg.
          rewrite Hl3 in El. rewrite Esl in El. unfold stamp, state_bits in El. rewrite Ew in El.
          pose proof (era_mono g2 g3). pose proof (era_mono g3 (writes s k)).
          assert (hc' - hc < 2 ^ 32).
          { enough (era (writes s k + 1) - era g < 2 ^ 32) by lia.
            unfold era. dlia. }
          rewrite Eh', Ehc in Eh.
          assert (hc = hc').
          { clear - Eh H1 H H0 Hhc Hb' Hg. dlia. }
          subst hc'. assert (era g2 = era g3) by lia. unfold era in H2.
          clear - El H2 Hg. dlia. }
        specialize (Hseen E23).
        apply local_silent; auto; try (rewrite Ep; cbn; tauto); cbn; try tauto.
        right. exists a, o. exact Hseen.
      + apply local_silent; auto; try (rewrite Ep; cbn; tauto); cbn; try tauto.
      + apply local_silent; auto; try (rewrite Ep; cbn; tauto); cbn; try tauto.
    - (* Acq *)
      destruct Ht as (G & P). set (k := lock_index a) in *.
      destruct (Z.eqb_spec (lo (locks s k)) LOCKED) as [E|E].
      + intros [= <- <-]. exists A. split; [now left|].
        assert (El : forall k', set_z (locks s) k (mk_lock LOCKED (hi (locks s k))) k' = locks s k').
        { intros k'. unfold set_z. destruct (Z.eqb_spec k' k) as [->|]; auto. rewrite <- E. now destruct (locks s k). }
        assert (Hot : forall u, u <> t -> set_n (pcs s) t (Spin a o) u = pcs s u) by (intros; now rewrite set_n_other).
        eapply R_after with (t := t) (s := s) (A := A); eauto.
        * intros k'. split; [cbn; lia|]. split.
          { intros [u Hu]. left. exists u. cbn in *. rewrite Hot; auto. intros ->. rewrite Ep in Hu. contradiction. }
          { intros _ H. split; [|reflexivity]. intros [u [b [Hb1 Hb2]]]. apply H. exists u, b. split; auto. cbn in *.
            rewrite Hot; auto. intros ->. rewrite Ep in Hb1. contradiction. }
        * intros u k' Hu Hh. split; [|split]; auto. cbn. apply El.
        * cbn. rewrite set_n_same. cbn. tauto.
        * cbn. rewrite set_n_same. cbn. tauto.
        * intros k'. destruct (RL k') as (W & L1 & L2). split; [exact W|]. cbn. rewrite El. split; [exact L1|].
          intros E'. destruct (L2 E') as [u Hu]. exists u. rewrite Hot; auto. intros ->. rewrite Ep in Hu. contradiction.
        * intros b ty Hty. destruct (RO b ty Hty) as [Hr Hm]. split; [exact Hr|]. intros H. apply Hm. intros u Hw.
          apply (H u). cbn. rewrite Hot; auto. intros ->. rewrite Ep in Hw. contradiction.
      + destruct (RL k) as (W0 & L1 & _). destruct (L1 E) as [Elo Ehi].
        pose proof G as [ty [Ety [To Oo]]].
        assert (Hheld : held (sh (mk_state (mem s) (set_z (locks s) k (mk_lock LOCKED (hi (locks s k)))) (pcs s) (writes s)) A) k (lo (locks s k))).
        { unfold held; cbn. rewrite set_z_same. cbn. auto. }
        assert (NS : (exists v ord, o = OStore v ord) \/ (forall v ord, o <> OStore v ord)).
        { destruct o; try (right; intros; discriminate). left; eauto. }
        destruct NS as [[v [ord ->]]|NS].
        * intros [= <- <-]. exists A. split; [now left|].
          unfold go; cbn [mem locks pcs writes]; apply (R_acquire s A t a); auto; try (rewrite Ep; cbn; tauto); cbn; try tauto; try (intros; symmetry; assumption).
          rewrite ?(obj_ty_eq _ _ _ Ety). splits; auto; try klia.
          exists v. unfold will_write. cbn. rewrite ?(obj_ty_eq _ _ _ Ety). splits; auto.
          { now apply spec_store. }
          { intros j Hj. lia. }
        * replace (match o with
                   | OStore v _ => _
                   | _ => Some (go (mk_state (mem s) (set_z (locks s) k (mk_lock LOCKED (hi (locks s k)))) (pcs s) (writes s)) t (LRead a o (lo (locks s k)) []), [])
                   end) with (Some (go (mk_state (mem s) (set_z (locks s) k (mk_lock LOCKED (hi (locks s k)))) (pcs s) (writes s)) t (LRead a o (lo (locks s k)) []), @nil (event op res)))
            by (destruct o; auto; exfalso; eapply NS; eauto).
          intros [= <- <-]. exists A. split; [now left|].
          unfold go; cbn [mem locks pcs writes]; apply (R_acquire s A t a); auto; try (rewrite Ep; cbn; tauto); cbn; try tauto; try (intros; symmetry; assumption).
          splits; auto; klia.
    - (* Spin *)
      destruct (Z.eqb_spec (lo (locks s (lock_index a))) LOCKED) as [E|E]; intros [= <- <-].
      + exists A. split; auto.
      + apply local_silent; auto; try (rewrite Ep; cbn; tauto); cbn; try tauto.
    - (* LRead *)
      destruct Ht as (G & P & NS & Hh & Hl & Hacc). set (k := lock_index a) in *.
      pose proof G as [ty [Ety [To Oo]]]. rewrite (obj_ty_eq _ _ _ Ety) in *.
      assert (NW : forall u, ~ writing_at (pcs s u) a).
      { apply others_not_writing with (A := A) (t := t); auto; rewrite Ep; cbn; auto. }
      destruct (RO a ty Ety) as [Hr Hm]. specialize (Hm NW).
      destruct (Nat.ltb_spec (length acc) (len c ty)) as [Hlt|Hge].
      + intros [= <- <-]. apply local_silent; auto; try (rewrite Ep; cbn; tauto); cbn; try tauto.
        rewrite ?(obj_ty_eq _ _ _ Ety). splits; auto.
        * rewrite app_length; cbn; lia.
        * rewrite app_length; cbn [length]. rewrite Nat.add_1_r.
          rewrite firstn_snoc with (d := 0) by now rewrite to_chunks_length.
          f_equal; auto. f_equal. rewrite <- Hm. symmetry. now apply chunks_at_nth.
      + assert (Hprev : of_chunks c ty acc = rvals A a).
        { rewrite firstn_all2 in Hacc by (rewrite to_chunks_length; lia). cbn in Hacc. rewrite Hacc. eapply of_to_chunks; eauto. }
        rewrite Hprev.
        assert (WWr : forall w r, spec_op ty o (rvals A a) = (w, r) ->
                  sim_result A [] (go s t (LWrite a o st (to_chunks c ty w) 0 r))).
        { intros w r Hs. apply local_silent; auto; try (rewrite Ep; cbn; tauto); cbn; try tauto.
          rewrite ?(obj_ty_eq _ _ _ Ety). splits; auto; try klia.
          exists w. unfold will_write; cbn. rewrite ?(obj_ty_eq _ _ _ Ety). splits; auto.
          - pose proof (spec_op_range ty o (rvals A a) (obj_wf c WF _ _ Ety) Hr To) as Hw. now rewrite Hs in Hw.
          - intros; lia. }
        assert (RRel : forall r, spec_op ty o (rvals A a) = (rvals A a, r) ->
                  sim_result A [] (go s t (Rel a o st false r))).
        { intros r Hs. apply local_silent; auto; try (rewrite Ep; cbn; tauto); cbn; try tauto.
          rewrite ?(obj_ty_eq _ _ _ Ety). splits; auto. }
        destruct o as [ord|v ord|rm ord|cu nw su fa].
        * intros [= <- <-]. apply RRel. now apply spec_load.
        * exfalso. eapply NS; eauto.
        * intros [= <- <-]. cbn in To. rewrite rmw_next_spec by (eauto using obj_wf). apply WWr. reflexivity.
        * pose proof (spec_cas ty cu nw su fa (rvals A a) Oo) as Hs.
          destruct (rvals A a =? cu); intros [= <- <-]; auto.
    - (* LWrite *)
      destruct Ht as (G & P & Hh & Hi & w & Hw & En & Hj). set (k := lock_index a) in *.
      pose proof G as [ty [Ety [To Oo]]]. rewrite (obj_ty_eq _ _ _ Ety) in *.
      destruct (Nat.ltb_spec i (len c ty)) as [Hlt|Hge].
      + intros [= <- <-]. exists A. split; [now left|].
        assert (Hdis : forall b tb j, objs c b = Some tb -> (j < len c tb)%nat -> b <> a \/ j <> i ->
                  set_z (mem s) (chunk_addr c a i) (nth i new 0) (chunk_addr c b j) = mem s (chunk_addr c b j)).
        { intros b tb j Hb Hjb Hd. apply set_z_other. intros E.
          destruct (chunk_addr_inj c WF b a tb ty j i Hb Ety Hjb Hlt E). intuition. }
        assert (Hot : forall u, u <> t -> set_n (pcs s) t (LWrite a o st new (S i) r) u = pcs s u) by (intros; now rewrite set_n_other).
        eapply R_after with (t := t) (s := s) (A := A); eauto.
        * intros k'. split; [cbn; lia|]. split.
          { intros [u Hu]. left. exists u. cbn in *. rewrite Hot; auto. intros ->. rewrite Ep in Hu. contradiction. }
          { intros _ H. split; [|reflexivity]. intros [u [b [Hb1 Hb2]]]. apply H. exists u, b. split; auto. cbn in *.
            destruct (Nat.eq_dec u t) as [->|Hn].
            - rewrite set_n_same. rewrite Ep in Hb1. exact Hb1.
            - now rewrite Hot. }
        * intros u k' Hu Hhu. split; [|split]; auto. intros b tb Hb Hk. split; [reflexivity|]. intros j Hjb. cbn.
          eapply Hdis; eauto. left. intros ->. apply Hu. eapply RM; eauto. rewrite Ep. cbn. auto.
        * cbn. rewrite set_n_same. cbn. rewrite ?(obj_ty_eq _ _ _ Ety). splits; auto.
          exists w. splits; auto. intros j Hji.
          destruct (Nat.eq_dec j i) as [->|Hne]; [now rewrite set_z_same|].
          rewrite (Hdis a ty j) by (auto; lia). apply Hj. lia.
        * cbn. rewrite set_n_same. rewrite Ep. cbn. auto.
        * intros k'. destruct (RL k') as (W & L1 & L2). split; [exact W|]. split; [exact L1|].
          intros E. destruct (L2 E) as [u Hu]. exists u. cbn. destruct (Nat.eq_dec u t) as [->|Hn].
          { rewrite set_n_same. rewrite Ep in Hu. exact Hu. }
          { now rewrite Hot. }
        * intros b tb Hb. destruct (RO b tb Hb) as [Hr Hm]. split; [exact Hr|]. intros H. cbn in *.
          assert (b <> a). { intros ->. apply (H t). rewrite set_n_same. reflexivity. }
          rewrite <- Hm.
          { apply chunks_at_ext. intros j Hjb. eapply Hdis; eauto. }
          { intros u Hu. apply (H u). destruct (Nat.eq_dec u t) as [->|Hn].
            - rewrite Ep in Hu. cbn in Hu. kcong.
            - now rewrite Hot. }
      + assert (Hm : chunks_at c (mem s) a (len c ty) = to_chunks c ty w).
        { apply nth_list_eq with (d := 0).
          - now rewrite chunks_at_length, to_chunks_length.
          - rewrite chunks_at_length. intros j Hjl. rewrite chunks_at_nth by assumption.
            rewrite <- En. apply Hj. lia. }
        destruct Hh as (Hlo & Hst & Hhi). cbn in Hlo, Hst, Hhi.
        destruct (wide c) eqn:Ew; [destruct (Z.eqb_spec (next_lo c st) 0) as [En0|En0]|]; cbn [andb]; intros [= <- <-].
        * apply local_silent; auto; try (rewrite Ep; cbn; tauto); cbn; try tauto.
          rewrite ?(obj_ty_eq _ _ _ Ety). splits; auto; [split; cbn; auto|]. exists w. split; auto.
        * apply local_silent; auto; try (rewrite Ep; cbn; tauto); cbn; try tauto.
          rewrite ?(obj_ty_eq _ _ _ Ety). splits; auto.
          { now rewrite Hst, next_lo_stamp. }
          { intros _. fold k. rewrite Hst in En0. rewrite era_next by assumption. auto. }
          { exists w. split; auto. }
        * apply local_silent; auto; try (rewrite Ep; cbn; tauto); cbn; try tauto.
          rewrite ?(obj_ty_eq _ _ _ Ety). splits; auto.
          { now rewrite Hst, next_lo_stamp. }
          { kcong. }
          { exists w. split; auto. }
    - (* RelHiLd *)
      destruct Ht as (G & P & Hh & Ew & En & w & Hw & Hm). intros [= <- <-].
      apply local_silent; auto; try (rewrite Ep; cbn; tauto); cbn; try tauto.
      splits; auto. exists w. auto.
    - (* RelHiSt *)
      destruct Ht as (G & P & Hh & Ew & En & Eh & w & Hw & Hm). set (k := lock_index a) in *. intros [= <- <-].
      exists A. split; [now left|].
      destruct Hh as (Hlo & Hst & Hhi). cbn in Hlo, Hst, Hhi, Eh. specialize (Hhi Ew).
      assert (Hot : forall u, u <> t -> set_n (pcs s) t (Rel a o (next_lo c st) true r) u = pcs s u) by (intros; now rewrite set_n_other).
      eapply R_after with (t := t) (s := s) (A := A); eauto.
      + intros k'. split; [cbn; lia|]. split.
        { intros [u Hu]. left. exists u. cbn in *. rewrite Hot; auto. intros ->. rewrite Ep in Hu. contradiction. }
        { intros _ H. split; [|reflexivity]. intros [u [b [Hb1 Hb2]]]. apply H. exists u, b. split; auto. cbn in *.
          destruct (Nat.eq_dec u t) as [->|Hn].
          - rewrite set_n_same. rewrite Ep in Hb1. exact Hb1.
          - now rewrite Hot. }
      + intros u k' Hu Hhu. split; [|split]; auto. cbn. apply set_z_other. intros ->. apply Hu. eapply RM; eauto. rewrite Ep. cbn. auto.
      + cbn. rewrite set_n_same. cbn. fold k. rewrite set_z_same. cbn. splits; auto.
        * now rewrite Hst, next_lo_stamp.
        * intros _. rewrite Eh, Hhi. rewrite Hst in En. rewrite era_wrap by assumption. now rewrite Zplus_mod_idemp_l.
        * exists w. auto.
      + cbn. rewrite set_n_same, Ep. cbn. auto.
      + intros k'. destruct (RL k') as (W & L1 & L2). split; [exact W|]. cbn.
        destruct (Z.eq_dec k' k) as [->|Hk].
        * rewrite set_z_same. cbn. split; [tauto|]. intros _. exists t. now rewrite set_n_same.
        * rewrite set_z_other by assumption. split; [exact L1|]. intros E. destruct (L2 E) as [u Hu]. exists u.
          rewrite Hot; auto. intros ->. rewrite Ep in Hu. cbn in Hu. kcong.
      + intros b tb Hb. destruct (RO b tb Hb) as [Hr Hmb]. split; [exact Hr|]. intros H. cbn in *. apply Hmb.
        intros u Hu. apply (H u). destruct (Nat.eq_dec u t) as [->|Hn].
        * rewrite set_n_same. rewrite Ep in Hu. exact Hu.
        * now rewrite Hot.
    - (* Rel *)
      set (k := lock_index a) in *. intros [= <- <-].
      assert (Hot : forall u, u <> t -> set_n (pcs s) t (Fin r) u = pcs s u) by (intros; now rewrite set_n_other).
      assert (Hno : forall u, u <> t -> ~ holder (pcs s u) k).
      { intros u Hu Hh. apply Hu. eapply RM; eauto. rewrite Ep. cbn. auto. }
      destruct bump.
      + destruct Ht as (G & P & Hlo & Hn & Hhi & w & Hw & Hm). cbn in Hlo, Hn, Hhi.
        pose proof G as [ty [Ety [To Oo]]]. destruct Hw as [Hs Hrw]. cbn in Hs, Hm. rewrite (obj_ty_eq _ _ _ Ety) in *.
        exists (mk_rstate (upd (rvals A) a w) (updn (rphases A) t (RDone r))). split.
        { right. eapply pend_effect with (a := a) (o := o) (t := t) (v' := w) (r := r); auto.
          - exists ty. auto.
          - split; [apply upd_same|]. intros; now apply upd_other.
          - apply updn_eq. }
        eapply R_after with (t := t) (s := s) (A := A); eauto.
        * intros u Hu. cbn. now rewrite Hot, updn_other.
        * intros k'. cbn. unfold stableN; cbn. destruct (Z.eq_dec k' k) as [->|Hk].
          { rewrite set_z_same. split; [lia|]. split; [intros _; right; lia|]. intros; lia. }
          { rewrite set_z_other by assumption. split; [lia|]. split.
            - intros [u Hu]. left. exists u. rewrite Hot; auto. intros ->. rewrite Ep in Hu. cbn in Hu. kcong.
            - intros _ H. split.
              + intros [u [b [Hb1 Hb2]]]. apply H. exists u, b. split; auto. rewrite Hot; auto. intros ->. rewrite Ep in Hb1. cbn in Hb1. kcong.
              + intros b Hb. apply upd_other. kcong. }
        * intros u k' Hu Hhu. assert (k' <> k). { intros ->. eapply Hno; eauto. }
          unfold stableH; cbn. rewrite !set_z_other by assumption. split; [|split]; auto.
          intros b tb Hb Hk. split; [|auto]. apply upd_other. kcong.
        * cbn. rewrite set_n_same, updn_same. cbn. auto.
        * cbn. rewrite set_n_same. cbn. tauto.
        * intros k'. destruct (RL k') as (W & L1 & L2). unfold lock_inv; cbn. destruct (Z.eq_dec k' k) as [->|Hk].
          { rewrite !set_z_same. cbn. split; [lia|]. split; [auto|]. rewrite Hn. intros E. exfalso. eapply stamp_even; eauto. }
          { rewrite !set_z_other by assumption. split; [exact W|]. split; [exact L1|].
            intros E. destruct (L2 E) as [u Hu]. exists u. rewrite Hot; auto. intros ->. rewrite Ep in Hu. cbn in Hu. kcong. }
        * intros b tb Hb. destruct (RO b tb Hb) as [Hr Hmb]. cbn. destruct (Z.eq_dec b a) as [->|Hba].
          { assert (tb = ty) as -> by kcong. rewrite upd_same. split; [exact Hrw|]. intros _. exact Hm. }
          { rewrite upd_other by assumption. split; [exact Hr|]. intros H. apply Hmb. intros u Hu. apply (H u). cbn. rewrite Hot; auto.
            intros ->. rewrite Ep in Hu. cbn in Hu. kcong. }
      + destruct Ht as (G & P & Hh & Hs). destruct Hh as (Hlo & Hst & Hhi). cbn in Hlo, Hst, Hhi, Hs.
        pose proof G as [ty [Ety [To Oo]]]. rewrite (obj_ty_eq _ _ _ Ety) in *.
        exists (setph A t (RDone r)). split.
        { right. eapply pend_effect with (a := a) (o := o) (t := t) (v' := rvals A a) (r := r); auto.
          - exists ty. auto.
          - split; auto.
          - apply updn_eq. }
        eapply R_after with (t := t) (s := s) (A := A); eauto.
        * intros u Hu. cbn. now rewrite Hot, updn_other.
        * intros k'. unfold stableN; cbn. split; [lia|]. split.
          { intros [u Hu]. left. exists u. rewrite Hot; auto. intros ->. rewrite Ep in Hu. contradiction. }
          { intros _ H. split; [|reflexivity]. intros [u [b [Hb1 Hb2]]]. apply H. exists u, b. split; auto. rewrite Hot; auto. intros ->. rewrite Ep in Hb1. contradiction. }
        * intros u k' Hu Hhu. assert (k' <> k). { intros ->. eapply Hno; eauto. }
          unfold stableH; cbn. rewrite !set_z_other by assumption. split; [|split]; auto.
        * cbn. rewrite set_n_same, updn_same. cbn. auto.
        * cbn. rewrite set_n_same. cbn. tauto.
        * intros k'. destruct (RL k') as (W & L1 & L2). unfold lock_inv; cbn. destruct (Z.eq_dec k' k) as [->|Hk].
          { rewrite !set_z_same. cbn. split; [lia|]. split; [auto|]. rewrite Hst. intros E. exfalso. eapply stamp_even; eauto. }
          { rewrite !set_z_other by assumption. split; [exact W|]. split; [exact L1|].
            intros E. destruct (L2 E) as [u Hu]. exists u. rewrite Hot; auto. intros ->. rewrite Ep in Hu. cbn in Hu. kcong. }
        * intros b tb Hb. destruct (RO b tb Hb) as [Hr Hmb]. cbn. split; [exact Hr|]. intros H. apply Hmb. intros u Hu. apply (H u). cbn. rewrite Hot; auto.
          intros ->. rewrite Ep in Hu. contradiction.
    - (* Fin *)
      intros [= <- <-]. exists (setph A t RIdle). split.
      + right. eapply r_return; [|reflexivity|apply updn_eq]. exact Ht.
      + apply R_local; auto; try (rewrite Ep; cbn; tauto); cbn; try tauto.
  Qed.
End Sim.
