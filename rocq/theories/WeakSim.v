(** Building blocks of the simulation: frames, counting, inversion of actions. *)
From Coq Require Import ZArith List Bool Lia PeanoNat.
From Verif Require Import Words Spec WordsFacts OrderingModel FallbackModel FallbackFacts WeakMem WeakFacts WeakSpec WeakModel WeakInv WeakFrame WeakLocks.
Import ListNotations.
Open Scope Z_scope.

Lemma upd_same {B} (f : nat -> B) t b : upd f t b t = b.
Proof. unfold upd. now rewrite Nat.eqb_refl. Qed.
Lemma upd_other {B} (f : nat -> B) t b u : u <> t -> upd f t b u = f u.
Proof. intros H. unfold upd. now rewrite (proj2 (Nat.eqb_neq u t)). Qed.

Section Perform.
  Context {L : Type} (eqb : L -> L -> bool).
  Lemma load_inv x aq ts (w : world L) v n w' v' : perform eqb (Load x aq) ts w v = Some (n, w', v') ->
    exists g, wmem w x ts = Some g /\ cur v x <= ts /\ n = mval g /\ w' = w /\ v' = see eqb v x ts g aq.
  Proof.
    cbn. destruct (wmem w x ts) as [g|]; [|easy]. destruct (Z.leb_spec (cur v x) ts); [|easy].
    intros [= <- <- <-]. exists g. auto.
  Qed.
  Lemma store_inv x k rl ts (w : world L) v n w' v' : perform eqb (Store x k rl) ts w v = Some (n, w', v') ->
    wmem w x ts = None /\ cur v x < ts /\ w' = mk_world (mset eqb (wmem w) x ts (mk_msg k (out_view eqb v x ts rl))) (wsc w) /\
    v' = wrote eqb v x ts.
  Proof.
    cbn. destruct (wmem w x ts) as [g|]; [easy|]. destruct (Z.ltb_spec (cur v x) ts); [|easy].
    intros [= <- <- <-]. auto.
  Qed.
  Lemma load_ok x aq ts (w : world L) v g : wmem w x ts = Some g -> cur v x <= ts ->
    perform eqb (Load x aq) ts w v = Some (mval g, w, see eqb v x ts g aq).
  Proof. intros E H. cbn. rewrite E. now rewrite (proj2 (Z.leb_le _ _)). Qed.
  Lemma store_ok x k rl ts (w : world L) v : wmem w x ts = None -> cur v x < ts ->
    perform eqb (Store x k rl) ts w v =
      Some (0, mk_world (mset eqb (wmem w) x ts (mk_msg k (out_view eqb v x ts rl))) (wsc w), wrote eqb v x ts).
  Proof. intros E H. cbn. rewrite E. now rewrite (proj2 (Z.ltb_lt _ _)). Qed.
  Lemma rmw_inv x f aq rl ts (w : world L) v n w' v' : perform eqb (Rmw x f aq rl) ts w v = Some (n, w', v') ->
    exists g, wmem w x ts = Some g /\ cur v x <= ts /\ n = mval g /\
      match f (mval g) with
      | None => w' = w /\ v' = see eqb v x ts g aq
      | Some k => wmem w x (ts + 1) = None /\
          w' = mk_world (mset eqb (wmem w) x (ts + 1)
                 (mk_msg k (vjoin (out_view eqb (see eqb v x ts g aq) x (ts + 1) rl) (mview g)))) (wsc w) /\
          v' = wrote eqb (see eqb v x ts g aq) x (ts + 1)
      end.
  Proof.
    cbn. destruct (wmem w x ts) as [g|]; [|easy]. destruct (Z.leb_spec (cur v x) ts); [|easy].
    intros P. exists g. destruct (f (mval g)) as [k|].
    - destruct (wmem w x (ts + 1)); [easy|]. injection P as <- <- <-. tauto.
    - injection P as <- <- <-. tauto.
  Qed.
  Lemma rmw_ok x f aq rl ts (w : world L) v g : wmem w x ts = Some g -> cur v x <= ts -> wmem w x (ts + 1) = None ->
    perform eqb (Rmw x f aq rl) ts w v =
      match f (mval g) with
      | None => Some (mval g, w, see eqb v x ts g aq)
      | Some k => Some (mval g, mk_world (mset eqb (wmem w) x (ts + 1)
                 (mk_msg k (vjoin (out_view eqb (see eqb v x ts g aq) x (ts + 1) rl) (mview g)))) (wsc w),
                 wrote eqb (see eqb v x ts g aq) x (ts + 1))
      end.
  Proof. intros E H N. cbn. rewrite E, N. rewrite (proj2 (Z.leb_le _ _)) by exact H. now destruct (f (mval g)). Qed.
End Perform.

Section P.
  Variable c : config.
  Local Notation li := lock_index.
  Local Notation cmem := (memory cloc).
  Local Notation amem := (memory aloc).
  Local Notation LI := (LI c).
  Local Notation half := (half c).
  Local Notation mem_of s := (wmem (world_of s)).

  (** *** counting *)
  Lemma at_least_0 n P : n <= 0 -> at_least n P.
  Proof. intros H. exists []. split; [constructor|]. split; [cbn; lia|constructor]. Qed.
  Lemma at_least_snoc n (P Q : Z -> Prop) x : at_least n P -> ~ P x -> Q x -> (forall y, P y -> Q y) -> at_least (n + 1) Q.
  Proof.
    intros (l & A & B & C) N Qx PQ. exists (x :: l). split; [|split].
    - constructor; auto. intros H. rewrite Forall_forall in C. now apply N, C.
    - cbn [length]. lia.
    - constructor; auto. eapply Forall_impl; eauto.
  Qed.
  Lemma at_least_le n n' P : n' <= n -> at_least n P -> at_least n' P.
  Proof. intros H (l & A & B & C). exists l. split; auto. split; auto. lia. Qed.

  Lemma count_unl wm am G cv k t0 m0 : LI wm am G cv k -> unl wm k t0 m0 -> forall n t1 m1, unl wm k t1 m1 -> t0 <= t1 ->
    gc G k t1 - gc G k t0 = Z.of_nat n ->
    at_least (Z.of_nat n) (fun u => t0 < u <= t1 /\ exists x, wm (Lo k) u = Some x /\ mval x <> LOCKED).
  Proof.
    intros I U0. induction n as [|n IH]; intros t1 m1 U1 L Q; [now apply at_least_0|].
    destruct (l_cnt _ _ _ _ _ _ I _ _ U0) as [P0 _].
    destruct (l_pred _ _ _ _ _ _ I _ _ U1) as (t' & m' & U' & L' & Q'); [lia|].
    assert (t0 < t1) by (destruct (Z.eq_dec t0 t1) as [<-|]; lia).
    replace (Z.of_nat (S n)) with (Z.of_nat n + 1) by lia.
    destruct (Z.le_gt_cases t0 t') as [G0|G0].
    - eapply at_least_snoc with (x := t1).
      + apply (IH t' m' U' G0). lia.
      + intros [[_ H1] _]. lia.
      + split; [lia|]. destruct U1 as [A B]. eauto.
      + intros y [H1 H2]. split; [lia|exact H2].
    - destruct (l_mono _ _ _ _ _ _ I _ _ _ _ U' U0) as (_ & B & _); [lia|].
      assert (n = 0%nat) by lia. subst n. eapply at_least_snoc with (P := fun _ => False) (x := t1).
      + now apply at_least_0.
      + easy.
      + split; [lia|]. destruct U1 as [C D]. eauto.
      + easy.
  Qed.
  Lemma count_hi wm am G cv k u0 d0 : wide c = true -> LI wm am G cv k -> wm (Hi k) u0 = Some d0 -> forall n u1 d1, wm (Hi k) u1 = Some d1 -> u0 <= u1 ->
    ge G k u1 - ge G k u0 = Z.of_nat n -> at_least (Z.of_nat n) (fun u => u0 < u <= u1 /\ wm (Hi k) u <> None).
  Proof.
    intros W I M0. induction n as [|n IH]; intros u1 d1 M1 L Q; [now apply at_least_0|].
    destruct (l_era _ _ _ _ _ _ I W _ _ M0) as (P0 & _). destruct (l_era _ _ _ _ _ _ I W _ _ M1) as (_ & _ & P1).
    destruct P1 as (u' & L' & M' & Q'); [lia|]. destruct (wm (Hi k) u') as [d'|] eqn:E'; [|easy].
    assert (u0 < u1) by (destruct (Z.eq_dec u0 u1) as [<-|]; lia).
    assert (u0 <= u') as G0. { destruct (Z.le_gt_cases u0 u') as [|G0]; [auto|]. pose proof (l_eramono _ _ _ _ _ _ I W _ _ _ _ E' M0 G0). lia. }
    replace (Z.of_nat (S n)) with (Z.of_nat n + 1) by lia. eapply at_least_snoc with (x := u1).
    - apply (IH u' d' E' G0). lia.
    - intros [[_ H1] _]. lia.
    - split; [lia|congruence].
    - intros y [H1 H2]. split; [lia|exact H2].
  Qed.
  Lemma half_pos : 0 < half.
  Proof. unfold WeakInv.half. apply Z.pow_pos_nonneg; [lia|]. pose proof (sb_ge c). lia. Qed.
  Lemma two_half : 2 ^ state_bits c = 2 * half.
  Proof. unfold WeakInv.half. pose proof (sb_ge c). rewrite <- Z.pow_succ_r by lia. f_equal. lia. Qed.
  Lemma stamp_half x y : (2 * x) mod 2 ^ state_bits c = (2 * y) mod 2 ^ state_bits c -> x mod half = y mod half.
  Proof. rewrite two_half. pose proof half_pos. generalize dependent half. intros h H. rewrite (Z.mul_mod_distr_l x h 2), (Z.mul_mod_distr_l y h 2) by lia. lia. Qed.
  Lemma mod_near x y h : 0 < h -> x mod h = y mod h -> 0 <= y - x < h -> x = y.
  Proof.
    intros H Q L. assert (E : y - x = h * (y / h - x / h)).
    { pose proof (Z.div_mod x h). pose proof (Z.div_mod y h). lia. }
    assert (y / h - x / h = 0) by nia. nia.
  Qed.
  Lemma mod_div_eq x y h : 0 < h -> x mod h = y mod h -> x / h = y / h -> x = y.
  Proof. intros H Q L. rewrite (Z.div_mod x h), (Z.div_mod y h) by lia. congruence. Qed.

  (** *** frames *)
  Lemma TI_hd wm am G T cv av p k : TI c wm am G T cv av p -> holds p = Some k -> hd G k = Some T.
  Proof.
    destruct p; cbn [TI holds]; try easy; intros H [= <-].
    all: repeat match goal with H : _ /\ _ |- _ => destruct H | H : exists _, _ |- _ => destruct H end;
      match goal with H : LK _ _ _ _ _ _ |- _ => apply H end.
  Qed.

  Lemma sim_frame G G' s A s' A' T : Sim c G s A ->
    ext (mem_of s) (mem_of s') G G' -> grows (mem_of A) (mem_of A') ->
    (forall k, LI (mem_of s') (mem_of A') G' (fun T => cur (views s' T)) k) ->
    closed_w (world_of s') -> closed_t (mem_of s') (views s' T) ->
    own_rel G' (mem_of s') (mem_of A') -> VR G' (mem_of s') (wsc (world_of A')) (wsc (world_of s')) ->
    VRt G' (mem_of s') (views A' T) (views s' T) ->
    match confs s' T, confs A' T with
      | None, None => True
      | Some p, Some q => AP p q /\ TI c (mem_of s') (mem_of A') G' T (views s' T) (views A' T) p
      | _, _ => False
      end ->
    (forall T', T' <> T -> views s' T' = views s T' /\ confs s' T' = confs s T' /\ views A' T' = views A T' /\ confs A' T' = confs A T') ->
    (forall k T', T' <> T -> hd G k = Some T' -> hd G' k = Some T' /\ tl G' k = tl G k) ->
    (forall k T', hd G' k = Some T' -> (T' = T /\ exists p, confs s' T = Some p /\ holds p = Some k) \/ (T' <> T /\ hd G k = Some T')) ->
    Sim c G' s' A'.
  Proof.
    intros S E GA HL HCW HCT HO HSC HV HF HN HH1 HH2. destruct S as [SL [SCW SCT] SO SS SV SF SH].
    assert (GR := e_mem _ _ _ _ E).
    constructor; auto.
    - split; [exact HCW|]. intros T'. destruct (Nat.eq_dec T' T) as [->|N]; [exact HCT|].
      destruct (HN T' N) as (-> & _). eapply closed_tgrows; eauto.
    - intros T'. destruct (Nat.eq_dec T' T) as [->|N]; [exact HV|].
      destruct (HN T' N) as (-> & _ & -> & _). eapply VRt_ext; eauto.
    - intros T'. destruct (Nat.eq_dec T' T) as [->|N]; [exact HF|].
      destruct (HN T' N) as (-> & -> & -> & ->). specialize (SF T'). destruct (confs s T') as [p|], (confs A T') as [q|]; auto.
      destruct SF as [F1 F2]. split; [exact F1|]. eapply TI_ext; eauto.
      + intros k Hk. pose proof (TI_hd _ _ _ _ _ _ _ _ F2 Hk) as Hd. destruct (HH1 _ _ N Hd) as [-> ->]. auto.
      + destruct p; auto. apply SCT.
    - intros k T' Hd. destruct (HH2 k T' Hd) as [(-> & H)|(N & H)]; [exact H|].
      destruct (HN T' N) as (_ & -> & _). eapply SH; eauto.
  Qed.

  (** *** changing only the current thread's views and place *)
  Lemma sim_local G s A s' A' T : Sim c G s A -> world_of s' = world_of s -> world_of A' = world_of A ->
    closed_t (mem_of s) (views s' T) -> tle (views s T) (views s' T) ->
    VRt G (mem_of s) (views A' T) (views s' T) ->
    match confs s' T, confs A' T with
      | None, None => True
      | Some p, Some q => AP p q /\ TI c (mem_of s) (mem_of A) G T (views s' T) (views A' T) p
      | _, _ => False
      end ->
    (forall T', T' <> T -> views s' T' = views s T' /\ confs s' T' = confs s T' /\ views A' T' = views A T' /\ confs A' T' = confs A T') ->
    (forall k, hd G k = Some T -> exists p, confs s' T = Some p /\ holds p = Some k) ->
    Sim c G s' A'.
  Proof.
    intros S Ew EA HC HT HV HF HN HH. pose proof S as [SL [SCW SCT] SO SS SV SF SH].
    eapply (sim_frame G G s A s' A' T S); rewrite ?Ew, ?EA; auto.
    - apply ext_same, grows_refl.
    - apply grows_refl.
    - intros k. eapply LI_views; [apply SL|]. intros T' Hd. cbn. destruct (Nat.eq_dec T' T) as [->|N]; [apply HT|].
      destruct (HN T' N) as (-> & _). apply vle_refl.
    - intros k T' Hd. destruct (Nat.eq_dec T' T) as [->|N]; [left; split; auto|right; auto].
  Qed.
End P.
