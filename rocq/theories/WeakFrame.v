(** How the simulation relation survives growth of the memory. *)
From Coq Require Import ZArith List Bool Lia PeanoNat.
From Verif Require Import Words Spec WordsFacts OrderingModel FallbackModel FallbackFacts WeakMem WeakFacts WeakSpec WeakModel WeakInv.
Import ListNotations.
Open Scope Z_scope.

Lemma mset_growsc (wm : memory cloc) x t g : wm x t = None -> grows wm (mset cloc_eqb wm x t g).
Proof. intros N y u d H. now apply (mset_ext _ cloc_spec). Qed.
Lemma mset_growsa (am : memory aloc) x t g : am x t = None -> grows am (mset aloc_eqb am x t g).
Proof. intros N y u d H. now apply (mset_ext _ aloc_spec). Qed.

Ltac sp := repeat lazymatch goal with |- _ /\ _ => split end.

Section P.
  Variable c : config.
  Local Notation li := lock_index.
  Local Notation cmem := (memory cloc).
  Local Notation amem := (memory aloc).
  Local Notation LI := (LI c).
  Local Notation half := (half c).

  Record ext (wm wm' : cmem) (G G' : ghost) : Prop := {
    e_mem : grows wm wm';
    e_gi : forall k t m a, unl wm k t m -> gi G' k t a = gi G k t a;
    e_gc : forall k t m, unl wm k t m -> gc G' k t = gc G k t;
    e_ge : forall k u d, wm (Hi k) u = Some d -> ge G' k u = ge G k u }.
  Lemma ext_same wm wm' G : grows wm wm' -> ext wm wm' G G.
  Proof. intros H. now constructor. Qed.
  Lemma unl_grows wm wm' k t m : grows wm wm' -> unl wm k t m -> unl wm' k t m.
  Proof. intros H [A B]. split; auto. Qed.
  Lemma unl_fun wm k t m m' : unl wm k t m -> unl wm k t m' -> m' = m.
  Proof. intros [A _] [B _]. congruence. Qed.

  Lemma VR_ext wm wm' G G' av cv : ext wm wm' G G' -> VR G wm av cv -> VR G' wm' av cv.
  Proof.
    intros E [A B]. split; [exact A|]. intros a. destruct (B a) as (t & m & U & H1 & H2).
    exists t, m. split; [eapply unl_grows; eauto using e_mem|]. split; [exact H1|]. now rewrite (e_gi _ _ _ _ E _ _ _ _ U).
  Qed.
  Lemma VR_mono wm G av av' cv cv' : vle av' av -> vle cv cv' -> VR G wm av cv -> VR G wm av' cv'.
  Proof.
    intros Ha Hc [A B]. split.
    - intros x. specialize (A x). specialize (Ha (Ac x)). specialize (Hc (Cl x)). lia.
    - intros a. destruct (B a) as (t & m & U & H1 & H2). exists t, m. specialize (Ha (Ad a)). specialize (Hc (Lo (li a))).
      split; [exact U|]. lia.
  Qed.
  Lemma VR_join wm G av av' cv : VR G wm av cv -> VR G wm av' cv -> VR G wm (vjoin av av') cv.
  Proof.
    intros [A B] [A' B']. split.
    - intros x. specialize (A x). specialize (A' x). unfold vjoin. lia.
    - intros a. destruct (B a) as (t & m & U & H1 & H2). destruct (B' a) as (t' & m' & U' & H1' & H2'). unfold vjoin.
      destruct (Z.max_spec (av (Ad a)) (av' (Ad a))) as [[_ ->]|[_ ->]]; [exists t', m'|exists t, m]; auto.
  Qed.
  Lemma VR_join2 wm G av av' cv cv' : VR G wm av cv -> VR G wm av' cv' -> VR G wm (vjoin av av') (vjoin cv cv').
  Proof.
    intros A B. apply VR_join.
    - eapply VR_mono; [apply vle_refl|apply vjoin_l|exact A].
    - eapply VR_mono; [apply vle_refl|apply vjoin_r|exact B].
  Qed.
  Lemma VR_own wm G av cv x t : VR G wm av cv -> VR G wm (vset aloc_eqb av (Ac x) t) (vset cloc_eqb cv (Cl x) t).
  Proof.
    intros [A B]. split.
    - intros y. specialize (A y). unfold vset. cbn. destruct (y =? x); lia.
    - intros a. destruct (B a) as (t' & m & U & H1 & H2). exists t', m. unfold vset. cbn. auto.
  Qed.
  Lemma VR_at wm G av cv a n t m : VR G wm av cv -> unl wm (li a) t m -> t <= cv (Lo (li a)) -> n <= gi G (li a) t a ->
    VR G wm (vset aloc_eqb av (Ad a) n) cv.
  Proof.
    intros [A B] U H1 H2. split.
    - intros y. specialize (A y). unfold vset. cbn. exact A.
    - intros b. unfold vset. cbn. destruct (Z.eqb_spec b a) as [->|N]; [|apply B].
      destruct (B a) as (t' & m' & U' & H1' & H2').
      destruct (Z.max_spec (av (Ad a)) n) as [[_ ->]|[_ ->]]; [exists t, m|exists t', m']; auto.
  Qed.
  Lemma VRt_mono wm G av cv cv' : tle cv cv' -> VRt G wm av cv -> VRt G wm av cv'.
  Proof. intros (A & B & C) (D & E & F). repeat split; eapply VR_mono; eauto using vle_refl. Qed.
  Lemma VRt_ext wm wm' G G' av cv : ext wm wm' G G' -> VRt G wm av cv -> VRt G' wm' av cv.
  Proof. intros E (A & B & C). repeat split; eapply VR_ext; eauto. Qed.

  (** the newest release dominates everything known *)
  Lemma unl_le_tl wm am G cv k t m : LI wm am G cv k -> unl wm k t m -> t <= tl G k.
  Proof. intros I [U1 U2]. destruct (Z.le_gt_cases t (tl G k)) as [|H]; [auto|]. destruct (l_above _ _ _ _ _ _ I _ _ U1 H). easy. Qed.

  (** *** threads *)
  Lemma shows_grows wm wm' vw a i v : grows wm wm' -> shows c wm vw a i v -> shows c wm' vw a i v.
  Proof. intros H (x & A & B). exists x. auto. Qed.
  Lemma val_at_ext wm wm' am am' G G' t m a v : ext wm wm' G G' -> grows am am' -> unl wm (li a) t m -> val_at am G t a v -> val_at am' G' t a v.
  Proof. intros E HA U [V H]. exists V. rewrite (e_gi _ _ _ _ E _ _ _ _ U). auto. Qed.
  Section Ext.
    Variables (wm wm' : cmem) (am am' : amem) (G G' : ghost) (T : nat) (cv : tview cloc).
    Hypothesis E : ext wm wm' G G'.
    Hypothesis HA : grows am am'.
    Lemma LK_ext k st : hd G' k = hd G k -> tl G' k = tl G k -> LK wm G T cv k st -> LK wm' G' T cv k st.
    Proof.
      intros Hh Ht (A & (m & U & B & C) & D). unfold LK. rewrite Hh, Ht.
      split; [exact A|split; [|exact D]]. exists m. split; auto. eapply unl_grows; eauto using e_mem.
    Qed.
    Lemma tl_ext k st m : tl G' k = tl G k -> LK wm G T cv k st -> unl wm' k (tl G' k) m -> unl wm k (tl G k) m.
    Proof.
      intros Ht (A & (m0 & U & B & C) & D) U'. rewrite Ht in U'. pose proof (unl_grows _ _ _ _ _ (e_mem _ _ _ _ E) U) as U2.
      now rewrite <- (unl_fun _ _ _ _ _ U' U2).
    Qed.
    Lemma same_but_ext k st a i : tl G' k = tl G k -> LK wm G T cv k st -> same_but wm G cv k a i -> same_but wm' G' cv k a i.
    Proof. intros Ht K H m U. apply H. eapply tl_ext; eauto. Qed.
    Lemma same_hi_ext k st : tl G' k = tl G k -> LK wm G T cv k st -> same_hi wm G cv k -> same_hi wm' G' cv k.
    Proof. intros Ht K H m U. apply H. eapply tl_ext; eauto. Qed.
    Lemma same_ext k st : tl G' k = tl G k -> LK wm G T cv k st -> same wm G cv k -> same wm' G' cv k.
    Proof. intros Ht K [H1 H2]. split; [eapply same_hi_ext; eauto|]. intros m U. apply H2. eapply tl_ext; eauto. Qed.
    Lemma put_ext a i v : put_so_far c wm cv a i v -> put_so_far c wm' cv a i v.
    Proof. intros H j A B. eapply shows_grows; [apply (e_mem _ _ _ _ E)|auto]. Qed.
    Lemma val_ext a st v : tl G' (li a) = tl G (li a) -> LK wm G T cv (li a) st -> val_at am G (tl G (li a)) a v -> val_at am' G' (tl G' (li a)) a v.
    Proof. intros Ht (_ & (m & U & _) & _) H. rewrite Ht. eapply val_at_ext; eauto. Qed.
    Lemma ran_ext a st o v r : tl G' (li a) = tl G (li a) -> LK wm G T cv (li a) st -> ran c am G a o v r -> ran c am' G' a o v r.
    Proof. intros Ht K (w & H1 & H2). exists w. split; auto. eapply val_ext; eauto. Qed.
    Lemma OR_ext av b a sh sl gh g rd : OR c wm G cv av b a sh sl gh g rd -> OR c wm' G' cv av b a sh sl gh g rd.
    Proof.
      intros ((m & U & A & B & C & D) & F). split.
      - exists m. split; [eapply unl_grows; eauto using e_mem|]. split; [exact A|]. split; [exact B|]. split.
        + intros W. destruct (C W) as (X & d & Y & Z). split; auto. exists d. split; auto. now apply (e_mem _ _ _ _ E).
        + intros i Hi. destruct (D i Hi) as (u & d & X & Y). exists u, d. split; [now apply (e_mem _ _ _ _ E)|exact Y].
      - now rewrite (e_gi _ _ _ _ E _ _ _ _ U).
    Qed.
    Lemma RF_ext k : tl G' k = tl G k -> RF G cv k -> RF G' cv k.
    Proof. intros Ht. unfold RF. now rewrite Ht. Qed.
    Lemma TI_ext av p : (forall k, holds p = Some k -> hd G' k = hd G k /\ tl G' k = tl G k) ->
      (match p with Rel a _ _ _ => closed wm (cur cv) | _ => True end) ->
      TI c wm am G T cv av p -> TI c wm' am' G' T cv av p.
    Proof.
      intros HK HC. destruct p; cbn [TI holds] in *; auto;
        try (destruct (HK _ eq_refl) as [Hh Ht]).
      - intros (A & B & C). sp; auto. intros W. destruct (C W) as (d & X & Y & Z). exists d. split; [now apply (e_mem _ _ _ _ E)|auto].
      - intros (A & B & C & D). sp; auto. now apply OR_ext.
      - intros (A & B & rd & C & D & F). sp; auto. exists rd. sp; auto. now apply OR_ext.
      - intros (A & B & rd & C & D & F). sp; auto. exists rd. sp; auto. now apply OR_ext.
      - intros (A & B & C & D). sp; auto. intros Q. destruct (D Q) as (rd & m1 & X1 & X2 & X3 & X4 & X5 & X6 & X7).
        exists rd, m1. sp; auto; [apply (unl_grows wm wm' _ _ _ (e_mem _ _ _ _ E)); auto|]. now apply OR_ext.
      - intros (A & K & S). split; auto. split; [eapply LK_ext|eapply same_ext]; eauto.
      - intros (A & N & K & R & S). split; auto. split; auto. split; [now apply LK_ext|]. split; [now apply RF_ext|]. eapply same_ext; eauto.
      - intros (A & N & K & R & S & L & v & V1 & V2 & V3). split; auto. split; auto. split; [now apply LK_ext|]. split; [now apply RF_ext|].
        split; [eapply same_ext; eauto|]. split; auto. exists v. split; auto. eapply val_ext; eauto.
      - intros (A & K & R & L & S1 & S2 & v & V1 & V2 & V3 & V4 & V5). split; auto. split; [now apply LK_ext|]. split; [now apply RF_ext|].
        split; auto. split; [eapply same_hi_ext; eauto|]. split; [eapply same_but_ext; eauto|].
        exists v. split; auto. split; auto. split; [eapply ran_ext; eauto|]. split; auto. now apply put_ext.
      - intros (A & K & R & W & L & S1 & S2 & v & V2 & V3 & V4 & V5). split; auto. split; [now apply LK_ext|]. split; [now apply RF_ext|].
        split; auto. split; auto. split; [eapply same_hi_ext; eauto|]. split; [eapply same_but_ext; eauto|].
        exists v. split; auto. split; [eapply ran_ext; eauto|]. split; auto. now apply put_ext.
      - intros (A & K & R & W & L & S1 & (d & D1 & D2) & S2 & v & V2 & V3 & V4 & V5). split; auto. split; [now apply LK_ext|]. split; [now apply RF_ext|].
        split; auto. split; auto. split; [eapply same_hi_ext; eauto|]. split; [exists d; split; [now apply (e_mem _ _ _ _ E)|auto]|]. split; [eapply same_but_ext; eauto|].
        exists v. split; auto. split; [eapply ran_ext; eauto|]. split; auto. now apply put_ext.
      - intros (A & st & v & K & V1 & V2 & D). split; auto. exists st, v. split; [now apply LK_ext|]. split; auto. split; [eapply ran_ext; eauto|].
        destruct D as [(D1 & D2 & D3)|(D1 & D2 & D3 & D4 & D5)]; [left|right].
        + split; auto. split; auto. eapply same_ext; eauto.
        + split; auto. split; auto. split; [eapply same_but_ext; eauto|]. split; [now apply put_ext|].
          intros W. destruct (HC (Hi (li a))) as [d Hd]. rewrite (e_ge _ _ _ _ E _ _ _ Hd).
          destruct K as (_ & (m & U & _) & _). rewrite Ht, (e_gc _ _ _ _ E _ _ _ U). auto.
    Qed.
  End Ext.

  (** *** locks *)
  Lemma LI_frame wm wm' am am' G G' cv cv' k : LI wm am G cv k -> ext wm wm' G G' ->
    (forall t, wm' (Lo k) t = wm (Lo k) t) -> (forall x u, isdat k x -> wm' x u = wm x u) ->
    (forall a t, li a = k -> am' (Ad a) t = am (Ad a) t) ->
    (forall t a, gi G' k t a = gi G k t a) -> (forall t, gc G' k t = gc G k t) -> (forall u, ge G' k u = ge G k u) ->
    tl G' k = tl G k -> hd G' k = hd G k -> (forall T, hd G k = Some T -> vle (cv T) (cv' T)) ->
    LI wm' am' G' cv' k.
  Proof.
    intros I E HL HD HM Hgi Hgc Hge Ht Hh Hcv.
    assert (HU : forall t m, unl wm' k t m <-> unl wm k t m) by (intros t m; unfold unl; now rewrite HL).
    assert (HHi : forall u, wm' (Hi k) u = wm (Hi k) u) by (intros u; apply HD; left; now left).
    constructor.
    - destruct (l_tl _ _ _ _ _ _ I) as [m U]. exists m. rewrite Ht. now apply HU.
    - intros t m. rewrite HL, Ht, Hh. apply (l_above _ _ _ _ _ _ I).
    - intros t m. rewrite !HL. apply (l_chain _ _ _ _ _ _ I).
    - intros t m. rewrite HU, HL, Ht. apply (l_succ _ _ _ _ _ _ I).
    - rewrite Hh, HL, Ht. apply (l_held _ _ _ _ _ _ I).
    - intros t m. rewrite HU. apply (l_own _ _ _ _ _ _ I).
    - intros t m t' m' U U' L. apply HU in U, U'. rewrite !Hgc. destruct (l_mono _ _ _ _ _ _ I _ _ _ _ U U' L) as (A & B & C & D).
      split; [exact A|]. split; [exact B|]. split; [intros a; rewrite !Hgi; apply C|].
      intros Q. destruct (D Q) as [D1 D2]. split; [intros a; rewrite !Hgi; apply D1|exact D2].
    - intros t m U. apply HU in U. rewrite Hgc. now apply (l_cnt _ _ _ _ _ _ I).
    - intros t m U. apply HU in U. rewrite Hgc. intros P. destruct (l_pred _ _ _ _ _ _ I _ _ U P) as (t' & m' & U' & L & Q).
      exists t', m'. rewrite HU, Hgc. auto.
    - intros t m U a ty O La. apply HU in U. rewrite Hgi, HM by exact La. destruct (l_snap _ _ _ _ _ _ I _ _ U a ty O La) as (v & V & X1 & X2 & X3 & X4).
      exists v, V. split; [exact X1|]. split; [eapply VR_ext; eauto|]. split; [exact X3|].
      intros i Hi. eapply shows_grows; [eapply e_mem; eauto|auto].
    - intros W t m U. apply HU in U. rewrite Hge, Hgc. now apply (l_snaphi _ _ _ _ _ _ I).
    - intros x u d X M t m U. apply HU in U. rewrite HD in M by exact X. eapply (l_data _ _ _ _ _ _ I); eauto.
    - intros x u d X M. rewrite HD in M by exact X. pose proof (l_max _ _ _ _ _ _ I x u d X M) as L. rewrite Hh, Ht.
      destruct (hd G k) as [T|].
      + specialize (Hcv T eq_refl x). lia.
      + intros m U. apply HU in U. now apply L.
    - intros W u d M. rewrite HHi in M. rewrite Hge. destruct (l_era _ _ _ _ _ _ I W u d M) as (A & B & C). split; [exact A|]. split; [exact B|].
      intros P. destruct (C P) as (u' & X & Y & Z). exists u'. rewrite HHi, Hge. auto.
    - intros W u d u' d'. rewrite !HHi, !Hge. now apply (l_eramono _ _ _ _ _ _ I).
    - intros a t m La. rewrite HM, Ht, Hgi by exact La. now apply (l_last _ _ _ _ _ _ I).
  Qed.
  (** only views grow *)
  Lemma LI_views wm am G cv cv' k : LI wm am G cv k -> (forall T, hd G k = Some T -> vle (cv T) (cv' T)) -> LI wm am G cv' k.
  Proof. intros I H. eapply LI_frame; eauto. apply ext_same, grows_refl. Qed.
End P.
