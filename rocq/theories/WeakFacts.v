(** Facts about the weak-memory machine. *)
From Coq Require Import ZArith List Bool Lia.
From Verif Require Import WeakMem.
Import ListNotations.
Open Scope Z_scope.

Section F.
  Context {L : Type}.
  Variable eqb : L -> L -> bool.
  Hypothesis eqb_spec : forall x y, eqb x y = true <-> x = y.
  Lemma eqb_refl x : eqb x x = true.
  Proof. now apply eqb_spec. Qed.
  Lemma eqb_neq x y : x <> y -> eqb x y = false.
  Proof. intros H. destruct (eqb x y) eqn:E; [|reflexivity]. apply eqb_spec in E. easy. Qed.
  Lemma vset_same v x t : vset eqb v x t x = Z.max (v x) t.
  Proof. unfold vset. now rewrite eqb_refl. Qed.
  Lemma vset_other v x t y : y <> x -> vset eqb v x t y = v y.
  Proof. intros H. unfold vset. now rewrite eqb_neq. Qed.
  Lemma vset_le v x t : vle v (vset eqb v x t).
  Proof. intros y. unfold vset. destruct (eqb y x); lia. Qed.
  Lemma vset_mono u v x t : vle u v -> vle (vset eqb u x t) (vset eqb v x t).
  Proof. intros H y. specialize (H y). unfold vset. destruct (eqb y x); lia. Qed.
  Lemma vle_refl (v : view L) : vle v v.
  Proof. intros x. lia. Qed.
  Lemma vle_trans (u v w : view L) : vle u v -> vle v w -> vle u w.
  Proof. intros A B x. specialize (A x). specialize (B x). lia. Qed.
  Lemma vjoin_l (u v : view L) : vle u (vjoin u v).
  Proof. intros x. unfold vjoin. lia. Qed.
  Lemma vjoin_r (u v : view L) : vle v (vjoin u v).
  Proof. intros x. unfold vjoin. lia. Qed.
  Lemma mset_same (m : memory L) x t g : mset eqb m x t g x t = Some g.
  Proof. unfold mset. now rewrite eqb_refl, Z.eqb_refl. Qed.
  Lemma mset_loc (m : memory L) x t g y u : y <> x -> mset eqb m x t g y u = m y u.
  Proof. intros H. unfold mset. now rewrite eqb_neq. Qed.
  Lemma mset_ts (m : memory L) x t g y u : u <> t -> mset eqb m x t g y u = m y u.
  Proof. intros H. unfold mset. rewrite (proj2 (Z.eqb_neq u t)) by easy. now rewrite andb_false_r. Qed.
  Lemma mset_inv (m : memory L) x t g y u d : mset eqb m x t g y u = Some d -> (y = x /\ u = t /\ d = g) \/ m y u = Some d.
  Proof.
    unfold mset. destruct (eqb y x) eqn:E; cbn [andb]; [|auto]. destruct (Z.eqb_spec u t); cbn [andb]; [|auto].
    intros H. left. apply eqb_spec in E. repeat split; congruence.
  Qed.
  Lemma mset_ext (m : memory L) x t g y u d : m x t = None -> m y u = Some d -> mset eqb m x t g y u = Some d.
  Proof.
    intros N H. unfold mset. destruct (eqb y x) eqn:E; cbn [andb]; [|auto]. destruct (Z.eqb_spec u t); cbn [andb]; [|auto].
    apply eqb_spec in E. congruence.
  Qed.

  (** every view points to existing messages *)
  Definition closed (m : memory L) (v : view L) : Prop := forall x, exists g, m x (v x) = Some g.
  Definition closed_t (m : memory L) (v : tview L) : Prop :=
    (closed m (cur v) /\ closed m (acq v) /\ closed m (rel v)) /\ vle (rel v) (cur v) /\ vle (cur v) (acq v).
  Definition tle (u v : tview L) : Prop := vle (cur u) (cur v) /\ vle (acq u) (acq v) /\ vle (rel u) (rel v).
  Definition closed_w (w : world L) : Prop :=
    (forall x t g, wmem w x t = Some g -> closed (wmem w) (mview g)) /\ closed (wmem w) (wsc w).
  Definition grows (m m' : memory L) : Prop := forall x t g, m x t = Some g -> m' x t = Some g.
  Lemma grows_refl m : grows m m.
  Proof. easy. Qed.
  Lemma closed_grows m m' v : grows m m' -> closed m v -> closed m' v.
  Proof. intros G C x. destruct (C x) as [g E]. exists g. now apply G. Qed.
  Lemma closed_join m u v : closed m u -> closed m v -> closed m (vjoin u v).
  Proof. intros A B x. unfold vjoin. destruct (Z.max_spec (u x) (v x)) as [[_ ->]|[_ ->]]; [apply B|apply A]. Qed.
  Lemma closed_set m v x t : closed m v -> m x t <> None -> closed m (vset eqb v x t).
  Proof.
    intros A N y. unfold vset. destruct (eqb y x) eqn:E; [|apply A]. apply eqb_spec in E as ->.
    destruct (Z.max_spec (v x) t) as [[_ ->]|[_ ->]]; [|apply A]. destruct (m x t) as [g|]; [eauto|easy].
  Qed.
  Lemma closed_tgrows m m' v : grows m m' -> closed_t m v -> closed_t m' v.
  Proof. intros G ((A & B & C) & D). split; [|exact D]. repeat split; eapply closed_grows; eauto. Qed.
  Lemma vjoin_lub (u v w : view L) : vle u w -> vle v w -> vle (vjoin u v) w.
  Proof. intros A B x. specialize (A x). specialize (B x). unfold vjoin. lia. Qed.
  Lemma vjoin_mono (u v u' v' : view L) : vle u u' -> vle v v' -> vle (vjoin u v) (vjoin u' v').
  Proof. intros A B x. specialize (A x). specialize (B x). unfold vjoin. lia. Qed.
  Lemma tle_refl v : tle v v.
  Proof. repeat split; apply vle_refl. Qed.
  Lemma tle_trans u v w : tle u v -> tle v w -> tle u w.
  Proof. intros (A & B & C) (D & E & F). repeat split; eapply vle_trans; eauto. Qed.
  Lemma see_tle v x t g b : tle v (see eqb v x t g b).
  Proof.
    repeat split; cbn; try apply vle_refl.
    - eapply vle_trans; [|apply vset_le]. destruct b; [apply vjoin_l|apply vle_refl].
    - eapply vle_trans; [|apply vset_le]. apply vjoin_l.
  Qed.
  Lemma wrote_tle v x t : tle v (wrote eqb v x t).
  Proof. repeat split; cbn; try apply vle_refl; apply vset_le. Qed.
  Lemma see_closed m v x t g b : closed_t m v -> m x t = Some g -> closed m (mview g) -> closed_t m (see eqb v x t g b).
  Proof.
    intros ((A & B & C) & O1 & O2) E D. assert (N : m x t <> None) by congruence.
    split; [repeat split; cbn; auto|split; cbn].
    - apply closed_set; auto. destruct b; auto. now apply closed_join.
    - apply closed_set; auto. now apply closed_join.
    - eapply vle_trans; [exact O1|]. apply see_tle.
    - apply vset_mono. destruct b; [now apply vjoin_mono, vle_refl|]. eapply vle_trans; [exact O2|apply vjoin_l].
  Qed.
  Lemma wrote_closed m v x t : closed_t m v -> m x t <> None -> closed_t m (wrote eqb v x t).
  Proof.
    intros ((A & B & C) & O1 & O2) N. split; [repeat split; cbn; auto; now apply closed_set|split; cbn].
    - eapply vle_trans; [exact O1|apply vset_le].
    - now apply vset_mono.
  Qed.
  Lemma closed_w_mset w x t n V : closed_w w -> wmem w x t = None -> closed (mset eqb (wmem w) x t (mk_msg n V)) V ->
    closed_w (mk_world (mset eqb (wmem w) x t (mk_msg n V)) (wsc w)).
  Proof.
    intros (A & B) N C. assert (GR : grows (wmem w) (mset eqb (wmem w) x t (mk_msg n V))) by (intros y u d; now apply mset_ext).
    split; cbn.
    - intros y u g H. apply mset_inv in H as [(-> & -> & ->)|H]; [exact C|]. eapply closed_grows; eauto.
    - eapply closed_grows; eauto.
  Qed.

  Theorem perform_closed a t w v n w' v' : perform eqb a t w v = Some (n, w', v') -> closed_w w -> closed_t (wmem w) v ->
    grows (wmem w) (wmem w') /\ closed_w w' /\ closed_t (wmem w') v' /\ tle v v'.
  Proof.
    intros P CW CT. pose proof CT as ((CC & CA & CR) & O1 & O2). destruct CW as [CM CS].
    destruct a as [x aq|x k rl|x f aq rl|[| |]]; cbn [perform] in P.
    - destruct (wmem w x t) as [g|] eqn:E; [|easy]. destruct (Z.leb_spec (cur v x) t); [|easy]. injection P as <- <- <-.
      refine (conj (grows_refl _) (conj (conj CM CS) (conj _ _))).
      + eapply see_closed; eauto.
      + apply see_tle.
    - destruct (wmem w x t) as [g|] eqn:E; [easy|]. destruct (Z.ltb_spec (cur v x) t); [|easy]. injection P as <- <- <-.
      set (M := mset eqb (wmem w) x t _).
      assert (GR : grows (wmem w) M) by (intros y u d; now apply mset_ext).
      assert (NE : M x t <> None) by (unfold M; rewrite mset_same; easy).
      refine (conj GR (conj _ (conj _ _))); cbn.
      + apply closed_w_mset; auto. split; auto. unfold out_view. apply closed_set; [|exact NE].
        destruct rl; eapply closed_grows; eauto.
      + apply wrote_closed; auto. eapply closed_tgrows; eauto.
      + apply wrote_tle.
    - destruct (wmem w x t) as [g|] eqn:E; [|easy]. destruct (Z.leb_spec (cur v x) t); [|easy].
      assert (S1 : closed_t (wmem w) (see eqb v x t g aq)) by (eapply see_closed; eauto).
      pose proof (see_tle v x t g aq) as L1.
      destruct (f (mval g)) as [k|].
      + destruct (wmem w x (t + 1)) as [|] eqn:E1; [easy|]. injection P as <- <- <-.
        set (M := mset eqb (wmem w) x (t + 1) _).
        assert (GR : grows (wmem w) M) by (intros y u d; now apply mset_ext).
        assert (NE : M x (t + 1) <> None) by (unfold M; rewrite mset_same; easy).
        pose proof (closed_tgrows _ _ _ GR S1) as S2. pose proof S2 as ((C1 & C2 & C3) & _).
        refine (conj GR (conj _ (conj _ _))); cbn [wmem].
        * apply closed_w_mset; auto; [split; auto|]. fold M. apply closed_join.
          -- unfold out_view. apply closed_set; [|exact NE]. destruct rl; auto.
          -- eapply closed_grows; eauto.
        * apply wrote_closed; auto.
        * eapply tle_trans; [exact L1|]. apply wrote_tle.
      + injection P as <- <- <-. refine (conj (grows_refl _) (conj (conj CM CS) (conj S1 L1))).
    - injection P as <- <- <-. refine (conj (grows_refl _) (conj (conj CM CS) (conj _ _))).
      + split; [repeat split; cbn; auto; now apply closed_join|split; cbn].
        * eapply vle_trans; [exact O1|apply vjoin_l].
        * apply vjoin_lub; [exact O2|apply vle_refl].
      + repeat split; cbn; try apply vle_refl. apply vjoin_l.
    - injection P as <- <- <-. refine (conj (grows_refl _) (conj (conj CM CS) (conj _ _))).
      + split; [repeat split; cbn; auto|split; cbn; [apply vle_refl|exact O2]].
      + repeat split; cbn; try apply vle_refl. exact O1.
    - injection P as <- <- <-. set (C := vjoin _ _). assert (K : closed (wmem w) C) by (unfold C; repeat apply closed_join; auto).
      assert (LC : vle (cur v) C) by (unfold C; eapply vle_trans; [|apply vjoin_l]; apply vjoin_l).
      assert (LA : vle (acq v) C) by (unfold C; eapply vle_trans; [|apply vjoin_l]; apply vjoin_r).
      refine (conj (grows_refl _) (conj (conj CM K) (conj _ _))).
      + split; [repeat split; exact K|split; cbn; apply vle_refl].
      + repeat split; cbn; auto. eapply vle_trans; eauto.
  Qed.
End F.
