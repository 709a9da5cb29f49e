(** How the state of a lock survives the accesses made by the code. *)
From Coq Require Import ZArith List Bool Lia PeanoNat.
From Verif Require Import Words Spec WordsFacts OrderingModel FallbackModel FallbackFacts WeakMem WeakFacts WeakSpec WeakModel WeakInv WeakFrame.
Import ListNotations.
Open Scope Z_scope.

Section P.
  Variable c : config.
  Local Notation li := lock_index.
  Local Notation cmem := (memory cloc).
  Local Notation amem := (memory aloc).
  Local Notation LI := (LI c).
  Local Notation half := (half c).

  Lemma swap_unl wm am G cv k t g : LI wm am G cv k -> unl wm k t g -> wm (Lo k) (t + 1) = None -> t = tl G k /\ hd G k = None.
  Proof.
    intros I U N. pose proof (unl_le_tl _ _ _ _ _ _ _ _ I U) as L.
    destruct (Z.eq_dec t (tl G k)) as [->|Q].
    - split; auto. destruct (hd G k) eqn:H; auto. exfalso. apply (l_held _ _ _ _ _ _ I); congruence.
    - exfalso. apply (l_succ _ _ _ _ _ _ I _ _ U); auto. lia.
  Qed.

  Lemma LI_swap wm am G G' cv cv' k t g V : LI wm am G cv k -> wm (Lo k) t = Some g -> wm (Lo k) (t + 1) = None ->
    gi G' = gi G -> gc G' = gc G -> ge G' = ge G -> tl G' = tl G ->
    ((mval g = LOCKED /\ hd G' k = hd G k) \/ (mval g <> LOCKED /\ exists T, hd G' k = Some T /\ vle (mview g) (cv' T))) ->
    (forall T, hd G k = Some T -> vle (cv T) (cv' T)) ->
    LI (mset cloc_eqb wm (Lo k) (t + 1) (mk_msg LOCKED V)) am G' cv' k.
  Proof.
    intros I Eg En Hgi Hgc Hge Ht Hc Hcv.
    set (wm' := mset cloc_eqb wm (Lo k) (t + 1) (mk_msg LOCKED V)).
    assert (GR : grows wm wm') by now apply mset_growsc.
    assert (E : ext wm wm' G G') by (constructor; auto; intros; congruence).
    assert (HN : wm' (Lo k) (t + 1) = Some (mk_msg LOCKED V)) by apply (mset_same _ cloc_spec).
    assert (HO : forall u, u <> t + 1 -> wm' (Lo k) u = wm (Lo k) u) by (intros u; apply (mset_ts cloc_eqb)).
    assert (HX : forall x u, x <> Lo k -> wm' x u = wm x u) by (intros x u; apply (mset_loc _ cloc_spec)).
    assert (HD : forall x u, isdat k x -> wm' x u = wm x u).
    { intros x u [[->|(a & i & _ & ->)]|(a & _ & ->)]; now apply HX. }
    assert (HU : forall u m, unl wm' k u m <-> unl wm k u m).
    { intros u m. unfold unl. destruct (Z.eq_dec u (t + 1)) as [->|Q]; [|now rewrite HO].
      rewrite HN, En. split; [intros [[= <-] H]; exfalso; apply H; reflexivity|intros [[=] _]]. }
    assert (HNN : forall u, wm (Lo k) u <> None -> wm' (Lo k) u <> None).
    { intros u H. destruct (wm (Lo k) u) eqn:Q; [|easy]. now rewrite (GR _ _ _ Q). }
    assert (S1 : mval g <> LOCKED -> t = tl G k /\ hd G k = None).
    { intros Q. apply (swap_unl wm am G cv k t g I); [now split|exact En]. }
    constructor; rewrite ?Hgi, ?Hgc, ?Hge, ?Ht.
    - destruct (l_tl _ _ _ _ _ _ I) as [m U]. exists m. now apply HU.
    - intros u m M L. destruct (Z.eq_dec u (t + 1)) as [->|Q].
      + rewrite HN in M. injection M as <-. split; [reflexivity|]. destruct Hc as [[A ->]|(A & T & -> & _)]; [|easy].
        destruct (Z.eq_dec t (tl G k)) as [->|Q].
        * destruct (l_tl _ _ _ _ _ _ I) as [m [U1 U2]]. congruence.
        * assert (tl G k < t) by lia. eapply (l_above _ _ _ _ _ _ I); eauto.
      + rewrite HO in M by exact Q. destruct (l_above _ _ _ _ _ _ I _ _ M L) as [A B]. split; [exact A|].
        destruct Hc as [[_ ->]|(_ & T & -> & _)]; easy.
    - intros u m M Lk. destruct (Z.eq_dec u (t + 1)) as [->|Q].
      + replace (t + 1 - 1) with t by lia. apply HNN. congruence.
      + rewrite HO in M by exact Q. apply HNN. eapply (l_chain _ _ _ _ _ _ I); eauto.
    - intros u m U L. apply HU in U. apply HNN. eapply (l_succ _ _ _ _ _ _ I); eauto.
    - intros Hh. destruct Hc as [[A B]|(A & T & B & _)].
      + apply HNN, (l_held _ _ _ _ _ _ I). congruence.
      + destruct (S1 A) as [<- _]. now rewrite HN.
    - intros u m U. apply HU in U. now apply (l_own _ _ _ _ _ _ I).
    - intros u m u' m' U U' L. apply HU in U, U'. now apply (l_mono _ _ _ _ _ _ I).
    - intros u m U. apply HU in U. now apply (l_cnt _ _ _ _ _ _ I).
    - intros u m U P. apply HU in U. destruct (l_pred _ _ _ _ _ _ I _ _ U P) as (t' & m' & U' & L & Q).
      exists t', m'. now rewrite HU.
    - intros u m U a ty O La. apply HU in U. destruct (l_snap _ _ _ _ _ _ I _ _ U a ty O La) as (v & W & X1 & X2 & X3 & X4).
      exists v, W. split; [exact X1|]. split; [eapply VR_ext; eauto|]. split; [exact X3|].
      intros i Hi. eapply shows_grows; eauto.
    - intros W u m U. apply HU in U. now apply (l_snaphi _ _ _ _ _ _ I).
    - intros x u d X M u' m U. apply HU in U. rewrite HD in M by exact X. eapply (l_data _ _ _ _ _ _ I); eauto.
    - intros x u d X M. rewrite HD in M by exact X. pose proof (l_max _ _ _ _ _ _ I x u d X M) as L.
      destruct Hc as [[A B]|(A & T & B & C)]; rewrite B.
      + destruct (hd G k) as [T|].
        * specialize (Hcv T eq_refl x). lia.
        * intros m U. apply HU in U. now apply L.
      + destruct (S1 A) as [-> Hn]. rewrite Hn in L. specialize (L g). specialize (C x).
        assert (unl wm k (tl G k) g) as U by now split. specialize (L U). lia.
    - intros W u d M. rewrite HX in M by easy. destruct (l_era _ _ _ _ _ _ I W u d M) as (A & B & C). split; [exact A|]. split; [exact B|].
      intros P. destruct (C P) as (u' & X & Y & Z). exists u'. rewrite HX by easy. auto.
    - intros W u d u' d'. rewrite !HX by easy. now apply (l_eramono _ _ _ _ _ _ I).
    - intros a u m La. now apply (l_last _ _ _ _ _ _ I).
  Qed.

  Definition set_hd (G : ghost) (k : Z) (o : option nat) : ghost :=
    mk_ghost (gi G) (gc G) (ge G) (tl G) (fun j => if j =? k then o else hd G j).
  Definition set_ge (G : ghost) (k u e : Z) : ghost :=
    mk_ghost (gi G) (gc G) (fun j v => if (j =? k) && (v =? u) then e else ge G j v) (tl G) (hd G).
  Definition set_rel (G : ghost) (k t n : Z) (i : Z -> Z) : ghost :=
    mk_ghost (fun j u a => if (j =? k) && (u =? t) then i a else gi G j u a)
      (fun j u => if (j =? k) && (u =? t) then n else gc G j u) (ge G)
      (fun j => if j =? k then t else tl G j) (fun j => if j =? k then None else hd G j).

  (** a store of the holder to data of the lock *)
  Lemma LI_data wm am G G' cv cv' k x u n V T : LI wm am G cv k -> hd G k = Some T -> isdat k x -> wm x u = None ->
    (forall y t g, wm y t = Some g -> closed wm (mview g)) -> closed wm (cv T) ->
    cv T x < u -> tl G k + 1 <= V (Lo k) ->
    gi G' = gi G -> gc G' = gc G -> tl G' = tl G -> hd G' = hd G ->
    (forall j v, (j, v) <> (k, u) \/ x <> Hi k -> ge G' j v = ge G j v) ->
    (x = Hi k -> wide c = true /\ ge G' k u = ge G k (cv T (Hi k)) + 1 /\ n = ge G' k u mod 2 ^ 32) ->
    vle (cv T) (cv' T) -> u <= cv' T x ->
    LI (mset cloc_eqb wm x u (mk_msg n V)) am G' cv' k.
  Proof.
    intros I Hh X En CM CT Lu HV Hgi Hgc Ht Hhd Hge HHi Hcv Hu.
    set (wm' := mset cloc_eqb wm x u (mk_msg n V)).
    assert (GR : grows wm wm') by now apply mset_growsc.
    assert (HN : wm' x u = Some (mk_msg n V)) by apply (mset_same _ cloc_spec).
    assert (XL : forall j, x <> Lo j) by (intros j; destruct X as [[->|(a & i & _ & ->)]|(a & _ & ->)]; easy).
    assert (HL : forall t, wm' (Lo k) t = wm (Lo k) t) by (intros t; apply (mset_loc _ cloc_spec); intros Q; now apply (XL k)).
    assert (HU : forall t m, unl wm' k t m <-> unl wm k t m) by (intros t m; unfold unl; now rewrite HL).
    assert (Gold : forall v d, wm (Hi k) v = Some d -> ge G' k v = ge G k v).
    { intros v d M. apply Hge. destruct (Z.eq_dec v u) as [->|Q]; [right; congruence|left; congruence]. }
    assert (E : ext wm wm' G G').
    { constructor; auto; try (intros; congruence). intros j v d M. apply Hge.
      destruct (Z.eq_dec j k) as [->|]; [|left; congruence]. destruct (Z.eq_dec v u) as [->|]; [right; congruence|left; congruence]. }
    assert (INV : forall y v d, wm' y v = Some d -> (y = x /\ v = u /\ d = mk_msg n V) \/ wm y v = Some d)
      by (intros y v d; apply (mset_inv _ cloc_spec)).
    assert (TOP : forall y v d, isdat k y -> wm y v = Some d -> v <= cv T y).
    { intros y v d Y M. pose proof (l_max _ _ _ _ _ _ I y v d Y M) as L. now rewrite Hh in L. }
    constructor; rewrite ?Hgi, ?Hgc, ?Ht, ?Hhd.
    - destruct (l_tl _ _ _ _ _ _ I) as [m U]. exists m. now apply HU.
    - intros t m. rewrite HL. apply (l_above _ _ _ _ _ _ I).
    - intros t m. rewrite !HL. apply (l_chain _ _ _ _ _ _ I).
    - intros t m. rewrite HU, HL. apply (l_succ _ _ _ _ _ _ I).
    - rewrite HL. apply (l_held _ _ _ _ _ _ I).
    - intros t m. rewrite HU. apply (l_own _ _ _ _ _ _ I).
    - intros t m t' m' U U' L. apply HU in U, U'. now apply (l_mono _ _ _ _ _ _ I).
    - intros t m U. apply HU in U. now apply (l_cnt _ _ _ _ _ _ I).
    - intros t m U P. apply HU in U. destruct (l_pred _ _ _ _ _ _ I _ _ U P) as (t' & m' & U' & L & Q).
      exists t', m'. now rewrite HU.
    - intros t m U a ty O La. apply HU in U. destruct (l_snap _ _ _ _ _ _ I _ _ U a ty O La) as (v & W & X1 & X2 & X3 & X4).
      exists v, W. split; [exact X1|]. split; [eapply VR_ext; eauto|]. split; [exact X3|].
      intros i Hi. eapply shows_grows; eauto.
    - intros W t m U. apply HU in U. destruct (CM _ _ _ (proj1 U) (Hi k)) as [d M]. rewrite (Gold _ _ M). now apply (l_snaphi _ _ _ _ _ _ I).
    - intros y v d Y M t m U. apply HU in U. apply INV in M as [(-> & -> & ->)|M].
      + right. cbn. pose proof (unl_le_tl _ _ _ _ _ _ _ _ I U). lia.
      + eapply (l_data _ _ _ _ _ _ I); eauto.
    - intros y v d Y M. rewrite Hh. apply INV in M as [(-> & -> & ->)|M]; [exact Hu|].
      specialize (TOP _ _ _ Y M). specialize (Hcv y). lia.
    - intros W v d M. apply INV in M as [(Q & -> & ->)|M].
      + symmetry in Q. destruct (HHi Q) as (_ & Q1 & Q2). destruct (CT (Hi k)) as [d0 M0]. destruct (l_era _ _ _ _ _ _ I W _ _ M0) as (A & B & C).
        split; [lia|]. split; [exact Q2|]. intros _. exists (cv T (Hi k)). rewrite Q in Lu. split; [exact Lu|]. split; [now rewrite (GR _ _ _ M0)|].
        rewrite (Gold _ _ M0). lia.
      + rewrite (Gold _ _ M). destruct (l_era _ _ _ _ _ _ I W v d M) as (A & B & C). split; [exact A|]. split; [exact B|].
        intros P. destruct (C P) as (u' & Y1 & Y2 & Y3). destruct (wm (Hi k) u') as [d'|] eqn:M'; [|easy].
        exists u'. rewrite (Gold _ _ M'), (GR _ _ _ M'). easy.
    - intros W v d v' d' M M' L. assert (DH : isdat k (Hi k)) by (left; now left).
      apply INV in M as [(Q & -> & ->)|M]; apply INV in M' as [(Q' & -> & ->)|M'].
      + lia.
      + specialize (TOP _ _ _ DH M'). rewrite <- Q in Lu. lia.
      + symmetry in Q'. destruct (HHi Q') as (_ & Q1 & Q2). destruct (CT (Hi k)) as [d0 M0]. rewrite (Gold _ _ M), Q1.
        specialize (TOP _ _ _ DH M). destruct (Z.eq_dec v (cv T (Hi k))) as [->|]; [lia|].
        pose proof (l_eramono _ _ _ _ _ _ I W _ _ _ _ M M0). lia.
      + rewrite (Gold _ _ M), (Gold _ _ M'). eapply (l_eramono _ _ _ _ _ _ I); eauto.
    - intros a t m La. now apply (l_last _ _ _ _ _ _ I).
  Qed.

  Lemma chain_free wm am G cv k t : LI wm am G cv k -> wm (Lo k) t = None -> tl G k < t -> forall u, t <= u -> wm (Lo k) u = None.
  Proof.
    intros I N L u Hu. replace u with (t + Z.of_nat (Z.to_nat (u - t))) by lia. clear Hu.
    induction (Z.to_nat (u - t)) as [|n IH]; [now rewrite Z.add_0_r|].
    destruct (wm (Lo k) (t + Z.of_nat (S n))) as [m|] eqn:M; [|reflexivity]. exfalso.
    destruct (l_above _ _ _ _ _ _ I _ _ M) as [A _]; [lia|]. apply (l_chain _ _ _ _ _ _ I _ _ M A).
    rewrite <- IH. f_equal. lia.
  Qed.

  Lemma sb_ge : 2 <= state_bits c.
  Proof. unfold state_bits. destruct (wide c); lia. Qed.

  (** the holder's releasing store *)
  Lemma LI_unlock wm am am' G cv cv' k t n N i T m0 : LI wm am G cv k -> hd G k = Some T -> wm (Lo k) t = None ->
    grows am am' ->
    (forall y t g, wm y t = Some g -> closed wm (mview g)) -> closed wm (cv T) ->
    unl wm k (tl G k) m0 -> vle (mview m0) (cv T) -> tl G k + 1 <= cv T (Lo k) -> cv T (Lo k) < t ->
    n = (2 * N) mod 2 ^ state_bits c ->
    ((N = gc G k (tl G k) /\ (forall a, i a = gi G k (tl G k) a) /\ forall x, isval k x -> cv T x = mview m0 x) \/
     (N = gc G k (tl G k) + 1 /\ forall a, gi G k (tl G k) a <= i a)) ->
    let G' := set_rel G k t N i in let V := vset cloc_eqb (cv T) (Lo k) t in
    let wm' := mset cloc_eqb wm (Lo k) t (mk_msg n V) in
    (forall a ty, objs c a = Some ty -> li a = k -> exists v W, am' (Ad a) (i a) = Some (mk_msg v W) /\ VR G' wm' W V /\ in_range ty v /\
        forall j, (j < len c ty)%nat -> shows c wm (cv T) a j v) ->
    (wide c = true -> ge G k (cv T (Hi k)) = N / half) ->
    (forall a u m, li a = k -> am' (Ad a) u = Some m -> u <= i a) ->
    LI wm' am' G' cv' k /\ ext wm wm' G G'.
  Proof.
    intros I Hh En GA CM CT U0 L0 LT Lt Hn HN G' V wm' Hsnap Hera Hlast.
    assert (GR : grows wm wm') by now apply mset_growsc.
    set (msg0 := mk_msg n V). assert (HNew : wm' (Lo k) t = Some msg0) by apply (mset_same _ cloc_spec).
    assert (HX : forall x u, x <> Lo k -> wm' x u = wm x u) by (intros x u; apply (mset_loc _ cloc_spec)).
    assert (HO : forall u, u <> t -> wm' (Lo k) u = wm (Lo k) u) by (intros u; apply (mset_ts cloc_eqb)).
    assert (HD : forall x u, isdat k x -> wm' x u = wm x u).
    { intros x u [[->|(a & j & _ & ->)]|(a & _ & ->)]; now apply HX. }
    pose proof (l_cnt _ _ _ _ _ _ I _ _ U0) as [C0 V0].
    assert (Nodd : n <> LOCKED).
    { rewrite Hn. unfold LOCKED. intros Q. pose proof sb_ge as S2. set (b := state_bits c) in *. clearbody b.
      replace (2 ^ b) with (2 * 2 ^ (b - 1)) in Q by (rewrite <- Z.pow_succ_r by lia; f_equal; lia).
      rewrite Z.mul_mod_distr_l in Q; [lia|pose proof (Z.pow_pos_nonneg 2 (b - 1)); lia|lia]. }
    assert (UN : unl wm' k t msg0) by (split; [exact HNew|exact Nodd]).
    assert (VX : forall x, x <> Lo k -> V x = cv T x) by (intros x Q; unfold V; now apply (vset_other _ cloc_spec)).
    assert (VK : V (Lo k) = t) by (unfold V; rewrite (vset_same _ cloc_spec); lia).
    assert (VGE : vle (cv T) V) by apply vset_le.
    assert (VD : forall x, isdat k x -> V x = cv T x).
    { intros x [[->|(a & j & _ & ->)]|(a & _ & ->)]; now apply VX. }
    assert (INVU : forall u m, unl wm' k u m -> (u = t /\ m = msg0) \/ (u <> t /\ u < t /\ unl wm k u m)).
    { intros u m [M1 M2]. destruct (Z.eq_dec u t) as [->|Q]; [left; split; congruence|right]. rewrite HO in M1 by exact Q.
      assert (U : unl wm k u m) by now split. pose proof (unl_le_tl _ _ _ _ _ _ _ _ I U). repeat split; auto. lia. }
    assert (FREE : forall u, t < u -> wm (Lo k) u = None) by (intros u Q; eapply chain_free; eauto; lia).
    assert (GN : gc G' k t = N) by (cbn; now rewrite !Z.eqb_refl).
    assert (IN : forall a, gi G' k t a = i a) by (intros a; cbn; now rewrite !Z.eqb_refl).
    assert (GO : forall u, u <> t -> gc G' k u = gc G k u) by (intros u Q; cbn; now rewrite (proj2 (Z.eqb_neq u t)), andb_false_r).
    assert (IO : forall u a, u <> t -> gi G' k u a = gi G k u a) by (intros u a Q; cbn; now rewrite (proj2 (Z.eqb_neq u t)), andb_false_r).
    assert (TN : tl G' k = t) by (cbn; now rewrite Z.eqb_refl).
    assert (HNone : hd G' k = None) by (cbn; now rewrite Z.eqb_refl).
    assert (E : ext wm wm' G G').
    { constructor; auto; cbn.
      - intros j u m a [U _]. destruct (Z.eqb_spec j k) as [->|], (Z.eqb_spec u t) as [->|]; cbn; auto; congruence.
      - intros j u m [U _]. destruct (Z.eqb_spec j k) as [->|], (Z.eqb_spec u t) as [->|]; cbn; auto; congruence. }
    assert (HNN : forall u, wm (Lo k) u <> None -> wm' (Lo k) u <> None).
    { intros u H. destruct (wm (Lo k) u) eqn:Q; [|easy]. now rewrite (GR _ _ _ Q). }
    assert (NGE : gc G k (tl G k) <= N) by (destruct HN as [[-> _]|[-> _]]; lia).
    assert (IGE : forall a, gi G k (tl G k) a <= i a) by (destruct HN as [(_ & Q & _)|[_ Q]]; intros a; rewrite ?Q; auto; lia).
    assert (TOP : forall y v d, isdat k y -> wm y v = Some d -> v <= cv T y).
    { intros y v d Y M. pose proof (l_max _ _ _ _ _ _ I y v d Y M) as L. now rewrite Hh in L. }
    split; [|exact E]. constructor; rewrite ?TN, ?HNone.
    - exists msg0. exact UN.
    - intros u m M L. rewrite HO in M by lia. now rewrite FREE in M.
    - intros u m M Lk. destruct (Z.eq_dec u t) as [->|Q].
      + exfalso. rewrite HNew in M. injection M as <-. now apply Nodd.
      + rewrite HO in M by exact Q. apply HNN. eapply (l_chain _ _ _ _ _ _ I); eauto.
    - intros u m U L. apply INVU in U as [[-> _]|(_ & _ & U)]; [lia|]. apply HNN.
      pose proof (unl_le_tl _ _ _ _ _ _ _ _ I U) as L'. destruct (Z.eq_dec u (tl G k)) as [->|].
      + apply (l_held _ _ _ _ _ _ I). congruence.
      + eapply (l_succ _ _ _ _ _ _ I); eauto. lia.
    - easy.
    - intros u m U. apply INVU in U as [[-> ->]|(_ & _ & U)]; [exact VK|]. now apply (l_own _ _ _ _ _ _ I).
    - intros u m u' m' U U' L. apply INVU in U as [[-> ->]|(Q & _ & U)]; apply INVU in U' as [[-> ->]|(Q' & _ & U')].
      + repeat split; try apply vle_refl; lia.
      + pose proof (unl_le_tl _ _ _ _ _ _ _ _ I U'). lia.
      + pose proof (unl_le_tl _ _ _ _ _ _ _ _ I U) as Lu. destruct (l_mono _ _ _ _ _ _ I _ _ _ _ U U0 Lu) as (A & B & C & D).
        rewrite GN, GO by exact Q. split; [|split; [lia|split]].
        * cbn [mview msg0]. eapply vle_trans; [exact A|]. eapply vle_trans; [exact L0|exact VGE].
        * intros a. rewrite IN, IO by exact Q. specialize (C a). specialize (IGE a). lia.
        * intros Qg. destruct HN as [(N1 & N2 & N3)|[N1 N2]]; [|lia]. destruct D as [D1 D2]; [lia|]. split.
          -- intros a. rewrite IN, IO, N2 by exact Q. apply D1.
          -- intros x X. cbn [mview msg0]. rewrite VD by (now left). rewrite N3 by exact X. now apply D2.
      + destruct (l_mono _ _ _ _ _ _ I _ _ _ _ U U' L) as (A & B & C & D). rewrite !GO by assumption. split; [exact A|]. split; [exact B|]. split.
        * intros a. rewrite !IO by assumption. apply C.
        * intros Qg. destruct (D Qg) as [D1 D2]. split; [|exact D2]. intros a. rewrite !IO by assumption. apply D1.
    - intros u m U. apply INVU in U as [[-> ->]|(Q & _ & U)].
      + rewrite GN. split; [lia|]. exact Hn.
      + rewrite GO by exact Q. now apply (l_cnt _ _ _ _ _ _ I).
    - intros u m U P. apply INVU in U as [[-> ->]|(Q & _ & U)].
      + rewrite GN in *. pose proof (unl_le_tl _ _ _ _ _ _ _ _ I U0). destruct HN as [(N1 & N2 & N3)|[N1 N2]].
        * rewrite N1 in P. destruct (l_pred _ _ _ _ _ _ I _ _ U0 P) as (t' & m' & U' & L & Q). exists t', m'.
          split; [eapply unl_grows; eauto|]. rewrite GO by lia. split; lia.
        * exists (tl G k), m0. split; [eapply unl_grows; eauto|]. rewrite GO by lia. split; lia.
      + rewrite GO in * by exact Q. pose proof (unl_le_tl _ _ _ _ _ _ _ _ I U). destruct (l_pred _ _ _ _ _ _ I _ _ U P) as (t' & m' & U' & L & Q').
        exists t', m'. split; [eapply unl_grows; eauto|]. rewrite GO by lia. auto.
    - intros u m U a ty O La. apply INVU in U as [[-> ->]|(Q & _ & U)].
      + rewrite IN. destruct (Hsnap a ty O La) as (v & W & X1 & X2 & X3 & X4). exists v, W. refine (conj X1 (conj X2 (conj X3 _))).
        intros j Hj. destruct (X4 j Hj) as (x & Y1 & Y2). exists x. cbn [mview msg0]. rewrite VX by easy. auto.
      + rewrite IO by exact Q. destruct (l_snap _ _ _ _ _ _ I _ _ U a ty O La) as (v & W & X1 & X2 & X3 & X4).
        exists v, W. split; [now apply GA|]. split; [eapply VR_ext; eauto|]. split; [exact X3|].
        intros j Hj. eapply shows_grows; eauto.
    - intros W u m U. apply INVU in U as [[-> ->]|(Q & _ & U)].
      + rewrite GN. cbn [mview msg0]. rewrite VX by easy. now apply Hera.
      + rewrite GO by exact Q. now apply (l_snaphi _ _ _ _ _ _ I).
    - intros x u d X M u' m U. rewrite HD in M by exact X. apply INVU in U as [[-> ->]|(Q & _ & U)].
      + left. cbn [mview msg0]. rewrite VD by exact X. eapply TOP; eauto.
      + eapply (l_data _ _ _ _ _ _ I); eauto.
    - intros x u d X M m U. rewrite HD in M by exact X. apply INVU in U as [[_ ->]|(Q & _ & U)]; [|easy].
      cbn [mview msg0]. rewrite VD by exact X. eapply TOP; eauto.
    - intros W u d M. rewrite HX in M by easy. destruct (l_era _ _ _ _ _ _ I W u d M) as (A & B & C). split; [exact A|]. split; [exact B|].
      intros P. destruct (C P) as (u' & X & Y & Z). exists u'. rewrite HX by easy. auto.
    - intros W u d u' d'. rewrite !HX by easy. now apply (l_eramono _ _ _ _ _ _ I).
    - intros a u m La M. rewrite IN. eapply Hlast; eauto.
  Qed.
End P.
