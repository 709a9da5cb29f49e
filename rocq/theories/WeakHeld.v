(** The simulation, part 2: taking the lock and working under it. *)
From Coq Require Import ZArith List Bool Lia PeanoNat.
From Verif Require Import Words Spec WordsFacts OrderingModel FallbackModel FallbackFacts WeakMem WeakFacts WeakSpec WeakModel WeakInv WeakFrame WeakLocks WeakSim WeakOpt.
Import ListNotations.
Open Scope Z_scope.

Section P.
  Variable c : config.
  Hypothesis WF : wf_config c.
  Local Notation li := lock_index.
  Local Notation LI := (LI c).
  Local Notation half := (half c).
  Local Notation mem_of s := (wmem (world_of s)).
  Local Notation arun := (wrun aloc_eqb (s_next (obj_ty c)) (s_code (objs c)) Ac).
  Local Notation move s T w tv p := (mk_wst w (upd (views s) T tv) (upd (confs s) T p)).
  Local Notation answered := (answered c).

  Lemma isdat_fun k k' x : isdat k x -> isdat k' x -> k = k'.
  Proof. intros [[->|(a & i & <- & ->)]|(a & <- & ->)] [[[= ->]|(b & j & <- & [= ->])]|(b & <- & [= ->])]; auto; try easy. Qed.
  Lemma isdat_lo k k' : ~ isdat k (Lo k').
  Proof. intros [[[=]|(b & j & _ & [=])]|(b & _ & [=])]. Qed.
  Lemma isdat_cl k x : ~ isdat k (Cl x).
  Proof. intros [[[=]|(b & j & _ & [=])]|(b & _ & [=])]. Qed.
  Lemma own_rel_ext G G' wm wm' am am' : own_rel G wm am -> ext wm wm' G G' ->
    (forall x t, wm' (Cl x) t = wm (Cl x) t) -> (forall x t, am' (Ac x) t = am (Ac x) t) -> own_rel G' wm' am'.
  Proof.
    intros O E H1 H2 x t. rewrite H1, H2. specialize (O x t). destruct (wm (Cl x) t), (am (Ac x) t); auto.
    destruct O as [A B]. split; [exact A|]. eapply VR_ext; eauto.
  Qed.

  (** a store or swap to memory of lock [K], the native machine staying put *)
  Lemma sim_mem G G' s A T p q p' act ts v tv K y u mg : Sim c G s A -> confs s T = Some p -> confs A T = Some q ->
    perform cloc_eqb act ts (world_of s) (views s T) = Some (v, mk_world (mset cloc_eqb (mem_of s) y u mg) (wsc (world_of s)), tv) ->
    (y = Lo K \/ isdat K y) -> mem_of s y u = None ->
    ext (mem_of s) (mset cloc_eqb (mem_of s) y u mg) G G' ->
    tl G' = tl G -> gi G' = gi G -> gc G' = gc G -> (forall k, k <> K -> hd G' k = hd G k /\ ge G' k = ge G k) ->
    (hd G K = Some T \/ hd G' K = hd G K \/ hd G K = None) -> (hd G' K = Some T \/ hd G' K = hd G K) ->
    LI (mset cloc_eqb (mem_of s) y u mg) (mem_of A) G' (fun T' => cur (upd (views s) T tv T')) K ->
    AP p' q -> (forall k, hd G' k = Some T -> holds p' = Some k) ->
    TI c (mset cloc_eqb (mem_of s) y u mg) (mem_of A) G' T tv (views A T) p' ->
    answered A (move s T (mk_world (mset cloc_eqb (mem_of s) y u mg) (wsc (world_of s))) tv (Some p')) [].
  Proof.
    intros S E EA P Hy En Ex Ht Hgi Hgc HG HK HK' HI HA HH HT. pose proof S as [SL [SCW SCT] SO SS SV SF SH].
    destruct (perform_closed _ cloc_spec _ _ _ _ _ _ _ P SCW (SCT T)) as (GR & CW & CT & TL).
    exists [], A, G'. split; [reflexivity|].
    set (s' := move s T _ tv (Some p')).
    assert (V' : forall T', vle (cur (views s T')) (cur (views s' T'))).
    { intros T'. cbn. destruct (Nat.eq_dec T' T) as [->|N]; [rewrite upd_same; apply TL|rewrite upd_other by exact N; apply vle_refl]. }
    eapply (sim_frame c G G' s A s' A T S); cbn [s' world_of wmem wsc views confs]; rewrite ?upd_same, ?EA; auto.
    - apply grows_refl.
    - intros k. destruct (Z.eq_dec k K) as [->|N]; [exact HI|]. destruct (HG k N) as [Hhd Hge].
      eapply LI_frame; [apply SL|exact Ex| | | | | | | | |]; try (intros; congruence).
      + intros t. apply (mset_loc _ cloc_spec). intros <-. destruct Hy as [[= ->]|Hy]; [now apply N|]. now apply isdat_lo in Hy.
      + intros x w D. apply (mset_loc _ cloc_spec). intros ->. destruct Hy as [->|Hy]; [now apply isdat_lo in D|]. apply N. eapply isdat_fun; eauto.
      + intros T' _. apply V'.
    - eapply own_rel_ext; eauto. intros x t. apply (mset_loc _ cloc_spec). intros <-. destruct Hy as [[=]|Hy]. now apply isdat_cl in Hy.
    - eapply VR_ext; eauto.
    - eapply VRt_mono; [exact TL|]. eapply VRt_ext; eauto.
    - intros T' N. now rewrite !upd_other.
    - intros k T' N Hd. rewrite Ht. destruct (Z.eq_dec k K) as [->|NK]; [|destruct (HG k NK) as [-> _]; auto].
      split; [|reflexivity]. destruct HK as [HK|[->|HK]]; [congruence|exact Hd|congruence].
    - intros k T' Hd. destruct (Nat.eq_dec T' T) as [->|N]; [left; split; eauto|right; split; [exact N|]].
      destruct (Z.eq_dec k K) as [->|NK]; [|destruct (HG k NK) as [<- _]; auto]. destruct HK' as [HK'|<-]; [congruence|exact Hd].
  Qed.

  Lemma sim_acq G s A T a o ts v w tv : Sim c G s A -> confs s T = Some (Acq a o) ->
    perform cloc_eqb (Rmw (Lo (li a)) (fun _ => Some LOCKED) true false) ts (world_of s) (views s T) = Some (v, w, tv) ->
    answered A (move s T w tv (Some (if v =? LOCKED then Spin a o else RelFence a o v))) [].
  Proof.
    intros S E P. destruct (sim_conf _ _ _ _ _ _ S E) as (q & EA & -> & Gd). pose proof P as P0.
    pose proof S as [SL [SCW SCT] SO SS SV SF SH].
    destruct (perform_closed _ cloc_spec _ _ _ _ _ _ _ P0 SCW (SCT T)) as (GR & CW & CT & TL).
    apply rmw_inv in P as (g & M & L & -> & En & -> & ->). set (k := li a) in *.
    pose proof (not_holding c _ _ _ T _ S E (ltac:(reflexivity))) as NH.
    set (tv' := wrote _ _ _ _) in *.
    set (mg := mk_msg LOCKED _) in *.
    assert (OLD : forall T0, hd G k = Some T0 -> vle (cur (views s T0)) (cur (upd (views s) T tv' T0))).
    { intros T0 H0. rewrite upd_other; [apply vle_refl|]. intros ->. now apply (NH k). }
    destruct (Z.eqb_spec (mval g) LOCKED) as [Q|Q].
    - eapply (sim_mem G G s A T _ _ _ _ ts _ tv' k (Lo k) (ts + 1) mg S E EA P0); auto.
      + apply ext_same, GR.
      + apply LI_swap with (G := G) (g := g) (cv := fun T' => cur (views s T')); auto.
      + reflexivity.
      + intros k' Hk. now apply NH in Hk.
    - assert (U : unl (mem_of s) k ts g) by now split.
      destruct (swap_unl _ _ _ _ _ _ _ _ (SL k) U En) as [Ets Hnone].
      assert (GV : vle (mview g) (cur tv')).
      { unfold tv'. cbn. eapply vle_trans; [|apply vset_le]. eapply vle_trans; [|apply vset_le]. apply vjoin_r. }
      assert (KK : hd (set_hd G k (Some T)) k = Some T) by (cbn; now rewrite Z.eqb_refl).
      eapply (sim_mem G (set_hd G k (Some T)) s A T _ _ _ _ ts _ tv' k (Lo k) (ts + 1) mg S E EA P0); auto.
      + constructor; auto.
      + intros k' N. cbn. now rewrite (proj2 (Z.eqb_neq k' k)).
      + apply LI_swap with (G := G) (g := g) (cv := fun T' => cur (views s T')); auto.
        right. split; [exact Q|]. exists T. split; [exact KK|]. now rewrite upd_same.
      + reflexivity.
      + intros k'. cbn. destruct (Z.eqb_spec k' k) as [->|N]; [reflexivity|]. intros Hk. now apply NH in Hk.
      + cbn [TI]. split; [exact Gd|]. fold k.
        assert (U' : unl (mset cloc_eqb (mem_of s) (Lo k) (ts + 1) mg) k (tl G k) g) by (rewrite <- Ets; now apply (unl_grows _ _ _ _ _ GR)).
        assert (CD : forall x, isval k x -> cur tv' x = mview g x).
        { intros x X. assert (Dx : isdat k x) by now left. assert (NL : x <> Lo k) by (intros ->; now apply isdat_lo in Dx).
          assert (E1 : cur tv' x = Z.max (cur (views s T) x) (mview g x)).
          { unfold tv'. cbn. now rewrite !(vset_other _ cloc_spec). }
          rewrite E1. apply Z.max_r. destruct (SCT T) as ((CC & _) & _). destruct (CC x) as [d Md].
          pose proof (l_max _ _ _ _ _ _ (SL k) x _ d Dx Md) as LM. rewrite Hnone, <- Ets in LM. now apply LM. }
        split.
        * split; [exact KK|]. split; [exists g; cbn [tl set_hd]; auto|].
          cbn [tl set_hd]. unfold tv'. cbn. rewrite (vset_same _ cloc_spec). lia.
        * split.
          -- intros m Um. cbn [tl set_hd] in Um. rewrite (unl_fun _ _ _ _ _ U' Um). apply CD. now left.
          -- intros m Um b j Hb. cbn [tl set_hd] in Um. rewrite (unl_fun _ _ _ _ _ U' Um). apply CD. right. eauto.
  Qed.
  Lemma sim_spin G s A T a o ts v w tv : Sim c G s A -> confs s T = Some (Spin a o) ->
    perform cloc_eqb (Load (Lo (li a)) false) ts (world_of s) (views s T) = Some (v, w, tv) ->
    answered A (move s T w tv (Some (if v =? LOCKED then Spin a o else Acq a o))) [].
  Proof.
    intros S E P. destruct (sim_conf _ _ _ _ _ _ S E) as (q & EA & -> & Gd). pose proof P as P0.
    apply load_inv in P as (d & M & L & -> & -> & ->).
    eapply silent; eauto; destruct (mval d =? LOCKED); auto; reflexivity.
  Qed.

  (** facts of the holder survive when only other things become known *)
  Section Keep.
    Variables (wm wm' : memory cloc) (G : ghost) (T : nat) (cv cv' : tview cloc) (k : Z).
    Hypothesis GR : grows wm wm'.
    Hypothesis LE : tle cv cv'.
    Lemma LK_keep st : LK wm G T cv k st -> LK wm' G T cv' k st.
    Proof.
      intros (A & (m & U & B & C) & D). split; [exact A|]. split.
      - exists m. split; [eapply unl_grows; eauto|]. split; [eapply vle_trans; [exact B|apply LE]|exact C].
      - destruct LE as (L & _). specialize (L (Lo k)). lia.
    Qed.
    Lemma RF_keep : RF G cv k -> RF G cv' k.
    Proof. unfold RF. destruct LE as (_ & _ & L). specialize (L (Lo k)). lia. Qed.
    Lemma unl_back st m : LK wm G T cv k st -> unl wm' k (tl G k) m -> unl wm k (tl G k) m.
    Proof. intros (_ & (m0 & U & _) & _) U'. pose proof (unl_grows _ _ _ _ _ GR U) as U2. now rewrite <- (unl_fun _ _ _ _ _ U' U2). Qed.
    Lemma same_hi_keep st : LK wm G T cv k st -> cur cv' (Hi k) = cur cv (Hi k) -> same_hi wm G cv k -> same_hi wm' G cv' k.
    Proof. intros K Q H m U. rewrite Q. apply H. eapply unl_back; eauto. Qed.
    Lemma same_but_keep st a i : LK wm G T cv k st -> (forall b j, li b = k -> b <> a \/ (i <= j)%nat -> cur cv' (Ck b j) = cur cv (Ck b j)) ->
      same_but wm G cv k a i -> same_but wm' G cv' k a i.
    Proof. intros K Q H m U b j Lb Hb. rewrite Q by assumption. apply H; auto. eapply unl_back; eauto. Qed.
    Lemma same_keep st : LK wm G T cv k st -> (forall x, isval k x -> cur cv' x = cur cv x) -> same wm G cv k -> same wm' G cv' k.
    Proof.
      intros K Q [H1 H2]. split.
      - eapply same_hi_keep; eauto. apply Q. now left.
      - intros m U b j Lb. rewrite Q by (right; eauto). apply H2; auto. eapply unl_back; eauto.
    Qed.
    Lemma put_keep a i v : (forall j, cur cv' (Ck a j) = cur cv (Ck a j)) -> put_so_far c wm cv a i v -> put_so_far c wm' cv' a i v.
    Proof. intros Q H j A B. destruct (H j A B) as (x & X & Y). exists x. rewrite Q. auto. Qed.
  End Keep.
  Lemma same_same_but wm G cv k a i : same wm G cv k -> same_but wm G cv k a i.
  Proof. intros [_ H] m U b j Lb _. now apply H. Qed.

  (** under the lock the newest values are known *)
  Lemma held_load G s A T k x u d : Sim c G s A -> hd G k = Some T -> isdat k x -> mem_of s x u = Some d -> u <= cur (views s T) x.
  Proof. intros S H X M. pose proof (l_max _ _ _ _ _ _ (s_lock _ _ _ _ S k) x u d X M) as L. now rewrite H in L. Qed.
  Lemma see_same tv x t (g : msg cloc) : cur tv x = t -> forall y, cur (see cloc_eqb tv x t g false) y = cur tv y.
  Proof. intros Q y. cbn. unfold vset. destruct (cloc_eqb y x) eqn:B; [|reflexivity]. apply cloc_spec in B as ->. lia. Qed.

  Lemma tl_value G s A T a ty st : Sim c G s A -> objs c a = Some ty -> LK (mem_of s) G T (views s T) (li a) st ->
    exists v, val_at (mem_of A) G (tl G (li a)) a v /\ in_range ty v.
  Proof.
    intros S O (_ & (m & U & _) & _). destruct (l_snap _ _ _ _ _ _ (s_lock _ _ _ _ S (li a)) _ _ U a ty O eq_refl) as (v & V & X & _ & Y & _).
    exists v. split; [exists V; exact X|exact Y].
  Qed.
  Lemma sim_relfence G s A T a o st ts v w tv : Sim c G s A -> confs s T = Some (RelFence a o st) ->
    perform cloc_eqb (Fence FRelease) ts (world_of s) (views s T) = Some (v, w, tv) ->
    answered A (move s T w tv (Some (match o with OStore x _ => LWrite a o st (to_chunks c (obj_ty c a) x) 0 RUnit | _ => Mark a o st end))) [].
  Proof.
    intros S E P. destruct (sim_conf _ _ _ _ _ _ S E) as (q & EA & -> & Gd & K & Sm). pose proof P as P0.
    cbn in P. injection P as <- <- <-.
    set (tv := mk_tview _ _ _). assert (LE : tle (views s T) tv).
    { repeat split; try apply vle_refl. cbn. apply (s_closed _ _ _ _ S). }
    assert (K' : LK (mem_of s) G T tv (li a) st) by (eapply LK_keep; eauto using grows_refl).
    assert (R' : RF G tv (li a)) by apply K.
    assert (Sm' : same (mem_of s) G tv (li a)) by exact Sm.
    destruct (good_len c WF _ _ Gd) as (ty & Ob & Et & Ln & Ty).
    destruct o; (eapply silent; [exact S|exact E|exact EA|exact P0|reflexivity|reflexivity|]); cbn [TI];
      try (refine (conj Gd (conj _ (conj K' (conj R' Sm')))); intros []).
    split; [exact Gd|]. split; [exact K'|]. split; [exact R'|]. split; [exact Ln|]. split; [apply Sm'|]. split; [now apply same_same_but|].
    exists v. split; [reflexivity|]. rewrite Et. split; [exact Ty|]. split; [|split; [exact I|intros j Hj; lia]].
    destruct (tl_value _ _ _ _ _ _ _ S Ob K) as (x & X1 & X2). exists x. split; [exact X1|].
    destruct Gd as (_ & _ & _ & Ok). now apply spec_store.
  Qed.

  (** a store by the holder to data of the lock *)
  Lemma sim_put G s A T p q p' a x n ts (rl : bool) w v tv : let k := li a in Sim c G s A -> confs s T = Some p -> confs A T = Some q ->
    perform cloc_eqb (Store x n rl) ts (world_of s) (views s T) = Some (v, w, tv) ->
    hd G k = Some T -> holds p = Some k -> holds p' = Some k -> isdat k x -> x <> Hi k -> RF G (views s T) k -> AP p' q ->
    (forall mg, let wm' := mset cloc_eqb (mem_of s) x ts mg in grows (mem_of s) wm' -> mval mg = n -> wm' x ts = Some mg -> tle (views s T) tv ->
      (forall y, y <> x -> cur tv y = cur (views s T) y) -> cur tv x = ts -> TI c wm' (mem_of A) G T tv (views A T) p') ->
    answered A (move s T w tv (Some p')) [].
  Proof.
    intros k S E EA P Hk Hp Hp' X NX R HA HT. pose proof P as P0. pose proof S as [SL [SCW SCT] SO SS SV SF SH].
    destruct (perform_closed _ cloc_spec _ _ _ _ _ _ _ P0 SCW (SCT T)) as (GR & CW & CT & TL).
    apply store_inv in P as (En & L & -> & ->). set (mg := mk_msg n _) in *.
    eapply (sim_mem G G s A T _ _ _ _ ts _ _ k x ts mg S E EA P0); auto.
    - apply ext_same, GR.
    - eapply LI_data with (G := G) (T := T) (cv := fun T' => cur (views s T')); auto.
      + apply SCW.
      + apply SCT.
      + unfold out_view. unfold RF in R. rewrite (vset_other _ cloc_spec) by (intros <-; now apply isdat_lo in X).
        destruct rl; [|exact R]. destruct (SCT T) as (_ & O & _). specialize (O (Lo k)). lia.
      + easy.
      + rewrite upd_same. apply TL.
      + rewrite upd_same. cbn. rewrite (vset_same _ cloc_spec). lia.
    - intros k' Hk'. rewrite Hp'. rewrite <- Hp. eapply sim_holder; eauto.
    - apply HT; auto.
      + apply (mset_same _ cloc_spec).
      + intros y N. cbn. now rewrite (vset_other _ cloc_spec).
      + cbn. rewrite (vset_same _ cloc_spec). lia.
  Qed.
  Lemma sim_mark G s A T a o st ts v w tv : Sim c G s A -> confs s T = Some (Mark a o st) ->
    perform cloc_eqb (Store (Rd a) 0 false) ts (world_of s) (views s T) = Some (v, w, tv) ->
    answered A (move s T w tv (Some (LRead a o st []))) [].
  Proof.
    intros S E P. destruct (sim_conf _ _ _ _ _ _ S E) as (q & EA & -> & Gd & Ns & K & R & Sm).
    eapply sim_put with (a := a); eauto; try reflexivity; try apply K.
    - right. eauto.
    - easy.
    - cbv zeta. intros mg GR Ev Em TL Hy Hx. destruct (good_len c WF _ _ Gd) as (ty & Ob & Et & Ln & Ty).
      cbn [TI]. refine (conj Gd (conj Ns (conj _ (conj _ (conj _ (conj Ln _)))))).
      + eapply LK_keep; eauto.
      + eapply RF_keep; eauto.
      + eapply same_keep; eauto. intros x [->|(b & j & _ & ->)]; now apply Hy.
      + rewrite Et. destruct (tl_value _ _ _ _ _ _ _ S Ob K) as (x & X1 & X2). exists x. split; [exact X1|]. split; [exact X2|]. reflexivity.
  Qed.
  Lemma ran_intro G am a ty o v : objs c a = Some ty -> val_at am G (tl G (li a)) a v -> ran c am G a o (fst (spec_op ty o v)) (snd (spec_op ty o v)).
  Proof. intros O V. exists v. split; [exact V|]. rewrite (obj_ty_eq _ _ _ O). now destruct (spec_op ty o v). Qed.
  Lemma sim_lread G s A T a o st rd ts v w tv : Sim c G s A -> confs s T = Some (LRead a o st rd) ->
    perform cloc_eqb (Load (Ck a (length rd)) false) ts (world_of s) (views s T) = Some (v, w, tv) ->
    answered A (move s T w tv (Some (more_read c a o st (rd ++ [v])))) [].
  Proof.
    intros S E P. destruct (sim_conf _ _ _ _ _ _ S E) as (q & EA & -> & Gd & Ns & K & R & Sm & Ln & x & V1 & V2 & V3). pose proof P as P0.
    apply load_inv in P as (d & M & L & -> & -> & ->).
    assert (Dx : isdat (li a) (Ck a (length rd))) by (left; right; eauto).
    assert (Q : cur (views s T) (Ck a (length rd)) = ts).
    { pose proof (held_load _ _ _ _ _ _ _ _ S (proj1 K) Dx M). lia. }
    pose proof (see_same (views s T) _ _ d Q) as SAME. set (tv := see _ _ _ _ _ _) in *.
    assert (LE : tle (views s T) tv) by apply see_tle.
    destruct (good_len c WF _ _ Gd) as (ty & Ob & Et & _ & Ty). rewrite Et in *.
    (* the value read *)
    assert (Vd : rd ++ [mval d] = firstn (Datatypes.S (length rd)) (to_chunks c ty x)).
    { rewrite (firstn_snoc _ _ 0) by (now rewrite (to_chunks_length c)). rewrite <- V3. f_equal. f_equal.
      destruct K as (_ & (m & U & _ & _) & _). destruct (l_snap _ _ _ _ _ _ (s_lock _ _ _ _ S (li a)) _ _ U a ty Ob eq_refl) as (x' & V' & X1 & X2 & X3 & X4).
      destruct V1 as [V1' V1]. assert (x' = x) by congruence. subst x'. destruct (X4 _ Ln) as (e & Y1 & Y2). rewrite Et in Y2.
      rewrite <- Y2. destruct Sm as [_ Sm]. rewrite <- (Sm m U a (length rd) eq_refl), Q in Y1. congruence. }
    assert (K' : LK (mem_of s) G T tv (li a) st) by (eapply LK_keep; eauto using grows_refl).
    assert (R' : RF G tv (li a)) by (eapply RF_keep; eauto).
    assert (Sm' : same (mem_of s) G tv (li a)) by (eapply same_keep; [apply grows_refl|exact K|intros; apply SAME|exact Sm]).
    assert (LE2 : length (rd ++ [mval d]) = Datatypes.S (length rd)) by (rewrite app_length; cbn; lia).
    unfold more_read. rewrite Et. destruct (Nat.ltb_spec (length (rd ++ [mval d])) (len c ty)) as [Q1|Q1].
    - eapply silent; eauto; [reflexivity|]. cbn [TI]. rewrite Et. refine (conj Gd (conj Ns (conj K' (conj R' (conj Sm' (conj Q1 _)))))).
      exists x. split; [exact V1|]. split; [exact V2|]. now rewrite LE2.
    - assert (Vx : of_chunks c ty (rd ++ [mval d]) = x).
      { rewrite Vd, firstn_all2 by (rewrite (to_chunks_length c); lia). eapply of_to_chunks; eauto. }
      rewrite Vx. destruct Gd as (ty' & Ob' & Ty' & Ok). assert (ty' = ty) by congruence. subst ty'. clear Ob' Ty'.
      assert (Gd : good c a o) by (exists ty; auto).
      pose proof (obj_wf c WF _ _ Ob) as Wt.
      pose proof (spec_op_range ty o x Wt V2 Ty) as Rng. pose proof (ran_intro G (mem_of A) a ty o x Ob V1) as Rn.
      destruct o as [ord|y ord|r ord|cu n su fa].
      + rewrite spec_load in Rng, Rn by exact Ok. eapply silent; eauto; [reflexivity|]. cbn [TI]. split; [exact Gd|].
        exists st, x. rewrite Et. split; [exact K'|]. split; [exact Rng|]. split; [exact Rn|]. left. split; [reflexivity|]. split; [intros []|exact Sm'].
      + now destruct Ns.
      + change (spec_op ty (ORmw r ord) x) with (spec_rmw ty r x, RVal x) in Rng, Rn. cbn [fst snd] in Rng, Rn.
        rewrite <- (rmw_next_spec ty r x Wt V2 Ty) in Rng, Rn. eapply silent; eauto; [reflexivity|]. cbn [TI]. rewrite Et. refine (conj Gd (conj K' (conj R' (conj _ (conj (proj1 Sm') (conj (same_same_but _ _ _ _ _ _ Sm') _)))))); [lia|].
        exists (rmw_next ty r x). split; [reflexivity|]. split; [exact Rng|]. split; [exact Rn|]. split; [exact I|]. intros j Hj. lia.
      + rewrite spec_cas in Rng, Rn by exact Ok. destruct (Z.eqb_spec x cu) as [->|Nx].
        * eapply silent; eauto; [reflexivity|]. cbn [TI]. rewrite Et. refine (conj Gd (conj K' (conj R' (conj _ (conj (proj1 Sm') (conj (same_same_but _ _ _ _ _ _ Sm') _)))))); [lia|].
          exists n. split; [reflexivity|]. split; [exact Rng|]. split; [exact Rn|]. split; [cbn; eauto|]. intros j Hj. lia.
        * eapply silent; eauto; [reflexivity|]. cbn [TI]. split; [exact Gd|].
          exists st, x. rewrite Et. split; [exact K'|]. split; [exact Rng|]. split; [exact Rn|]. left. split; [reflexivity|]. split; [|exact Sm'].
          cbn. intros [v0 [=]].
  Qed.
End P.
