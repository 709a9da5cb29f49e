(** The simulation, part 3: writing, releasing the lock, and what threads do outside calls. *)
From Coq Require Import ZArith List Bool Lia PeanoNat.
From Verif Require Import Words Spec WordsFacts OrderingModel FallbackModel FallbackFacts WeakMem WeakFacts WeakSpec WeakModel WeakInv WeakFrame WeakLocks WeakSim WeakOpt WeakHeld.
Import ListNotations.
Open Scope Z_scope.
Local Arguments spec_op : simpl never.
Local Arguments order_ok : simpl never.

Section P.
  Variable c : config.
  Hypothesis WF : wf_config c.
  Local Notation li := lock_index.
  Local Notation LI := (LI c).
  Local Notation half := (half c).
  Local Notation mem_of s := (wmem (world_of s)).
  Local Notation arun := (wrun aloc_eqb (s_next (obj_ty c)) (s_code (objs c)) Ac).
  Local Notation move s T w tv p := (mk_wst w (upd (views s) T tv) (upd (confs s) T p)).
  Local Notation answered := (answered c).

  Lemma next_stamp_eq n : next_lo c ((2 * n) mod 2 ^ state_bits c) = (2 * (n + 1)) mod 2 ^ state_bits c.
  Proof.
    unfold next_lo. pose proof (two_half c). pose proof (half_pos c). rewrite Zplus_mod_idemp_l. f_equal. lia.
  Qed.
  Lemma next_stamp_era n : (n + 1) / half = n / half + (if next_lo c ((2 * n) mod 2 ^ state_bits c) =? 0 then 1 else 0).
  Proof.
    rewrite next_stamp_eq, two_half. pose proof (half_pos c) as H. generalize dependent half. intros h H.
    rewrite (Z.mul_mod_distr_l (n + 1) h 2) by lia.
    destruct (Z.eqb_spec (2 * ((n + 1) mod h)) 0) as [Q|Q].
    - assert (Q' : (n + 1) mod h = 0) by lia. pose proof (Z.div_mod (n + 1) h). symmetry.
      assert (n = h * ((n + 1) / h - 1) + (h - 1)) by lia.
      rewrite <- (Z.div_unique_pos n h ((n + 1) / h - 1) (h - 1)); lia.
    - pose proof (Z.div_mod (n + 1) h). pose proof (Z.mod_pos_bound (n + 1) h H).
      rewrite <- (Z.div_unique_pos n h ((n + 1) / h) ((n + 1) mod h - 1)); lia.
  Qed.
  Lemma holder_stamp G s A T k st : Sim c G s A -> LK (mem_of s) G T (views s T) k st -> st = (2 * gc G k (tl G k)) mod 2 ^ state_bits c.
  Proof. intros S (_ & (m & U & _ & ->) & _). apply (l_cnt _ _ _ _ _ _ (s_lock _ _ _ _ S k) _ _ U). Qed.
  Lemma holder_era G s A T k st : Sim c G s A -> wide c = true -> LK (mem_of s) G T (views s T) k st -> same_hi (mem_of s) G (views s T) k ->
    ge G k (cur (views s T) (Hi k)) = gc G k (tl G k) / half.
  Proof. intros S W (_ & (m & U & _ & _) & _) H. rewrite (H m U). now apply (l_snaphi _ _ _ _ _ _ (s_lock _ _ _ _ S k) W _ _ U). Qed.

  Lemma sim_lwrite G s A T a o st new i r ts v w tv : Sim c G s A -> confs s T = Some (LWrite a o st new i r) ->
    perform cloc_eqb (Store (Ck a i) (nth i new 0) false) ts (world_of s) (views s T) = Some (v, w, tv) ->
    answered A (move s T w tv (Some (more_write c a o st new (S i) r))) [].
  Proof.
    intros Sm E P. destruct (sim_conf _ _ _ _ _ _ Sm E) as (q & EA & -> & Gd & K & R & Ln & Sh & Sb & v' & N1 & N2 & N3 & N4 & N5).
    assert (HP : holds (more_write c a o st new (S i) r) = Some (li a) /\ AP (more_write c a o st new (S i) r) (SDo a o)).
    { unfold more_write. destruct (Nat.ltb _ _); [|destruct (wide c && (next_lo c st =? 0))]; split; reflexivity. }
    destruct HP as [HP1 HP2].
    eapply sim_put with (a := a); eauto; try reflexivity; try apply K.
    - left. right. eauto.
    - easy.
    - cbv zeta. intros mg GR Ev Em TL Hy Hx. set (wm' := mset cloc_eqb (mem_of s) (Ck a i) ts mg) in *.
      assert (K' : LK wm' G T tv (li a) st) by (eapply LK_keep; eauto).
      assert (R' : RF G tv (li a)) by (eapply RF_keep; eauto).
      assert (Sh' : same_hi wm' G tv (li a)) by (eapply same_hi_keep; [exact GR|exact K|now apply Hy|exact Sh]).
      assert (Sb' : same_but wm' G tv (li a) a (S i)).
      { eapply same_but_keep with (cv := views s T); eauto.
        - intros b j Lb Hb. apply Hy. intros [= -> ->]. destruct Hb; [easy|lia].
        - intros m U b j Lb Hb. apply Sb; auto. destruct Hb; [auto|right; lia]. }
      assert (Pt : put_so_far c wm' tv a (S i) v').
      { intros j Hj Hl. destruct (Nat.eq_dec j i) as [->|Nj].
        - exists mg. rewrite Hx. split; [exact Em|]. now rewrite Ev, N1.
        - destruct (N5 j) as (x & X & Y); [lia|exact Hl|]. exists x. rewrite Hy by congruence. split; [now apply GR|exact Y]. }
      unfold more_write. destruct (Nat.ltb_spec (S i) (len c (obj_ty c a))) as [Q|Q].
      + cbn [TI]. refine (conj Gd (conj K' (conj R' (conj Q (conj Sh' (conj Sb' _)))))). exists v'. auto.
      + assert (Q2 : S i = len c (obj_ty c a)) by lia. rewrite Q2 in *.
        pose proof (holder_stamp _ _ _ _ _ _ Sm K) as Est.
        destruct (wide c) eqn:W; cbn [andb]; [destruct (Z.eqb_spec (next_lo c st) 0) as [Z0|Z0]|].
        * cbn [TI]. refine (conj Gd (conj K' (conj R' (conj W (conj Z0 (conj Sh' (conj Sb' _))))))). exists v'. auto.
        * cbn [TI]. split; [exact Gd|]. exists st, v'. split; [exact K'|]. split; [exact N2|]. split; [exact N3|]. right.
          split; [reflexivity|]. split; [exact N4|]. split; [exact Sb'|]. split; [exact Pt|]. intros _.
          rewrite Hy by easy. rewrite (holder_era _ _ _ _ _ _ Sm W K Sh), next_stamp_era, <- Est.
          rewrite (proj2 (Z.eqb_neq _ _) Z0). lia.
        * cbn [TI]. split; [exact Gd|]. exists st, v'. split; [exact K'|]. split; [exact N2|]. split; [exact N3|]. right.
          split; [reflexivity|]. split; [exact N4|]. split; [exact Sb'|]. split; [exact Pt|]. congruence.
  Qed.
  Lemma sim_relhild G s A T a o st r ts v w tv : Sim c G s A -> confs s T = Some (RelHiLd a o st r) ->
    perform cloc_eqb (Load (Hi (li a)) false) ts (world_of s) (views s T) = Some (v, w, tv) ->
    answered A (move s T w tv (Some (RelHiSt a o st v r))) [].
  Proof.
    intros S E P. destruct (sim_conf _ _ _ _ _ _ S E) as (q & EA & -> & Gd & K & R & W & Z0 & Sh & Sb & v' & N2 & N3 & N4 & N5). pose proof P as P0.
    apply load_inv in P as (d & M & L & -> & -> & ->).
    assert (Dx : isdat (li a) (Hi (li a))) by (left; now left).
    assert (Q : cur (views s T) (Hi (li a)) = ts).
    { pose proof (held_load _ _ _ _ _ _ _ _ _ S (proj1 K) Dx M). lia. }
    pose proof (see_same (views s T) _ _ d Q) as SAME. set (tv := see _ _ _ _ _ _) in *.
    assert (LE : tle (views s T) tv) by apply see_tle.
    eapply silent; eauto; [reflexivity|]. cbn [TI].
    split; [exact Gd|]. split; [eapply LK_keep; eauto using grows_refl|]. split; [eapply RF_keep; eauto|]. split; [exact W|]. split; [exact Z0|].
    split; [eapply same_hi_keep; [apply grows_refl|exact K|apply SAME|exact Sh]|]. split; [exists d; rewrite SAME, Q; auto|].
    split; [eapply same_but_keep with (cv := views s T); [apply grows_refl|exact K|intros; apply SAME|exact Sb]|].
    exists v'. split; [exact N2|]. split; [exact N3|]. split; [exact N4|]. eapply put_keep; [apply grows_refl|intros; apply SAME|exact N5].
  Qed.
  Lemma sim_relhist G s A T a o st h r ts v w tv : Sim c G s A -> confs s T = Some (RelHiSt a o st h r) ->
    perform cloc_eqb (Store (Hi (li a)) ((h + 1) mod 2 ^ 32) true) ts (world_of s) (views s T) = Some (v, w, tv) ->
    answered A (move s T w tv (Some (Rel a o (next_lo c st) r))) [].
  Proof.
    intros S E P. destruct (sim_conf _ _ _ _ _ _ S E) as (q & EA & -> & Gd & K & R & W & Z0 & Sh & (d & D1 & D2) & Sb & v' & N2 & N3 & N4 & N5). pose proof P as P0.
    pose proof S as [SL [SCW SCT] SO SS SV SF SH].
    destruct (perform_closed _ cloc_spec _ _ _ _ _ _ _ P0 SCW (SCT T)) as (GR & CW & CT & TL).
    apply store_inv in P as (En & L & -> & ->). set (mg := mk_msg _ _) in *. set (k := li a) in *. set (tv := wrote _ _ _ _) in *.
    set (e := ge G k (cur (views s T) (Hi k)) + 1). set (G' := set_ge G k ts e).
    pose proof (holder_stamp _ _ _ _ _ _ S K) as Est. pose proof (holder_era _ _ _ _ _ _ S W K Sh) as Eer.
    assert (GeN : ge G' k ts = e) by (cbn; now rewrite !Z.eqb_refl).
    assert (Ex : ext (mem_of s) (mset cloc_eqb (mem_of s) (Hi k) ts mg) G G').
    { constructor; auto. intros j u d' Md. cbn. destruct (Z.eqb_spec j k) as [->|], (Z.eqb_spec u ts) as [->|]; cbn; auto; congruence. }
    assert (Hy : forall y, y <> Hi k -> cur tv y = cur (views s T) y) by (intros y N; unfold tv; cbn; now rewrite (vset_other _ cloc_spec)).
    assert (Hx : cur tv (Hi k) = ts) by (unfold tv; cbn; rewrite (vset_same _ cloc_spec); lia).
    eapply (sim_mem c G G' s A T _ _ _ _ ts _ tv k (Hi k) ts mg S E EA P0); auto.
    - right. left. now left.
    - intros k' N. split; [reflexivity|]. cbn. now rewrite (proj2 (Z.eqb_neq k' k)).
    - eapply LI_data with (G := G) (T := T) (cv := fun T' => cur (views s T')); auto.
      + apply K.
      + left. now left.
      + apply SCW.
      + apply SCT.
      + unfold out_view. rewrite (vset_other _ cloc_spec) by easy. apply K.
      + intros j u [H|H]; [|easy]. cbn. destruct (Z.eqb_spec j k) as [->|], (Z.eqb_spec u ts) as [->|]; cbn; auto; easy.
      + intros _. split; [exact W|]. split; [exact GeN|]. rewrite GeN. unfold e.
        destruct (l_era _ _ _ _ _ _ (SL k) W _ _ D1) as (_ & X & _). rewrite <- D2, X. now rewrite Zplus_mod_idemp_l.
      + rewrite upd_same. apply TL.
      + rewrite upd_same, Hx. lia.
    - reflexivity.
    - intros k' Hk'. cbn [holds]. pose proof (sim_holder _ _ _ _ _ _ _ S E Hk') as X. exact X.
    - cbn [TI]. split; [exact Gd|]. fold k. exists st, v'.
      split; [eapply LK_ext with (G := G); eauto; eapply LK_keep; eauto using grows_refl|]. split; [exact N2|].
      split; [eapply ran_ext; eauto using grows_refl|]. right. split; [reflexivity|]. split; [exact N4|]. split.
      + eapply same_but_keep with (cv := views s T); eauto.
      + split; [eapply put_keep; eauto|]. intros _. rewrite Hx, GeN. change (gc G' k (tl G' k)) with (gc G k (tl G k)). unfold e. rewrite Eer, next_stamp_era, <- Est, Z0. reflexivity.
  Qed.

  Lemma ext_rel wm G k t N i mg : wm (Lo k) t = None -> ext wm (mset cloc_eqb wm (Lo k) t mg) G (set_rel G k t N i).
  Proof.
    intros En. constructor; cbn.
    - now apply mset_growsc.
    - intros j u m a [U _]. destruct (Z.eqb_spec j k) as [->|], (Z.eqb_spec u t) as [->|]; cbn; auto; congruence.
    - intros j u m [U _]. destruct (Z.eqb_spec j k) as [->|], (Z.eqb_spec u t) as [->|]; cbn; auto; congruence.
    - auto.
  Qed.

  (** the releasing store, together with the native machine's action *)
  Lemma sim_unlock G s A T p a nx N i ts v tv w m0 aact kk v2 aw atv r o : let k := li a in
    let V := vset cloc_eqb (cur (views s T)) (Lo k) ts in
    let wm' := mset cloc_eqb (mem_of s) (Lo k) ts (mk_msg nx V) in let G' := set_rel G k ts N i in
    Sim c G s A -> confs s T = Some p -> holds p = Some k -> confs A T = Some (SDo a o) ->
    perform cloc_eqb (Store (Lo k) nx true) ts (world_of s) (views s T) = Some (v, w, tv) ->
    s_next (obj_ty c) (SDo a o) = Do aact kk ->
    perform aloc_eqb aact (match o with OStore _ _ => i a | _ => gi G k (tl G k) a end) (world_of A) (views A T) = Some (v2, aw, atv) ->
    kk (match o with OStore _ _ => i a | _ => gi G k (tl G k) a end) v2 = s_finish o r ->
    hd G k = Some T -> unl (mem_of s) k (tl G k) m0 -> vle (mview m0) (cur (views s T)) -> tl G k + 1 <= cur (views s T) (Lo k) ->
    nx = (2 * N) mod 2 ^ state_bits c ->
    ((N = gc G k (tl G k) /\ (forall b, i b = gi G k (tl G k) b) /\ forall x, isval k x -> cur (views s T) x = mview m0 x) \/
     (N = gc G k (tl G k) + 1 /\ forall b, gi G k (tl G k) b <= i b)) ->
    (wide c = true -> ge G k (cur (views s T) (Hi k)) = N / half) ->
    grows (mem_of A) (wmem aw) -> wsc aw = wsc (world_of A) -> (forall y u, y <> Ad a -> wmem aw y u = mem_of A y u) ->
    (forall b ty, objs c b = Some ty -> li b = k -> exists vb W, wmem aw (Ad b) (i b) = Some (mk_msg vb W) /\ VR G' wm' W V /\ in_range ty vb /\
        forall j, (j < len c ty)%nat -> shows c (mem_of s) (cur (views s T)) b j vb) ->
    (forall b u m, li b = k -> wmem aw (Ad b) u = Some m -> u <= i b) ->
    VRt G' wm' atv tv ->
    answered A (move s T w tv (Some (finish o r))) [].
  Proof.
    intros k V wm' G' S E Hp EA P Ns Pa Kk Hk U0 L0 LT Hn HN Hera GA Hsc Hoth Hsnap Hlast HV.
    pose proof P as P0. pose proof S as [SL [SCW SCT] SO SS SV SF SH].
    destruct (perform_closed _ cloc_spec _ _ _ _ _ _ _ P0 SCW (SCT T)) as (GR & CW & CT & TL).
    apply store_inv in P as (En & L & -> & ->). change (out_view cloc_eqb (views s T) (Lo k) ts true) with V. change (out_view cloc_eqb (views s T) (Lo k) ts true) with V in GR, CW, CT. fold wm' in GR, CW, CT. fold wm'.
    destruct (finish_AP o r) as [F1 F2].
    assert (Ex : ext (mem_of s) wm' G G') by now apply ext_rel.
    set (tv := wrote _ _ _ _) in *.
    set (A' := move A T aw atv (Some (s_finish o r))). set (s' := move s T (mk_world wm' (wsc (world_of s))) tv (Some (finish o r))).
    assert (V' : forall T', vle (cur (views s T')) (cur (views s' T'))).
    { intros T'. cbn. destruct (Nat.eq_dec T' T) as [->|NT]; [rewrite upd_same; apply TL|rewrite upd_other by exact NT; apply vle_refl]. }
    exists [LStep T (match o with OStore _ _ => i a | _ => gi G k (tl G k) a end)], A', G'. split.
    { unfold A'. rewrite <- Kk. eapply a_step; eauto. }
    assert (Hother : forall k', k' <> k -> tl G' k' = tl G k' /\ hd G' k' = hd G k' /\ (forall u b, gi G' k' u b = gi G k' u b) /\ (forall u, gc G' k' u = gc G k' u)).
    { intros k' Nk. cbn. rewrite (proj2 (Z.eqb_neq k' k) Nk). auto. }
    assert (Hself : hd G' k = None) by (cbn; now rewrite Z.eqb_refl).
    eapply (sim_frame c G G' s A s' A' T S); cbn [s' A' world_of wmem wsc views confs]; rewrite ?upd_same; auto.
    - intros k'. destruct (Z.eq_dec k' k) as [->|Nk].
      + eapply (LI_unlock c (mem_of s) (mem_of A) (wmem aw) G (fun T' => cur (views s T')) _ k ts nx N i T m0); auto.
        * apply SCW.
        * apply SCT.
      + destruct (Hother k' Nk) as (X1 & X2 & X3 & X4). eapply LI_frame; [apply SL|exact Ex| | | | | | | | |]; auto.
        * intros t. apply (mset_loc _ cloc_spec). congruence.
        * intros x u D. apply (mset_loc _ cloc_spec). intros ->. now apply isdat_lo in D.
        * intros b t Hb. apply Hoth. intros [= ->]. now apply Nk.
        * intros T' _. apply V'.
    - eapply own_rel_ext; [exact SO|exact Ex|intros; apply (mset_loc _ cloc_spec); easy|intros; now apply Hoth].
    - rewrite Hsc. eapply VR_ext; eauto.
    - split; [exact F1|]. apply finish_TI.
    - intros T' NT. now rewrite !upd_other.
    - intros k' T' NT Hd. destruct (Z.eq_dec k' k) as [->|Nk]; [congruence|]. destruct (Hother k' Nk) as (-> & -> & _). auto.
    - intros k' T' Hd. destruct (Z.eq_dec k' k) as [->|Nk]; [congruence|]. destruct (Hother k' Nk) as (_ & X & _). rewrite X in Hd.
      right. split; [|exact Hd]. intros ->. pose proof (sim_holder _ _ _ _ _ _ _ S E Hd). congruence.
  Qed.

  Lemma sim_rel G s A T a o nx r ts v w tv : Sim c G s A -> confs s T = Some (Rel a o nx r) ->
    perform cloc_eqb (Store (Lo (li a)) nx true) ts (world_of s) (views s T) = Some (v, w, tv) ->
    answered A (move s T w tv (Some (finish o r))) [].
  Proof.
    intros S E P. destruct (sim_conf _ _ _ _ _ _ S E) as (q & EA & -> & Gd & st & v' & K & Rng & (x & Vx & Sp) & Cases).
    pose proof P as P0. pose proof S as [SL [SCW SCT] SO SS SV SF SH].
    destruct (perform_closed _ cloc_spec _ _ _ _ _ _ _ P0 SCW (SCT T)) as (GR & CW & CT & TL).
    apply store_inv in P as (En & L & Ew & Et). set (k := li a) in *.
    pose proof (holder_stamp _ _ _ _ _ _ S K) as Est. destruct K as (Hk & (m0 & U0 & L0 & Es) & LT). pose proof (SL k) as I.
    destruct Gd as (ty & Ob & Ty & Ok). pose proof (obj_ty_eq _ _ _ Ob) as Ety. rewrite Ety in *.
    destruct (l_snap _ _ _ _ _ _ I _ _ U0 a ty Ob eq_refl) as (x' & V0 & Am & VR0 & Rx & Sx).
    destruct Vx as [V0' Am']. fold k in Am'. assert (x' = x) by congruence. subst x'. clear V0' Am'.
    set (n0 := gi G k (tl G k) a) in *.
    assert (Top : forall b u m, li b = k -> mem_of A (Ad b) u = Some m -> u <= gi G k (tl G k) b) by (intros b u m; apply (l_last _ _ _ _ _ _ I)).
    assert (Free : mem_of A (Ad a) (n0 + 1) = None).
    { destruct (mem_of A (Ad a) (n0 + 1)) as [m|] eqn:Q; [|reflexivity]. apply Top in Q; [|reflexivity]. fold n0 in Q. lia. }
    assert (Cur : cur (views A T) (Ad a) <= n0).
    { destruct (SV T) as ((_ & Y) & _). destruct (Y a) as (t1 & m1 & U1 & _ & Y2). fold k in U1, Y2.
      pose proof (unl_le_tl _ _ _ _ _ _ _ _ I U1) as Lt. destruct (l_mono _ _ _ _ _ _ I _ _ _ _ U1 U0 Lt) as (_ & _ & Y3 & _).
      specialize (Y3 a). fold n0 in Y3. lia. }
    set (V := vset cloc_eqb (cur (views s T)) (Lo k) ts) in *.
    set (wm' := mset cloc_eqb (mem_of s) (Lo k) ts (mk_msg nx V)) in *.
    assert (CurV : vle (cur (views s T)) V) by apply vset_le.
    assert (VK : ts <= V (Lo k)) by (unfold V; rewrite (vset_same _ cloc_spec); lia).
    assert (Eacq : vle V (acq tv)). { subst tv. destruct CT as (_ & _ & X). exact X. }
    assert (Ecur : cur tv = V) by (subst tv; reflexivity).
    assert (Erel : rel tv = rel (views s T)) by (subst tv; reflexivity).
    destruct (SV T) as (VC & VA & VL).
    (* views of the native machine after its action *)
    destruct Cases as [(-> & NW & Sm)|(-> & Wr & Sb & Put & Hera)].
    - set (N := gc G k (tl G k)). set (i := gi G k (tl G k)). set (G' := set_rel G k ts N i).
      assert (Ex : ext (mem_of s) wm' G G') by now apply ext_rel.
      assert (VR0' : VR G' wm' V0 V). { eapply VR_mono; [apply vle_refl| |eapply VR_ext; eauto]. eapply vle_trans; eauto. }
      assert (UN : unl wm' k (tl G k) m0) by (eapply unl_grows; eauto using e_mem).
      assert (GI : gi G' k (tl G k) a = n0) by (apply (e_gi _ _ _ _ Ex _ _ _ a U0)).
      set (av := see aloc_eqb (views A T) (Ad a) n0 (mk_msg x V0) true).
      assert (HV : VRt G' wm' av tv).
      { assert (LV : tl G k <= V (Lo k)) by (specialize (CurV (Lo k)); lia).
        unfold VRt. rewrite Ecur, Erel. cbn [av see cur acq rel mview]. refine (conj _ (conj _ _)).
        - eapply VR_at; [apply VR_join; [eapply VR_mono; [apply vle_refl|exact CurV|apply (VR_ext _ _ _ _ _ _ Ex VC)]|exact VR0']|exact UN|exact LV|exact (Z.eq_le_incl _ _ (eq_sym GI))].
        - eapply VR_at; [apply VR_join|exact UN|exact (Z.le_trans _ _ _ LV (Eacq (Lo k)))|exact (Z.eq_le_incl _ _ (eq_sym GI))].
          + eapply VR_mono; [apply vle_refl| |apply (VR_ext _ _ _ _ _ _ Ex VA)]. apply TL.
          + eapply VR_mono; [apply vle_refl|exact Eacq|exact VR0'].
        - apply (VR_ext _ _ _ _ _ _ Ex VL). }
      assert (FIN : forall aact kk, s_next (obj_ty c) (SDo a o) = Do aact kk -> (forall y z, o <> OStore y z) ->
        perform aloc_eqb aact n0 (world_of A) (views A T) = Some (x, world_of A, av) -> kk n0 x = s_finish o r ->
        answered A (move s T w tv (Some (finish o r))) []).
      { intros aact kk N1 N2 N3 N4. eapply (sim_unlock G s A T _ a st N i ts v tv w m0 aact kk x (world_of A) av r o S E eq_refl EA P0 N1); auto.
        - destruct o; [exact N3| |exact N3|exact N3]. now destruct (N2 v0 o).
        - destruct o; [exact N4| |exact N4|exact N4]. now destruct (N2 v0 o).
        - left. split; [reflexivity|]. split; [reflexivity|]. intros y [->|(b & j & Lb & ->)]; [now apply Sm|now apply (proj2 Sm)].
        - intros W. refine (eq_trans _ (l_snaphi _ _ _ _ _ _ I W _ _ U0)). apply f_equal. exact (proj1 Sm m0 U0).
        - apply grows_refl.
        - intros b tb Ob' Lb. destruct (l_snap _ _ _ _ _ _ I _ _ U0 b tb Ob' Lb) as (xb & Vb & X1 & X2 & X3 & X4).
          exists xb, Vb. split; [exact X1|]. split; [|split; [exact X3|]].
          + eapply VR_mono; [apply vle_refl| |eapply VR_ext; eauto]. eapply vle_trans; eauto.
          + intros j Hj. destruct (X4 j Hj) as (d & Y1 & Y2). exists d. fold k. rewrite (proj2 Sm m0 U0 b j Lb). auto. }
      destruct o as [ord|y ord|rm ord|cu n su fa].
      + rewrite spec_load in Sp by exact Ok. injection Sp as <- <-. eapply FIN; [reflexivity|easy| |reflexivity].
        apply (load_ok aloc_eqb _ _ _ _ _ _ Am Cur).
      + now destruct NW.
      + now destruct NW.
      + rewrite spec_cas in Sp by exact Ok. destruct (Z.eqb_spec x cu) as [Q|Q].
        * exfalso. injection Sp as <- <-. apply NW. cbn. eauto.
        * injection Sp as <- <-. eapply FIN; [reflexivity|easy| |].
          -- rewrite (rmw_ok aloc_eqb _ _ _ _ _ _ _ _ Am Cur Free). cbn [mval]. now rewrite (proj2 (Z.eqb_neq _ _) Q).
          -- cbv beta. now rewrite (proj2 (Z.eqb_neq _ _) Q).
    - set (N := gc G k (tl G k) + 1). set (i := fun b => if b =? a then n0 + 1 else gi G k (tl G k) b). set (G' := set_rel G k ts N i).
      assert (Ia : i a = n0 + 1) by (unfold i; now rewrite Z.eqb_refl).
      assert (Ib : forall b, b <> a -> i b = gi G k (tl G k) b) by (intros b Nb; unfold i; now rewrite (proj2 (Z.eqb_neq _ _) Nb)).
      assert (Ex : ext (mem_of s) wm' G G') by now apply ext_rel.
      assert (VR0' : VR G' wm' V0 V). { eapply VR_mono; [apply vle_refl| |eapply VR_ext; eauto]. eapply vle_trans; eauto. }
      assert (Enx : next_lo c st = (2 * N) mod 2 ^ state_bits c) by (rewrite Est; apply next_stamp_eq).
      assert (NL : next_lo c st <> LOCKED).
      { rewrite Enx, two_half. pose proof (half_pos c) as HP. unfold LOCKED. rewrite (Z.mul_mod_distr_l N half 2) by lia. lia. }
      assert (UN : unl wm' k ts (mk_msg (next_lo c st) V)) by (split; [apply (mset_same _ cloc_spec)|exact NL]).
      assert (GI : gi G' k ts a = n0 + 1) by (cbn; now rewrite !Z.eqb_refl).
      assert (AT : forall n u cv, n <= n0 + 1 -> VR G' wm' u cv -> vle V cv -> VR G' wm' (vset aloc_eqb u (Ad a) n) cv).
      { intros n u cv Hn Hu Hc. eapply VR_at; [exact Hu|exact UN| |exact (Z.le_trans _ _ _ Hn (Z.eq_le_incl _ _ (eq_sym GI)))]. exact (Z.le_trans _ _ _ VK (Hc (Lo k))). }
      assert (VCv : VR G' wm' (cur (views A T)) V) by (eapply VR_mono; [apply vle_refl|exact CurV|apply (VR_ext _ _ _ _ _ _ Ex VC)]).
      assert (VAv : VR G' wm' (acq (views A T)) (acq tv)) by (eapply VR_mono; [apply vle_refl|apply TL|apply (VR_ext _ _ _ _ _ _ Ex VA)]).
      assert (VLv : VR G' wm' (rel (views A T)) (rel tv)) by (rewrite Erel; apply (VR_ext _ _ _ _ _ _ Ex VL)).
      assert (VR0a : VR G' wm' V0 (acq tv)) by (eapply VR_mono; [apply vle_refl|exact Eacq|exact VR0']).
      assert (FIN : forall aact kk v2 W av, s_next (obj_ty c) (SDo a o) = Do aact kk ->
        perform aloc_eqb aact (match o with OStore _ _ => n0 + 1 | _ => n0 end) (world_of A) (views A T) =
          Some (v2, mk_world (mset aloc_eqb (mem_of A) (Ad a) (n0 + 1) (mk_msg v' W)) (wsc (world_of A)), av) ->
        kk (match o with OStore _ _ => n0 + 1 | _ => n0 end) v2 = s_finish o r -> VR G' wm' W V -> VRt G' wm' av tv ->
        answered A (move s T w tv (Some (finish o r))) []).
      { intros aact kk v2 W av N1 N3 N4 HW HV.
        eapply (sim_unlock G s A T _ a (next_lo c st) N i ts v tv w m0 aact kk v2 (mk_world (mset aloc_eqb (mem_of A) (Ad a) (n0 + 1) (mk_msg v' W)) (wsc (world_of A))) av r o S E eq_refl EA P0 N1); auto; fold k.
        - rewrite Ia. fold n0. exact N3.
        - rewrite Ia. fold n0. exact N4.
        - right. split; [reflexivity|]. intros b. destruct (Z.eq_dec b a) as [->|Nb]; [rewrite Ia; fold n0; lia|rewrite Ib by exact Nb; lia].
        - cbn [wmem]. now apply mset_growsa.
        - intros y u Ny. cbn [wmem]. now apply (mset_loc _ aloc_spec).
        - intros b tb Ob' Lb. cbn [wmem]. destruct (Z.eq_dec b a) as [->|Nb].
          + rewrite Ia. exists v', W. split; [apply (mset_same _ aloc_spec)|]. split; [exact HW|].
            assert (tb = ty) by congruence. subst tb. split; [exact Rng|]. intros j Hj. apply Put; rewrite ?Ety; auto.
          + rewrite Ib by exact Nb. destruct (l_snap _ _ _ _ _ _ I _ _ U0 b tb Ob' Lb) as (xb & Vb & X1 & X2 & X3 & X4).
            exists xb, Vb. split; [|split; [|split; [exact X3|]]].
            * rewrite (mset_loc _ aloc_spec) by congruence. exact X1.
            * eapply VR_mono; [apply vle_refl| |eapply VR_ext; eauto]. eapply vle_trans; eauto.
            * intros j Hj. destruct (X4 j Hj) as (d & Y1 & Y2). exists d. rewrite (Sb m0 U0 b j Lb) by auto. auto.
        - intros b u m Lb M. cbn [wmem] in M. apply (mset_inv _ aloc_spec) in M as [([= ->] & -> & _)|M]; [rewrite Ia; lia|].
          apply Top in M; [|exact Lb]. destruct (Z.eq_dec b a) as [->|Nb]; [rewrite Ia; fold n0 in M; lia|now rewrite Ib]. }
      assert (RMW : forall f kk, s_next (obj_ty c) (SDo a o) = Do (Rmw (Ad a) f true true) kk -> f x = Some v' -> kk n0 x = s_finish o r ->
        (forall y z, o <> OStore y z) -> answered A (move s T w tv (Some (finish o r))) []).
      { intros f kk N1 N2 N3 N4. eapply (FIN _ _ x _ _ N1).
        - pose proof (rmw_ok aloc_eqb (Ad a) f true true n0 (world_of A) (views A T) _ Am Cur Free) as X. cbn [mval] in X. rewrite N2 in X.
          destruct o; [exact X| |exact X|exact X]. now destruct (N4 v0 o).
        - destruct o; [exact N3| |exact N3|exact N3]. now destruct (N4 v0 o).
        - cbn [mview]. apply VR_join; [|exact VR0']. unfold out_view. cbn [see cur mview]. apply AT; [lia| |apply vle_refl].
          apply AT; [lia|now apply VR_join|apply vle_refl].
        - unfold VRt. rewrite Ecur. cbn [see wrote cur acq rel mview]. refine (conj _ (conj _ VLv)).
          + apply AT; [lia|apply AT; [lia|now apply VR_join|apply vle_refl]|apply vle_refl].
          + apply AT; [lia|apply AT; [lia|now apply VR_join|exact Eacq]|exact Eacq]. }
      destruct o as [ord|y ord|rm ord|cu n su fa].
      + now destruct Wr.
      + rewrite spec_store in Sp by exact Ok. injection Sp as <- <-. eapply (FIN _ _ 0 (out_view aloc_eqb (views A T) (Ad a) (n0 + 1) true) _ eq_refl).
        * apply store_ok; [exact Free|lia].
        * reflexivity.
        * unfold out_view. apply AT; [lia|exact VCv|apply vle_refl].
        * unfold VRt. rewrite Ecur. cbn [wrote cur acq rel]. refine (conj _ (conj _ VLv)).
          -- apply AT; [lia|exact VCv|apply vle_refl].
          -- apply AT; [lia|exact VAv|exact Eacq].
      + change (spec_op ty (ORmw rm ord) x) with (spec_rmw ty rm x, RVal x) in Sp. injection Sp as <- <-.
        eapply RMW; [reflexivity| |reflexivity|easy]. now rewrite Ety.
      + rewrite spec_cas in Sp by exact Ok. destruct (Z.eqb_spec x cu) as [Q|Q].
        * injection Sp as <- <-. eapply RMW; [reflexivity| | |easy].
          -- cbv beta. now rewrite (proj2 (Z.eqb_eq _ _) Q).
          -- cbv beta. now rewrite (proj2 (Z.eqb_eq _ _) Q).
        * exfalso. injection Sp as <- <-. destruct Wr as [z [=]].
  Qed.
End P.
