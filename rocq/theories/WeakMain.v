(** The simulation, part 4: the threads' own accesses, and whole executions. *)
From Coq Require Import ZArith List Bool Lia PeanoNat.
From Verif Require Import Words Spec WordsFacts OrderingModel FallbackModel FallbackFacts WeakMem WeakFacts WeakSpec WeakModel WeakInv WeakFrame WeakLocks WeakSim WeakOpt WeakHeld WeakRel.
Import ListNotations.
Open Scope Z_scope.
Local Arguments spec_op : simpl never.
Local Arguments order_ok : simpl never.

Section P.
  Variable c : config.
  Hypothesis WF : wf_config c.
  Local Notation li := lock_index.
  Local Notation LI := (LI c).
  Local Notation half := (half c).
  Local Notation mem_of s := (wmem (world_of s)).
  Local Notation arun := (wrun aloc_eqb (s_next (obj_ty c)) (s_code (objs c)) Ac).
  Local Notation crun := (wrun cloc_eqb (next c) (code c) Cl).
  Local Notation cstep := (wstep cloc_eqb (next c) (code c) Cl).
  Local Notation move s T w tv p := (mk_wst w (upd (views s) T tv) (upd (confs s) T p)).
  Local Notation answered := (answered c).

  Lemma VRt_see G wm av cv x t g g' b : VRt G wm av cv -> VR G wm (mview g') (mview g) ->
    VRt G wm (see aloc_eqb av (Ac x) t g' b) (see cloc_eqb cv (Cl x) t g b).
  Proof.
    intros (A & B & C) D. refine (conj _ (conj _ C)); cbn [see cur acq]; apply VR_own.
    - destruct b; [now apply VR_join2|exact A].
    - now apply VR_join2.
  Qed.
  Lemma VRt_wrote G wm av cv x t : VRt G wm av cv -> VRt G wm (wrote aloc_eqb av (Ac x) t) (wrote cloc_eqb cv (Cl x) t).
  Proof. intros (A & B & C). refine (conj _ (conj _ C)); cbn [wrote cur acq]; now apply VR_own. Qed.
  Lemma VR_out G wm av cv x t b : VRt G wm av cv -> VR G wm (out_view aloc_eqb av (Ac x) t b) (out_view cloc_eqb cv (Cl x) t b).
  Proof. intros (A & B & C). unfold out_view. apply VR_own. now destruct b. Qed.
  Lemma own_add G wm am x t n V V' : own_rel G wm am -> wm (Cl x) t = None -> VR G wm V' V ->
    own_rel G (mset cloc_eqb wm (Cl x) t (mk_msg n V)) (mset aloc_eqb am (Ac x) t (mk_msg n V')).
  Proof.
    intros O En HV y u. assert (Ex : ext wm (mset cloc_eqb wm (Cl x) t (mk_msg n V)) G G) by now apply ext_same, mset_growsc.
    assert (O' : match wm (Cl y) u, am (Ac y) u with
      | Some g, Some g' => mval g' = mval g /\ VR G (mset cloc_eqb wm (Cl x) t (mk_msg n V)) (mview g') (mview g)
      | None, None => True | _, _ => False end).
    { specialize (O y u). destruct (wm (Cl y) u) as [g1|], (am (Ac y) u) as [g2|]; [|exact O|exact O|exact O]. destruct O as [O1 O2]. split; [exact O1|]. eapply VR_ext; eauto. }
    destruct (Z.eq_dec y x) as [->|Ny].
    - destruct (Z.eq_dec u t) as [->|Nu].
      + rewrite (mset_same _ cloc_spec), (mset_same _ aloc_spec). split; [reflexivity|]. eapply VR_ext; eauto.
      + rewrite (mset_ts cloc_eqb _ _ _ _ _ u), (mset_ts aloc_eqb _ _ _ _ _ u) by exact Nu. exact O'.
    - rewrite (mset_loc _ cloc_spec _ _ _ _ (Cl y)), (mset_loc _ aloc_spec _ _ _ _ (Ac y)) by congruence. exact O'.
  Qed.

  Lemma own_perform G (w : world cloc) (aw : world aloc) cv av a ts v w' cv' :
    own_rel G (wmem w) (wmem aw) -> VR G (wmem w) (wsc aw) (wsc w) -> VRt G (wmem w) av cv ->
    perform cloc_eqb (map_act Cl a) ts w cv = Some (v, w', cv') ->
    exists aw' av', perform aloc_eqb (map_act Ac a) ts aw av = Some (v, aw', av') /\
      own_rel G (wmem w') (wmem aw') /\ VR G (wmem w') (wsc aw') (wsc w') /\ VRt G (wmem w') av' cv' /\ ext (wmem w) (wmem w') G G /\
      (forall y u, (forall x, y <> Cl x) -> wmem w' y u = wmem w y u) /\ (forall y u, (forall x, y <> Ac x) -> wmem aw' y u = wmem aw y u) /\
      grows (wmem aw) (wmem aw').
  Proof.
    intros O HS HV P. assert (CU : forall x, cur av (Ac x) <= cur cv (Cl x)) by apply HV.
    destruct a as [x aq|x n rl|x f aq rl|[| |]]; cbn [map_act] in *.
    - apply load_inv in P as (g & M & L & -> & -> & ->). specialize (O x ts) as Ox. rewrite M in Ox.
      destruct (wmem aw (Ac x) ts) as [g'|] eqn:Ma; [|easy]. destruct Ox as [O1 O2]. specialize (CU x).
      exists aw, (see aloc_eqb av (Ac x) ts g' aq). split; [rewrite <- O1; apply load_ok; [exact Ma|lia]|].
      refine (conj O (conj HS (conj _ (conj _ (conj _ (conj _ _)))))); auto using ext_same, grows_refl. now apply VRt_see.
    - assert (v = 0) as -> by (cbn in P; destruct (wmem w (Cl x) ts), (cur cv (Cl x) <? ts); congruence).
      apply store_inv in P as (En & L & -> & ->). specialize (O x ts) as Ox. rewrite En in Ox.
      destruct (wmem aw (Ac x) ts) as [g'|] eqn:Ma; [easy|]. specialize (CU x).
      eexists _, _. split; [apply store_ok; [exact Ma|lia]|]. cbn [wmem wsc].
      assert (Ex : forall mg, ext (wmem w) (mset cloc_eqb (wmem w) (Cl x) ts mg) G G) by (intros mg; now apply ext_same, mset_growsc).
      refine (conj _ (conj _ (conj _ (conj (Ex _) (conj _ (conj _ _)))))).
      + apply own_add; auto. now apply VR_out.
      + eapply VR_ext; eauto.
      + eapply VRt_ext; [apply Ex|]. now apply VRt_wrote.
      + intros y u N. now apply (mset_loc _ cloc_spec).
      + intros y u N. now apply (mset_loc _ aloc_spec).
      + now apply mset_growsa.
    - apply rmw_inv in P as (g & M & L & -> & P). specialize (O x ts) as Ox. rewrite M in Ox.
      destruct (wmem aw (Ac x) ts) as [g'|] eqn:Ma; [|easy]. destruct Ox as [O1 O2]. specialize (CU x).
      pose proof (VRt_see G (wmem w) av cv x ts g g' aq HV O2) as HV1.
      destruct (f (mval g)) as [n|] eqn:Ef.
      + destruct P as (En & -> & ->). specialize (O x (ts + 1)) as Oy. rewrite En in Oy.
        destruct (wmem aw (Ac x) (ts + 1)) as [|] eqn:Mb; [easy|].
        eexists _, _. split.
        { rewrite (rmw_ok aloc_eqb _ _ _ _ _ _ _ _ Ma); [|lia|exact Mb]. rewrite O1, Ef. reflexivity. }
        cbn [wmem wsc].
        assert (Ex : forall mg, ext (wmem w) (mset cloc_eqb (wmem w) (Cl x) (ts + 1) mg) G G) by (intros mg; now apply ext_same, mset_growsc).
        refine (conj _ (conj _ (conj _ (conj (Ex _) (conj _ (conj _ _)))))).
        * apply own_add; auto. apply VR_join2; [now apply VR_out|exact O2].
        * eapply VR_ext; eauto.
        * eapply VRt_ext; [apply Ex|]. now apply VRt_wrote.
        * intros y u N. now apply (mset_loc _ cloc_spec).
        * intros y u N. now apply (mset_loc _ aloc_spec).
        * now apply mset_growsa.
      + destruct P as (-> & ->). exists aw, (see aloc_eqb av (Ac x) ts g' aq). split.
        { cbn. rewrite Ma, (proj2 (Z.leb_le _ _)) by lia. now rewrite O1, Ef. }
        refine (conj O (conj HS (conj HV1 (conj _ (conj _ (conj _ _)))))); auto using ext_same, grows_refl.
    - cbn in P. injection P as <- <- <-. destruct HV as (V1 & V2 & V3). eexists _, _. split; [reflexivity|].
      refine (conj O (conj HS (conj _ (conj _ (conj _ (conj _ _)))))); auto using ext_same, grows_refl.
      refine (conj _ (conj V2 V3)). now apply VR_join2.
    - cbn in P. injection P as <- <- <-. destruct HV as (V1 & V2 & V3). eexists _, _. split; [reflexivity|].
      refine (conj O (conj HS (conj _ (conj _ (conj _ (conj _ _)))))); auto using ext_same, grows_refl.
      exact (conj V1 (conj V2 V1)).
    - cbn in P. injection P as <- <- <-. destruct HV as (V1 & V2 & V3). eexists _, _. split; [reflexivity|]. cbn [wmem wsc].
      assert (VC : VR G (wmem w) (vjoin (vjoin (cur av) (acq av)) (wsc aw)) (vjoin (vjoin (cur cv) (acq cv)) (wsc w))).
      { apply VR_join2; auto. now apply VR_join2. }
      refine (conj O (conj VC (conj _ (conj _ (conj _ (conj _ _)))))); auto using ext_same, grows_refl.
      exact (conj VC (conj VC VC)).
  Qed.
  Lemma sim_own G s A T a ts v w tv : Sim c G s A -> confs s T = None ->
    perform cloc_eqb (map_act Cl a) ts (world_of s) (views s T) = Some (v, w, tv) ->
    answered A (mk_wst w (upd (views s) T tv) (confs s)) [EOwn T a v].
  Proof.
    intros S E P. pose proof S as [SL [SCW SCT] SO SS SV SF SH].
    destruct (perform_closed _ cloc_spec _ _ _ _ _ _ _ P SCW (SCT T)) as (GR & CW & CT & TL).
    destruct (own_perform G (world_of s) (world_of A) (views s T) (views A T) a ts v w tv SO SS (SV T) P)
      as (aw & av & Pa & O' & S' & V' & Ex & HX & HXa & GA).
    specialize (SF T) as F. rewrite E in F. destruct (confs A T) as [|] eqn:EA; [easy|].
    exists [LOwn T a ts], (mk_wst aw (upd (views A) T av) (confs A)), G. split.
    { cbn [wrun wstep]. rewrite EA, Pa. reflexivity. }
    eapply (sim_frame c G G s A _ _ T S); cbn [world_of wmem wsc views confs]; rewrite ?upd_same, ?E, ?EA; auto.
    - intros k. eapply LI_frame; [apply SL|exact Ex| | | | | | | | |]; auto.
      + intros t. now apply HX.
      + intros x u D. apply HX. intros y ->. now apply isdat_cl in D.
      + intros b t _. now apply HXa.
      + intros T' _. cbn. destruct (Nat.eq_dec T' T) as [->|N]; [rewrite upd_same; apply TL|rewrite upd_other by exact N; apply vle_refl].
    - intros T' N. now rewrite !upd_other.
    - intros k T' Hd. right. split; [|exact Hd]. intros ->. destruct (SH _ _ Hd) as (p & X & _). congruence.
  Qed.

  Theorem sim_step G s A l s' e : Sim c G s A -> match l with LStep t ts => ~ lapped c s t ts | _ => True end ->
    cstep s l = Some (s', e) -> answered A s' e.
  Proof.
    intros S Lap H. destruct l as [T a o|T ts|T a ts]; cbn [wstep] in H.
    - destruct (confs s T) eqn:E; [easy|]. destruct (code c a o) as [p|] eqn:Q; [|easy]. injection H as <- <-. eapply sim_call; eauto.
    - destruct (confs s T) as [p|] eqn:E; [|easy]. destruct p; cbn [next] in H;
        try (destruct (perform _ _ _ _ _) as [[[v' w] tv]|] eqn:P; [|easy]); injection H as <- <-.
      + eapply sim_begin; eauto.
      + eapply sim_opthi; eauto.
      + eapply sim_optlo; eauto.
      + eapply sim_optread; eauto.
      + eapply sim_valfence; eauto.
      + eapply sim_vallo; eauto.
      + eapply sim_valhi; eauto.
      + eapply sim_acq; eauto.
      + eapply sim_spin; eauto.
      + eapply sim_relfence; eauto.
      + eapply sim_mark; eauto.
      + eapply sim_lread; eauto.
      + eapply sim_lwrite; eauto.
      + eapply sim_relhild; eauto.
      + eapply sim_relhist; eauto.
      + eapply sim_rel; eauto.
      + eapply sim_end; eauto.
      + eapply sim_return; eauto.
    - destruct (confs s T) eqn:E; [easy|]. destruct (perform _ _ _ _ _) as [[[v' w] tv]|] eqn:P; [|easy]. injection H as <- <-. eapply sim_own; eauto.
  Qed.

  Lemma wrun_app {L C Op Res} eqb nx cd ow (s : wst L C) ls1 ls2 s1 (h1 : list (wevent Op Res)) : wrun eqb nx cd ow s ls1 = Some (s1, h1) ->
    wrun eqb nx cd ow s (ls1 ++ ls2) = match wrun eqb nx cd ow s1 ls2 with Some (s2, h2) => Some (s2, h1 ++ h2) | None => None end.
  Proof.
    revert s h1. induction ls1 as [|l ls1 IH]; intros s h1 H; cbn in H |- *.
    - injection H as <- <-. now destruct (wrun _ _ _ _ s ls2) as [[s2 h2]|].
    - destruct (wstep _ _ _ _ s l) as [[s' e]|]; [|easy]. destruct (wrun _ _ _ _ s' ls1) as [[s'' es]|] eqn:R; [|easy].
      injection H as <- <-. rewrite (IH _ _ R). destruct (wrun _ _ _ _ s'' ls2) as [[s2 h2]|]; [|reflexivity]. now rewrite app_assoc.
  Qed.
  Theorem sim_run ls : forall G s A s' h, Sim c G s A -> never_lapped c s ls -> crun s ls = Some (s', h) ->
    exists ls' A' G', arun A ls' = Some (A', h) /\ Sim c G' s' A'.
  Proof.
    induction ls as [|l ls IH]; intros G s A s' h S Lap H; cbn [wrun] in H.
    - injection H as <- <-. exists [], A, G. now split.
    - destruct (cstep s l) as [[s1 e]|] eqn:St; [|easy]. destruct (crun s1 ls) as [[s2 es]|] eqn:R; [|easy]. injection H as <- <-.
      cbn [never_lapped] in Lap. rewrite St in Lap. destruct Lap as [L1 L2].
      destruct (sim_step G s A l s1 e S L1 St) as (l1 & A1 & G1 & R1 & S1).
      destruct (IH _ _ _ _ _ S1 L2 R) as (l2 & A2 & G2 & R2 & S2).
      exists (l1 ++ l2), A2, G2. split; [|exact S2]. rewrite (wrun_app _ _ _ _ _ _ _ _ _ R1), R2. reflexivity.
  Qed.

  (** *** the initial state *)
  Definition ghost0 : ghost := mk_ghost (fun _ _ _ => 0) (fun _ _ => 0) (fun _ _ => 0) (fun _ => 0) (fun _ => None).
  Lemma VR0 wm v : (forall k, exists m, unl wm k 0 m) -> (forall x, 0 <= v x) -> VR ghost0 wm (fun _ => 0) v.
  Proof.
    intros H Hv. split; [intros x; apply Hv|]. intros a. destruct (H (li a)) as [m U]. exists 0, m. split; [exact U|]. split; [apply Hv|cbn; lia].
  Qed.
  Theorem sim_init vars own : (forall a ty, objs c a = Some ty -> in_range ty (vars a)) -> Sim c ghost0 (w_init c vars own) (s_init vars own).
  Proof.
    intros Hr. assert (U0 : forall k, exists m, unl (mem_of (w_init c vars own)) k 0 m).
    { intros k. eexists. split; [reflexivity|]. cbn. unfold LOCKED. lia. }
    assert (INV : forall x t m, mem_of (w_init c vars own) x t = Some m -> t = 0 /\ mview m = fun _ => 0).
    { intros x t m H. cbn in H. destruct (Z.eqb_spec t 0); [|easy]. injection H as <-. auto. }
    assert (V0 : VR ghost0 (mem_of (w_init c vars own)) (fun _ => 0) (fun _ => 0)) by (apply VR0; [exact U0|lia]).
    assert (CL : closed (mem_of (w_init c vars own)) (fun _ => 0)) by (intros x; cbn; eauto).
    constructor.
    - intros k. constructor; cbn [ghost0 gi gc ge tl hd].
      + apply U0.
      + intros t m H L. apply INV in H. lia.
      + intros t m H Lk. exfalso. pose proof H as H'. apply INV in H' as [-> _]. cbn in H. injection H as <-. cbn in Lk. unfold LOCKED in Lk. lia.
      + intros t m [H _] L. apply INV in H. lia.
      + easy.
      + intros t m [H _]. apply INV in H as [-> ->]. reflexivity.
      + intros t m t' m' [H _] [H' _] _. apply INV in H as [_ ->], H' as [_ ->]. repeat split; auto; try apply vle_refl; lia.
      + intros t m [H _]. pose proof H as H'. apply INV in H' as [-> _]. cbn in H. injection H as <-. split; [lia|]. cbn [mval]. now rewrite Z.mod_0_l by (pose proof (half_pos c); rewrite two_half; lia).
      + intros t m _ H. lia.
      + intros t m [H _] a ty Ob La. apply INV in H as [-> ->]. exists (vars a), (fun _ => 0). split; [reflexivity|].
        split; [exact V0|]. split; [now apply Hr|]. intros i Hi. eexists. split; [reflexivity|]. reflexivity.
      + intros _ t m _. now rewrite Z.div_0_l by (pose proof (half_pos c); lia).
      + intros x u d _ H t m [H' _]. apply INV in H as [-> _], H' as [-> ->]. left. lia.
      + intros x u d _ H m [H' _]. apply INV in H as [-> _], H' as [_ ->]. lia.
      + intros _ u d H. pose proof H as H'. apply INV in H' as [-> _]. cbn in H. injection H as <-. split; [lia|]. split; [reflexivity|lia].
      + intros _ u d u' d' H H' L. apply INV in H, H'. lia.
      + intros a t m _ H. cbn in H. destruct (Z.eqb_spec t 0); [lia|easy].
    - split; [split|].
      + intros x t g H. apply INV in H as [_ ->]. exact CL.
      + exact CL.
      + intros T. split; [exact (conj CL (conj CL CL))|]. split; apply vle_refl.
    - intros x t. cbn. destruct (t =? 0); [|exact I]. split; [reflexivity|]. exact V0.
    - exact V0.
    - intros T. exact (conj V0 (conj V0 V0)).
    - intros T. exact I.
    - easy.
  Qed.

  (** *** no data race *)
  Theorem sim_no_race G s A T : Sim c G s A -> ~ races s T.
  Proof.
    intros S R. unfold races in R. destruct (confs s T) as [p|] eqn:E; [|easy].
    destruct (sim_conf _ _ _ _ _ _ S E) as (q & _ & _ & HT). destruct p; cbn [WeakInv.TI] in *; try easy.
    - destruct HT as (_ & _ & K & _). destruct R as (i & u & L & M). destruct (mem_of s (Ck a i) u) as [d|] eqn:Md; [|easy].
      assert (D : isdat (li a) (Ck a i)) by (left; right; eauto). pose proof (held_load _ _ _ _ _ _ _ _ _ S (proj1 K) D Md). lia.
    - destruct HT as (_ & _ & K & _). destruct R as (i & u & L & M). destruct (mem_of s (Ck a i) u) as [d|] eqn:Md; [|easy].
      assert (D : isdat (li a) (Ck a i)) by (left; right; eauto). pose proof (held_load _ _ _ _ _ _ _ _ _ S (proj1 K) D Md). lia.
    - destruct HT as (_ & K & _). destruct R as (u & L & M). destruct (mem_of s (Rd a) u) as [d|] eqn:Md; [|easy].
      assert (D : isdat (li a) (Rd a)) by (right; eauto). pose proof (held_load _ _ _ _ _ _ _ _ _ S (proj1 K) D Md). lia.
  Qed.
End P.
