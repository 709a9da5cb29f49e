(** The simulation, part 1: calls, returns, fences, optimistic reads. *)
From Coq Require Import ZArith List Bool Lia PeanoNat.
From Verif Require Import Words Spec WordsFacts OrderingModel FallbackModel FallbackFacts WeakMem WeakFacts WeakSpec WeakModel WeakInv WeakFrame WeakLocks WeakSim.
Import ListNotations.
Open Scope Z_scope.

Section P.
  Variable c : config.
  Hypothesis WF : wf_config c.
  Local Notation li := lock_index.
  Local Notation LI := (LI c).
  Local Notation half := (half c).
  Local Notation mem_of s := (wmem (world_of s)).
  Local Notation arun := (wrun aloc_eqb (s_next (obj_ty c)) (s_code (objs c)) Ac).
  Local Notation move s T w tv p := (mk_wst w (upd (views s) T tv) (upd (confs s) T p)).
  Definition answered (A : wst aloc sconf) (s' : wst cloc wpc) (e : list (wevent op res)) : Prop :=
    exists ls A' G', arun A ls = Some (A', e) /\ Sim c G' s' A'.

  Lemma sim_conf G s A T p : Sim c G s A -> confs s T = Some p ->
    exists q, confs A T = Some q /\ AP p q /\ TI c (mem_of s) (mem_of A) G T (views s T) (views A T) p.
  Proof. intros S E. pose proof (s_confs _ _ _ _ S T) as F. rewrite E in F. destruct (confs A T) as [q|]; [|easy]. exists q. tauto. Qed.
  Lemma others_move {L C} (s : wst L C) T w tv p : forall T', T' <> T -> views (move s T w tv p) T' = views s T' /\ confs (move s T w tv p) T' = confs s T'.
  Proof. intros T' N. cbn. now rewrite !upd_other. Qed.
  Lemma sim_holder G s A T p k : Sim c G s A -> confs s T = Some p -> hd G k = Some T -> holds p = Some k.
  Proof. intros S E H. destruct (s_hd _ _ _ _ S _ _ H) as (p' & Q & R). congruence. Qed.

  Lemma silent G s A T p q p' a ts v tv : Sim c G s A -> confs s T = Some p -> confs A T = Some q ->
    perform cloc_eqb a ts (world_of s) (views s T) = Some (v, world_of s, tv) ->
    AP p' q -> holds p' = holds p -> TI c (mem_of s) (mem_of A) G T tv (views A T) p' ->
    answered A (move s T (world_of s) tv (Some p')) [].
  Proof.
    intros S E EA P HA HH HT. pose proof S as [SL [SCW SCT] SO SS SV SF SH].
    destruct (perform_closed _ cloc_spec _ _ _ _ _ _ _ P SCW (SCT T)) as (_ & _ & CT & TL).
    exists [], A, G. split; [reflexivity|]. eapply sim_local with (T := T); eauto; cbn [views confs]; rewrite ?upd_same, ?EA; auto.
    - eapply VRt_mono; eauto.
    - intros T' N. now rewrite !upd_other.
    - intros k Hk. exists p'. split; auto. rewrite HH. eapply sim_holder; eauto.
  Qed.

  (** one matching action *)
  Lemma a_step A T q act k n v w tv : confs A T = Some q -> s_next (obj_ty c) q = Do act k ->
    perform aloc_eqb act n (world_of A) (views A T) = Some (v, w, tv) ->
    arun A [LStep T n] = Some (move A T w tv (Some (k n v)), []).
  Proof. intros E N P. cbn [wrun wstep]. rewrite E, N, P. reflexivity. Qed.
  Lemma finish_AP o r : AP (finish o r) (s_finish o r) /\ holds (finish o r) = None.
  Proof. unfold finish, s_finish. destruct (asks_sc o); split; reflexivity. Qed.
  Lemma finish_TI wm am G T cv av o r : TI c wm am G T cv av (finish o r).
  Proof. unfold finish. destruct (asks_sc o); exact I. Qed.

  (** *** calls and returns *)
  Lemma order_panics o : order_ok o = negb (panics o).
  Proof. destruct o as [o|v o|r o|x y su f]; try destruct o; try destruct su, f; reflexivity. Qed.
  Lemma body_TI wm am G T cv av a o : good c a o -> TI c wm am G T cv av (body c a o) /\ AP (body c a o) (SDo a o) /\ holds (body c a o) = None.
  Proof.
    intros H. destruct o; cbn [body].
    2-4: now (split; [exact H|split]).
    destruct (wide c) eqn:W; cbn; rewrite ?W; repeat split; auto; discriminate.
  Qed.
  Lemma sim_call G s A T a o p : Sim c G s A -> confs s T = None -> code c a o = Some p ->
    answered A (mk_wst (world_of s) (views s) (upd (confs s) T (Some p))) [ECall T a o].
  Proof.
    intros S E Q. unfold code in Q. destruct (objs c a) as [ty|] eqn:Ob; [|easy].
    destruct (op_typedb ty o) eqn:Ty; [|easy]. apply op_typedb_iff in Ty.
    pose proof (s_confs _ _ _ _ S T) as F. rewrite E in F. destruct (confs A T) as [|] eqn:EA; [easy|].
    set (q := if panics o then SRet RPanic else if asks_sc o then SBegin a o else SDo a o).
    assert (K : AP p q /\ TI c (mem_of s) (mem_of A) G T (views s T) (views A T) p /\ holds p = None).
    { rewrite order_panics in Q. unfold q. destruct (panics o) eqn:Pa; cbn [negb] in Q.
      - injection Q as <-. repeat split.
      - assert (Gd : good c a o) by (exists ty; rewrite order_panics, Pa; auto).
        destruct (asks_sc o) eqn:As; injection Q as <-.
        + repeat split; auto.
        + destruct (body_TI (mem_of s) (mem_of A) G T (views s T) (views A T) a o Gd) as (X & Y & Z). auto. }
    destruct K as (K1 & K2 & K3).
    exists [LCall T a o], (mk_wst (world_of A) (views A) (upd (confs A) T (Some q))), G. split.
    - cbn [wrun wstep]. rewrite EA. unfold s_code. rewrite Ob. fold q. reflexivity.
    - pose proof S as [SL [SCW SCT] SO SS SV SF SH]. eapply sim_local with (T := T); eauto; cbn [views confs]; rewrite ?upd_same; auto.
      + apply tle_refl.
      + intros T' N. now rewrite !upd_other.
      + intros k Hk. destruct (SH _ _ Hk) as (p' & X & _). congruence.
  Qed.
  Lemma sim_return G s A T r : Sim c G s A -> confs s T = Some (Ret r) ->
    answered A (mk_wst (world_of s) (views s) (upd (confs s) T None)) [ERet T r].
  Proof.
    intros S E. destruct (sim_conf _ _ _ _ _ S E) as (q & EA & -> & _).
    exists [LStep T 0], (mk_wst (world_of A) (views A) (upd (confs A) T None)), G. split.
    - cbn [wrun wstep]. rewrite EA. reflexivity.
    - pose proof S as [SL [SCW SCT] SO SS SV SF SH]. eapply sim_local with (T := T); eauto; cbn [views confs]; rewrite ?upd_same; auto.
      + apply tle_refl.
      + intros T' N. now rewrite !upd_other.
      + intros k Hk. destruct (SH _ _ Hk) as (p' & X & Y). rewrite E in X. injection X as <-. easy.
  Qed.

  (** *** SeqCst fences, inside and outside calls *)
  Lemma sim_fence G s A T ts v w tv p' q' : Sim c G s A ->
    perform cloc_eqb (Fence FSeqCst) ts (world_of s) (views s T) = Some (v, w, tv) ->
    (forall k, hd G k <> Some T) ->
    (forall cv av, match p', q' with
      | None, None => True
      | Some p, Some q => AP p q /\ TI c (mem_of s) (mem_of A) G T cv av p
      | _, _ => False
      end) ->
    exists aw av, perform aloc_eqb (Fence FSeqCst) ts (world_of A) (views A T) = Some (v, aw, av) /\
      forall s' A', world_of s' = w -> world_of A' = aw ->
        (forall T', views s' T' = upd (views s) T tv T' /\ views A' T' = upd (views A) T av T') ->
        (forall T', confs s' T' = upd (confs s) T p' T' /\ confs A' T' = upd (confs A) T q' T') -> Sim c G s' A'.
  Proof.
    intros S P HH HF. pose proof S as [SL [SCW SCT] SO SS SV SF SH].
    destruct (perform_closed _ cloc_spec _ _ _ _ _ _ _ P SCW (SCT T)) as (_ & CW & CT & TL).
    cbn in P. injection P as <- <- <-. eexists _, _. split; [reflexivity|].
    destruct (SV T) as (V1 & V2 & V3).
    assert (VC : VR G (mem_of s) (vjoin (vjoin (cur (views A T)) (acq (views A T))) (wsc (world_of A)))
                   (vjoin (vjoin (cur (views s T)) (acq (views s T))) (wsc (world_of s)))).
    { apply VR_join2; auto. now apply VR_join2. }
    intros s' A' Ew Ea Hv Hc. assert (Em : mem_of s' = mem_of s) by (rewrite Ew; reflexivity).
    assert (EmA : mem_of A' = mem_of A) by (rewrite Ea; reflexivity).
    eapply (sim_frame c G G s A s' A' T S); rewrite ?Em, ?EmA.
    - apply ext_same, grows_refl.
    - apply grows_refl.
    - intros k. eapply LI_views; [apply SL|]. intros T' Hd. cbn. rewrite (proj1 (Hv T')), upd_other; [apply vle_refl|].
      intros ->. now apply (HH k).
    - now rewrite Ew.
    - rewrite (proj1 (Hv T)), upd_same. exact CT.
    - exact SO.
    - rewrite Ew, Ea. exact VC.
    - rewrite (proj1 (Hv T)), (proj2 (Hv T)), !upd_same. repeat split; cbn; apply VC.
    - rewrite (proj1 (Hc T)), (proj2 (Hc T)), !upd_same. apply HF.
    - intros T' N. rewrite (proj1 (Hv T')), (proj2 (Hv T')), (proj1 (Hc T')), (proj2 (Hc T')). now rewrite !upd_other.
    - auto.
    - intros k T' Hd. right. split; auto. intros ->. now apply (HH k).
  Qed.
  Lemma not_holding G s A T p : Sim c G s A -> confs s T = p -> match p with Some p => holds p = None | None => True end -> forall k, hd G k <> Some T.
  Proof.
    intros S E H k Hd. destruct (s_hd _ _ _ _ S _ _ Hd) as (p' & X & Y). rewrite X in E. subst p. congruence.
  Qed.
  Lemma sim_begin G s A T a o ts v w tv : Sim c G s A -> confs s T = Some (Begin a o) ->
    perform cloc_eqb (Fence FSeqCst) ts (world_of s) (views s T) = Some (v, w, tv) ->
    answered A (move s T w tv (Some (body c a o))) [].
  Proof.
    intros S E P. destruct (sim_conf _ _ _ _ _ S E) as (q & EA & -> & Gd & As).
    destruct (sim_fence G s A T ts v w tv (Some (body c a o)) (Some (SDo a o)) S P) as (aw & av & Pa & K); eauto.
    - eapply not_holding; eauto. reflexivity.
    - intros cv av. destruct (body_TI (mem_of s) (mem_of A) G T cv av a o Gd) as (X & Y & _). auto.
    - eexists [LStep T ts], _, G. split; [eapply a_step; eauto; reflexivity|]. apply K; auto.
  Qed.
  Lemma sim_end G s A T r ts v w tv : Sim c G s A -> confs s T = Some (End r) ->
    perform cloc_eqb (Fence FSeqCst) ts (world_of s) (views s T) = Some (v, w, tv) ->
    answered A (move s T w tv (Some (Ret r))) [].
  Proof.
    intros S E P. destruct (sim_conf _ _ _ _ _ S E) as (q & EA & -> & _).
    destruct (sim_fence G s A T ts v w tv (Some (Ret r)) (Some (SRet r)) S P) as (aw & av & Pa & K); eauto.
    - eapply not_holding; eauto. reflexivity.
    - intros cv av. now split.
    - eexists [LStep T ts], _, G. split; [eapply a_step; eauto; reflexivity|]. apply K; auto.
  Qed.

  (** *** optimistic reads *)
  Lemma OR_mono wm G cv cv' av b b' a sh sl gh g rd : vle (cur cv) (cur cv') -> b <= b' ->
    OR c wm G cv av b a sh sl gh g rd -> OR c wm G cv' av b' a sh sl gh g rd.
  Proof.
    intros Hv Hb ((m & U & A & B & C & D) & F). split; [|exact F]. exists m. split; [exact U|]. split; [exact A|]. split; [eapply vle_trans; eauto|].
    split; [exact C|]. intros i Hi. destruct (D i Hi) as (u & d & X1 & X2 & X3 & X4). exists u, d. repeat (split; auto). lia.
  Qed.
  Lemma good_len a o : good c a o -> exists ty, objs c a = Some ty /\ obj_ty c a = ty /\ (0 < len c (obj_ty c a))%nat /\ op_typed ty o.
  Proof.
    intros (ty & O & T & _). exists ty. pose proof (obj_ty_eq _ _ _ O) as E. rewrite E. destruct (obj_len c WF _ _ O). repeat (split; auto). lia.
  Qed.
  Lemma sim_opthi G s A T a o ts v w tv : Sim c G s A -> confs s T = Some (OptHi a o) ->
    perform cloc_eqb (Load (Hi (li a)) true) ts (world_of s) (views s T) = Some (v, w, tv) ->
    answered A (move s T w tv (Some (OptLo a o v ts))) [].
  Proof.
    intros S E P. destruct (sim_conf _ _ _ _ _ S E) as (q & EA & -> & Gd & Ld & W). pose proof P as P0.
    apply load_inv in P as (d & M & L & -> & -> & ->). eapply silent; eauto; [reflexivity|].
    cbn [TI]. split; [exact Gd|]. split; [exact Ld|]. intros _. exists d. split; [exact M|]. split; [reflexivity|].
    cbn. unfold vjoin. lia.
  Qed.
  Lemma sim_optlo G s A T a o sh gh ts v w tv : Sim c G s A -> confs s T = Some (OptLo a o sh gh) ->
    perform cloc_eqb (Load (Lo (li a)) true) ts (world_of s) (views s T) = Some (v, w, tv) ->
    answered A (move s T w tv (Some (if v =? LOCKED then Acq a o else more_opt c a o sh v [] gh ts))) [].
  Proof.
    intros S E P. destruct (sim_conf _ _ _ _ _ S E) as (q & EA & -> & Gd & Ld & W). pose proof P as P0.
    apply load_inv in P as (m & M & L & -> & -> & ->).
    destruct (Z.eqb_spec (mval m) LOCKED) as [Q|Q]; [eapply silent; eauto; reflexivity|].
    destruct (good_len a o Gd) as (ty & Ob & Et & Ln & Ty).
    assert (U : unl (mem_of s) (li a) ts m) by now split.
    pose proof (s_lock _ _ _ _ S (li a)) as I.
    unfold more_opt. cbn [length]. rewrite (proj2 (Nat.ltb_lt 0 (len c (obj_ty c a))) Ln).
    eapply silent; eauto; [reflexivity|]. cbn [TI]. split; [exact Gd|]. split; [exact Ld|]. split; [exact Ln|]. split.
    - exists m. split; [exact U|]. split; [reflexivity|]. split.
      + cbn. eapply vle_trans; [|apply vset_le]. apply vjoin_r.
      + split.
        * intros Wd. destruct (W Wd) as (d & Md & Vd & Ld'). split; [|eauto].
          destruct (l_data _ _ _ _ _ _ I (Hi (li a)) gh d (or_introl (or_introl eq_refl)) Md _ _ U) as [|X]; [auto|lia].
        * cbn. intros i Hi. lia.
    - destruct (s_views _ _ _ _ S T) as ((_ & V) & _). destruct (V a) as (t' & m' & U' & L1 & L2).
      destruct (l_mono _ _ _ _ _ _ I _ _ _ _ U' U) as (_ & _ & X & _); [lia|]. specialize (X a). lia.
  Qed.
  Lemma sim_optread G s A T a o sh sl rd gh g ts v w tv : Sim c G s A -> confs s T = Some (OptRead a o sh sl rd gh g) ->
    perform cloc_eqb (Load (Ck a (length rd)) false) ts (world_of s) (views s T) = Some (v, w, tv) ->
    answered A (move s T w tv (Some (more_opt c a o sh sl (rd ++ [v]) gh g))) [].
  Proof.
    intros S E P. destruct (sim_conf _ _ _ _ _ S E) as (q & EA & -> & Gd & Ld & Ln & R). pose proof P as P0.
    apply load_inv in P as (d & M & L & -> & -> & ->).
    assert (R' : OR c (mem_of s) G (see cloc_eqb (views s T) (Ck a (length rd)) ts d false) (views A T)
       (acq (see cloc_eqb (views s T) (Ck a (length rd)) ts d false) (Lo (li a))) a sh sl gh g (rd ++ [mval d])).
    { destruct R as ((m & U & R1 & R2 & R3 & R4) & R5). split; [|exact R5]. exists m. split; [exact U|]. split; [exact R1|].
      split; [eapply vle_trans; [exact R2|apply see_tle]|]. split; [exact R3|].
      intros i Hi. rewrite app_length in Hi. cbn [length] in Hi. destruct (Nat.eq_dec i (length rd)) as [->|N].
      - exists ts, d. split; [exact M|]. split; [now rewrite nth_middle|]. split; [specialize (R2 (Ck a (length rd))); lia|].
        cbn. unfold vjoin. lia.
      - destruct (R4 i) as (u & d' & X1 & X2 & X3 & X4); [lia|]. exists u, d'. split; [exact X1|].
        split; [now rewrite app_nth1 by lia|]. split; [exact X3|]. cbn. unfold vjoin. lia. }
    unfold more_opt. destruct (Nat.ltb_spec (length (rd ++ [mval d])) (len c (obj_ty c a))) as [Q|Q].
    - eapply silent; eauto; [reflexivity|]. cbn [TI]. auto.
    - eapply silent; eauto; [reflexivity|]. cbn [TI]. split; [exact Gd|]. split; [exact Ld|]. exists (rd ++ [mval d]).
      rewrite app_length in Q. cbn [length] in Q. split; [rewrite app_length; cbn; lia|]. auto.
  Qed.
  Lemma sim_valfence G s A T a o sh sl v0 gh g ts v w tv : Sim c G s A -> confs s T = Some (ValFence a o sh sl v0 gh g) ->
    perform cloc_eqb (Fence FAcquire) ts (world_of s) (views s T) = Some (v, w, tv) ->
    answered A (move s T w tv (Some (ValLo a o sh sl v0 gh g))) [].
  Proof.
    intros S E P. destruct (sim_conf _ _ _ _ _ S E) as (q & EA & -> & Gd & Ld & rd & R1 & R2 & R3). pose proof P as P0.
    cbn in P. injection P as <- <- <-. eapply silent; eauto; [reflexivity|]. cbn [TI]. split; [exact Gd|]. split; [exact Ld|].
    exists rd. split; [exact R1|]. split; [exact R2|]. eapply OR_mono; [apply vjoin_l| |exact R3]. cbn. unfold vjoin. lia.
  Qed.

  (** what the chunks read add up to, if nothing was written since *)
  Lemma opt_value wm am G cvs cv av b a o sh sl gh g rd g1 m1 : LI wm am G cvs (li a) -> good c a o ->
    OR c wm G cv av b a sh sl gh g rd -> length rd = len c (obj_ty c a) ->
    unl wm (li a) g1 m1 -> g <= g1 -> b <= g1 -> gc G (li a) g = gc G (li a) g1 ->
    exists m v V, unl wm (li a) g m /\ vle (mview m) (cur cv) /\ am (Ad a) (gi G (li a) g a) = Some (mk_msg v V) /\ VR G wm V (mview m) /\
      of_chunks c (obj_ty c a) rd = v.
  Proof.
    intros I Gd ((m & U & A1 & A2 & A3 & A4) & _) Ln U1 Lg Lb Q.
    destruct Gd as (ty & Ob & _ & _). pose proof (obj_ty_eq _ _ _ Ob) as Et.
    destruct (l_snap _ _ _ _ _ _ I _ _ U a ty Ob eq_refl) as (v & V & S1 & S2 & S3 & S4).
    exists m, v, V. split; [exact U|]. split; [exact A2|]. split; [exact S1|]. split; [exact S2|].
    rewrite Et in *. rewrite <- (of_to_chunks c WF a ty v Ob S3). f_equal.
    apply nth_list_eq with (d := 0); [now rewrite (to_chunks_length c)|]. intros i Hi.
    destruct (A4 i Hi) as (u & d & X1 & X2 & X3 & X4). destruct (S4 i) as (x & Y1 & Y2); [lia|].
    rewrite Et in Y2. rewrite <- X2, <- Y2.
    assert (D : isdat (li a) (Ck a i)) by (left; right; eauto).
    assert (u = mview m (Ck a i)) as ->; [|congruence].
    destruct (l_data _ _ _ _ _ _ I _ _ _ D X1 _ _ U1) as [Z1|Z1]; [|lia].
    destruct (l_mono _ _ _ _ _ _ I _ _ _ _ U U1 Lg) as (_ & _ & _ & Z2). destruct (Z2 Q) as [_ Z3].
    rewrite <- Z3 in Z1 by (right; eauto). lia.
  Qed.
  (** the optimistic load takes effect *)
  Lemma opt_lin G s A T p a ord g m v V ts x tv : Sim c G s A -> confs s T = Some p -> confs A T = Some (SDo a (OLoad ord)) ->
    holds p = None ->
    perform cloc_eqb x ts (world_of s) (views s T) = Some (v, world_of s, tv) ->
    unl (mem_of s) (li a) g m -> vle (mview m) (cur tv) -> cur (views A T) (Ad a) <= gi G (li a) g a ->
    forall val, mem_of A (Ad a) (gi G (li a) g a) = Some (mk_msg val V) -> VR G (mem_of s) V (mview m) ->
    answered A (move s T (world_of s) tv (Some (finish (OLoad ord) (RVal val)))) [].
  Proof.
    intros S E EA Hh P U Lm La val Em Vm. pose proof S as [SL [SCW SCT] SO SS SV SF SH].
    destruct (perform_closed _ cloc_spec _ _ _ _ _ _ _ P SCW (SCT T)) as (_ & _ & CT & TL).
    set (n := gi G (li a) g a) in *.
    eexists [LStep T n], _, G. split; [eapply (a_step A T _ _ _ n _ _ _ EA); [reflexivity|apply (load_ok aloc_eqb _ _ _ _ _ _ Em La)]|].
    destruct (finish_AP (OLoad ord) (RVal val)) as [F1 F2].
    eapply sim_local with (T := T); eauto; cbn [world_of views confs]; rewrite ?upd_same; auto.
    - assert (VT : VRt G (mem_of s) (views A T) tv) by (eapply VRt_mono; eauto).
      destruct VT as (V1 & V2 & V3). destruct CT as (_ & _ & CA).
      assert (HL : g <= cur tv (Lo (li a))).
      { specialize (Lm (Lo (li a))). now rewrite (l_own _ _ _ _ _ _ (SL (li a)) _ _ U) in Lm. }
      repeat split; cbn [see cur acq rel]; try apply V3.
      + eapply VR_at; [|exact U|exact HL|apply Z.le_refl]. apply VR_join; [exact V1|]. cbn. eapply VR_mono; eauto using vle_refl.
      + eapply VR_at; [|exact U|exact HL|apply Z.le_refl]. apply VR_join; [exact V1|]. cbn. eapply VR_mono; eauto using vle_refl.
      + eapply VR_at; [|exact U| |apply Z.le_refl].
        * apply VR_join; [exact V2|]. cbn. eapply VR_mono; [apply vle_refl| |exact Vm]. eapply vle_trans; eauto.
        * specialize (CA (Lo (li a))). lia.
      + eapply VR_at; [|exact U| |apply Z.le_refl].
        * apply VR_join; [exact V2|]. cbn. eapply VR_mono; [apply vle_refl| |exact Vm]. eapply vle_trans; eauto.
        * specialize (CA (Lo (li a))). lia.
    - split; [exact F1|]. apply finish_TI.
    - intros T' N. now rewrite !upd_other.
    - intros k Hk. pose proof (sim_holder _ _ _ _ _ _ S E Hk). congruence.
  Qed.

  Lemma sim_vallo G s A T a o sh sl v0 gh g ts v w tv : Sim c G s A -> confs s T = Some (ValLo a o sh sl v0 gh g) ->
    ~ lapped c s T ts ->
    perform cloc_eqb (Load (Lo (li a)) (wide c)) ts (world_of s) (views s T) = Some (v, w, tv) ->
    answered A (move s T w tv (Some (if wide c then ValHi a o sh sl v v0 gh g ts
                                     else if v =? sl then finish o (RVal v0) else Acq a o))) [].
  Proof.
    intros S E Lap P. destruct (sim_conf _ _ _ _ _ S E) as (q & EA & -> & Gd & Ld & rd & R1 & R2 & R3). pose proof P as P0.
    apply load_inv in P as (m1 & M & L & -> & -> & ->). pose proof (s_lock _ _ _ _ S (li a)) as I.
    pose proof R3 as ((m & U & X1 & X2 & X3 & X4) & X5).
    assert (Lg : g <= ts). { specialize (X2 (Lo (li a))). rewrite (l_own _ _ _ _ _ _ I _ _ U) in X2. lia. }
    unfold lapped in Lap. rewrite E in Lap.
    destruct (wide c) eqn:W.
    - eapply silent; eauto; [reflexivity|]. cbn [TI]. split; [exact Gd|]. split; [exact Ld|]. split; [exact W|]. intros Q.
      exists rd, m1. split; [exact R1|]. split; [exact R2|]. split; [split; [exact M|rewrite Q, <- X1; apply U]|]. split; [exact Q|].
      split; [cbn; eapply vle_trans; [|apply vset_le]; apply vjoin_r|]. split; [exact Lg|].
      eapply OR_mono; [apply see_tle| |exact R3]. exact L.
    - destruct (Z.eqb_spec (mval m1) sl) as [Q|Q]; [|eapply silent; eauto; reflexivity].
      assert (U1 : unl (mem_of s) (li a) ts m1) by (split; [exact M|rewrite Q, <- X1; apply U]).
      assert (Qg : gc G (li a) g = gc G (li a) ts).
      { destruct (l_mono _ _ _ _ _ _ I _ _ _ _ U U1 Lg) as (_ & Y & _).
        destruct (l_cnt _ _ _ _ _ _ I _ _ U) as [_ C1]. destruct (l_cnt _ _ _ _ _ _ I _ _ U1) as [_ C2].
        assert (Hh : half = 2 ^ 63) by (unfold WeakInv.half, state_bits; now rewrite W).
        eapply (mod_near _ _ half); [apply half_pos|apply stamp_half; congruence|]. split; [lia|]. rewrite Hh.
        apply Z.nle_gt. intros Big. apply Lap. split; [reflexivity|]. eapply at_least_le; [exact Big|].
        rewrite <- (Z2Nat.id (gc G (li a) ts - gc G (li a) g)) by lia.
        eapply count_unl; eauto. lia. }
      destruct (opt_value _ _ _ _ _ _ _ _ _ _ _ _ _ _ ts m1 I Gd R3 R1 U1 Lg L Qg) as (m' & val & V & Y1 & Y2 & Y3 & Y4 & Y5).
      rewrite R2, Y5. destruct o; try easy. eapply opt_lin; eauto.
      eapply vle_trans; [exact Y2|apply see_tle].
  Qed.
  Lemma sim_valhi G s A T a o sh sl lo' v0 gh g g1 ts v w tv : Sim c G s A -> confs s T = Some (ValHi a o sh sl lo' v0 gh g g1) ->
    ~ lapped c s T ts ->
    perform cloc_eqb (Load (Hi (li a)) false) ts (world_of s) (views s T) = Some (v, w, tv) ->
    answered A (move s T w tv (Some (if (v =? sh) && (lo' =? sl) then finish o (RVal v0) else Acq a o))) [].
  Proof.
    intros S E Lap P. destruct (sim_conf _ _ _ _ _ S E) as (q & EA & -> & Gd & Ld & W & R). pose proof P as P0.
    apply load_inv in P as (d & M & L & -> & -> & ->). pose proof (s_lock _ _ _ _ S (li a)) as I.
    unfold lapped in Lap. rewrite E in Lap.
    destruct (Z.eqb_spec (mval d) sh) as [Q|Q]; cbn [andb]; [|eapply silent; eauto; reflexivity].
    destruct (Z.eqb_spec lo' sl) as [Q'|Q']; [|eapply silent; eauto; reflexivity].
    destruct (R Q') as (rd & m1 & R1 & R2 & U1 & S1 & V1 & Lg & R3).
    pose proof R3 as ((m & U & X1 & X2 & X3 & X4) & X5). destruct (X3 W) as (Lh & dh & Mh & Vh).
    destruct (l_mono _ _ _ _ _ _ I _ _ _ _ U U1 Lg) as (Y1 & Y2 & _).
    pose proof (Y1 (Hi (li a))) as Y3. pose proof (V1 (Hi (li a))) as Y4.
    assert (Eera : ge G (li a) gh = ge G (li a) ts).
    { destruct (l_era _ _ _ _ _ _ I W _ _ Mh) as (_ & C1 & _). destruct (l_era _ _ _ _ _ _ I W _ _ M) as (_ & C2 & _).
      assert (ge G (li a) gh <= ge G (li a) ts).
      { destruct (Z.eq_dec gh ts) as [->|]; [lia|]. pose proof (l_eramono _ _ _ _ _ _ I W _ _ _ _ Mh M). lia. }
      eapply (mod_near _ _ (2 ^ 32)); [lia|congruence|]. split; [lia|].
      apply Z.nle_gt. intros Big. apply Lap. split; [exact W|]. eapply at_least_le; [exact Big|].
      rewrite <- (Z2Nat.id (ge G (li a) ts - ge G (li a) gh)) by lia.
      eapply count_hi; eauto; lia. }
    assert (gh = ts) as <-.
    { destruct (Z.lt_total gh ts) as [Z1|[Z1|Z1]]; [|exact Z1|lia]. pose proof (l_eramono _ _ _ _ _ _ I W _ _ _ _ Mh M Z1). lia. }
    assert (Qg : gc G (li a) g = gc G (li a) g1).
    { destruct (l_cnt _ _ _ _ _ _ I _ _ U) as [_ C1]. destruct (l_cnt _ _ _ _ _ _ I _ _ U1) as [_ C2].
      eapply (mod_div_eq _ _ half); [apply half_pos|apply stamp_half; congruence|].
      rewrite <- (l_snaphi _ _ _ _ _ _ I W _ _ U), <- (l_snaphi _ _ _ _ _ _ I W _ _ U1). f_equal. lia. }
    destruct (opt_value _ _ _ _ _ _ _ _ _ _ _ _ _ _ g1 m1 I Gd R3 R1 U1 Lg (Z.le_refl _) Qg) as (m' & val & V & Z1 & Z2 & Z3 & Z4 & Z5).
    rewrite R2, Z5. destruct o; try easy. eapply opt_lin; eauto.
    eapply vle_trans; [exact Z2|apply see_tle].
  Qed.
End P.
