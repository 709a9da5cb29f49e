(** What the histories of native release/acquire atomics guarantee. *)
From Coq Require Import ZArith List Bool Lia PeanoNat Permutation.
From Verif Require Import Words Spec WeakMem WeakFacts WeakSpec WeakInv WeakFrame WeakSim.
Import ListNotations.
Open Scope Z_scope.

Section P.
  Variable ty : Z -> ity.
  Variable objs : Z -> option ity.
  Variables vars own : Z -> Z.
  Local Notation mem_of s := (wmem (world_of s)).
  Local Notation arun := (wrun aloc_eqb (s_next ty) (s_code objs) Ac).
  Local Notation astep := (wstep aloc_eqb (s_next ty) (s_code objs) Ac).
  Local Notation hist := (list (wevent op res)).

  Lemma inv_run (I : hist -> wst aloc sconf -> Prop) : (forall h A l A' e, I h A -> astep A l = Some (A', e) -> I (h ++ e) A') ->
    forall ls h A A' h', I h A -> arun A ls = Some (A', h') -> I (h ++ h') A'.
  Proof.
    intros St. induction ls as [|l ls IH]; intros h A A' h' H R; cbn [wrun] in R.
    - injection R as <- <-. now rewrite app_nil_r.
    - destruct (astep A l) as [[A1 e]|] eqn:E; [|easy]. destruct (arun A1 ls) as [[A2 es]|] eqn:R'; [|easy]. injection R as <- <-.
      rewrite app_assoc. eapply IH; eauto.
  Qed.
  Lemma pending_app h e : pending (h ++ [e]) = pend1 (pending h) e.
  Proof. unfold pending. now rewrite fold_left_app. Qed.

  (** *** the kinds of steps *)
  Inductive kind (A : wst aloc sconf) (T : nat) : wst aloc sconf -> hist -> Prop :=
  | k_call a o A' : confs A T = None -> objs a <> None -> world_of A' = world_of A -> views A' T = views A T ->
      confs A' T = Some (if panics o then SRet RPanic else if asks_sc o then SBegin a o else SDo a o) -> kind A T A' [ECall T a o]
  | k_ret r A' : confs A T = Some (SRet r) -> world_of A' = world_of A -> views A' T = views A T -> confs A' T = None -> kind A T A' [ERet T r]
  | k_begin a o A' n v : confs A T = Some (SBegin a o) -> confs A' T = Some (SDo a o) ->
      perform aloc_eqb (Fence FSeqCst) n (world_of A) (views A T) = Some (v, world_of A', views A' T) -> kind A T A' []
  | k_end r A' n v : confs A T = Some (SEnd r) -> confs A' T = Some (SRet r) ->
      perform aloc_eqb (Fence FSeqCst) n (world_of A) (views A T) = Some (v, world_of A', views A' T) -> kind A T A' []
  | k_load a ord A' n v : confs A T = Some (SDo a (OLoad ord)) -> confs A' T = Some (s_finish (OLoad ord) (RVal v)) ->
      perform aloc_eqb (Load (Ad a) true) n (world_of A) (views A T) = Some (v, world_of A', views A' T) -> kind A T A' []
  | k_store a x ord A' n v : confs A T = Some (SDo a (OStore x ord)) -> confs A' T = Some (s_finish (OStore x ord) RUnit) ->
      perform aloc_eqb (Store (Ad a) x true) n (world_of A) (views A T) = Some (v, world_of A', views A' T) -> kind A T A' []
  | k_rmw a r ord A' n v : confs A T = Some (SDo a (ORmw r ord)) -> confs A' T = Some (s_finish (ORmw r ord) (RVal v)) ->
      perform aloc_eqb (Rmw (Ad a) (fun x => Some (spec_rmw (ty a) r x)) true true) n (world_of A) (views A T) = Some (v, world_of A', views A' T) -> kind A T A' []
  | k_cas a x y su fa A' n v : confs A T = Some (SDo a (OCas x y su fa)) ->
      confs A' T = Some (s_finish (OCas x y su fa) (if v =? x then ROk v else RErr v)) ->
      perform aloc_eqb (Rmw (Ad a) (fun z => if z =? x then Some y else None) true true) n (world_of A) (views A T) = Some (v, world_of A', views A' T) -> kind A T A' []
  | k_own a A' n v : confs A T = None -> confs A' T = None ->
      perform aloc_eqb (map_act Ac a) n (world_of A) (views A T) = Some (v, world_of A', views A' T) -> kind A T A' [EOwn T a v].
  Definition others (A A' : wst aloc sconf) (T : nat) : Prop := forall T', T' <> T -> views A' T' = views A T' /\ confs A' T' = confs A T'.
  Lemma step_kind A l A' e : astep A l = Some (A', e) -> exists T, kind A T A' e /\ others A A' T.
  Proof.
    intros H. destruct l as [T a o|T ts|T a ts]; exists T; cbn [wstep] in H; destruct (confs A T) as [q|] eqn:E; try easy.
    - unfold s_code in H. destruct (objs a) eqn:Ob; [|easy]. injection H as <- <-. split.
      + eapply k_call; cbn; rewrite ?upd_same; auto. congruence.
      + intros T' N. cbn. now rewrite upd_other.
    - destruct (s_next ty q) as [ac k|r] eqn:N.
      + destruct (perform _ _ _ _ _) as [[[v w] tv]|] eqn:P; [|easy]. injection H as <- <-. split; [|intros T' NT; cbn; now rewrite !upd_other].
        destruct q as [a o|a o|r|r]; cbn [s_next] in N; [| | |easy].
        * injection N as <- <-. eapply k_begin with (n := ts) (v := v); cbn; rewrite ?upd_same; eauto.
        * destruct o; injection N as <- <-; [eapply k_load with (n := ts) (v := v)|eapply k_store with (n := ts) (v := v)|eapply k_rmw with (n := ts) (v := v)|eapply k_cas with (n := ts) (v := v)]; cbn [world_of views confs]; rewrite ?upd_same; eauto.
        * injection N as <- <-. eapply k_end with (n := ts) (v := v); cbn; rewrite ?upd_same; eauto.
      + injection H as <- <-. destruct q as [a o|a o|r'|r']; cbn [s_next] in N; try easy; [destruct o; easy|]. injection N as ->.
        split; [|intros T' NT; cbn; now rewrite !upd_other]. eapply k_ret; cbn; rewrite ?upd_same; eauto.
    - destruct (perform _ _ _ _ _) as [[[v w] tv]|] eqn:P; [|easy]. injection H as <- <-. split; [|intros T' NT; cbn; now rewrite upd_other].
      eapply k_own with (n := ts) (v := v); cbn; rewrite ?upd_same; auto.
  Qed.

  (** *** bookkeeping: the history tells what each thread is doing *)
  Record Base (h : hist) (A : wst aloc sconf) : Prop := {
    b_conf : forall T, match confs A T with
      | None => pending h T = None
      | Some (SBegin a o) | Some (SDo a o) => pending h T = Some (a, o)
      | Some (SEnd _) | Some (SRet _) => exists p, pending h T = Some p
      end;
    b_called : forall T a o, pending h T = Some (a, o) -> In (ECall T a o) h;
    b_closed : closed_w (world_of A) /\ forall T, closed_t (mem_of A) (views A T) }.
  Lemma base_init : Base [] (s_init vars own).
  Proof.
    constructor; cbn; try easy. assert (CL : closed (mem_of (s_init vars own)) (fun _ => 0)) by (intros x; cbn; eauto).
    split; [split|].
    - intros x t g H. cbn in H. destruct (t =? 0); [|easy]. injection H as <-. exact CL.
    - exact CL.
    - intros T. split; [exact (conj CL (conj CL CL))|]. split; apply vle_refl.
  Qed.
  Lemma conf_finish o r : exists r', s_finish o r = SEnd r' \/ s_finish o r = SRet r'.
  Proof. unfold s_finish. destruct (asks_sc o); eauto. Qed.
  Lemma kind_tle A T A' e : kind A T A' e -> closed_w (world_of A) -> closed_t (mem_of A) (views A T) ->
    grows (mem_of A) (mem_of A') /\ closed_w (world_of A') /\ closed_t (mem_of A') (views A' T) /\ tle (views A T) (views A' T).
  Proof.
    intros K CW CT. destruct K; try (eapply perform_closed; eauto; apply aloc_spec).
    - rewrite H1, H2. auto using grows_refl, tle_refl.
    - rewrite H0, H1. auto using grows_refl, tle_refl.
  Qed.
  Lemma base_step h A l A' e : Base h A -> astep A l = Some (A', e) -> Base (h ++ e) A'.
  Proof.
    intros [BC BI [BW BT]] H. apply step_kind in H as (T & K & O).
    destruct (kind_tle _ _ _ _ K BW (BT T)) as (GR & CW & CT & _).
    assert (CL : closed_w (world_of A') /\ forall T', closed_t (mem_of A') (views A' T')).
    { split; [exact CW|]. intros T'. destruct (Nat.eq_dec T' T) as [->|N]; [exact CT|]. destruct (O T' N) as [-> _]. eapply closed_tgrows; eauto. }
    assert (IN : forall T0 a0 o0, In (ECall T0 a0 o0) h -> In (ECall T0 a0 o0) (h ++ e)) by (intros; apply in_or_app; auto).
    assert (SAME : e = [] \/ (exists a v, e = [EOwn T a v]) -> pending (h ++ e) = pending h).
    { intros [->|(a & v & ->)]; [now rewrite app_nil_r|]. rewrite pending_app. reflexivity. }
    pose proof (BC T) as BT0.
    constructor; [| |exact CL].
    - intros T'. destruct (Nat.eq_dec T' T) as [->|N].
      + destruct K; try (rewrite SAME by eauto); rewrite ?H, ?H0, ?H1 in *; auto.
        * rewrite H3, pending_app. cbn. rewrite upd_same. destruct (panics o); [eauto|]. destruct (asks_sc o); reflexivity.
        * rewrite H2, pending_app. cbn. now rewrite upd_same.
        * destruct (conf_finish (OLoad ord) (RVal v)) as [r [-> | ->]]; eauto.
        * destruct (conf_finish (OStore x ord) RUnit) as [r [-> | ->]]; eauto.
        * destruct (conf_finish (ORmw r ord) (RVal v)) as [r' [-> | ->]]; eauto.
        * destruct (conf_finish (OCas x y su fa) (if v =? x then ROk v else RErr v)) as [r' [-> | ->]]; eauto.
      + destruct (O T' N) as [_ ->]. specialize (BC T').
        assert (pending (h ++ e) T' = pending h T') as ->; [|exact BC].
        destruct K; try (now rewrite SAME by eauto); rewrite pending_app; cbn; now rewrite upd_other.
    - intros T' a0 o0. destruct K; try (rewrite SAME by eauto; intros Q; apply IN; now apply BI); rewrite pending_app; cbn.
      + destruct (Nat.eq_dec T' T) as [->|N]; [rewrite upd_same; intros [= <- <-]; apply in_or_app; right; now left|].
        rewrite upd_other by exact N. intros Q. apply IN. now apply BI.
      + destruct (Nat.eq_dec T' T) as [->|N]; [now rewrite upd_same|]. rewrite upd_other by exact N. intros Q. apply IN. now apply BI.
  Qed.

  (** *** values *)
  Lemma made_app a h e v : made (ty a) (vars a) h a v -> made (ty a) (vars a) (h ++ e) a v.
  Proof. induction 1; [apply made_init|eapply made_store|eapply made_cas|eapply made_rmw]; eauto; apply in_or_app; left; eauto. Qed.
  Definition res_of (q : sconf) : option res := match q with SEnd r | SRet r => Some r | _ => None end.
  Lemma res_finish o r : res_of (s_finish o r) = Some r.
  Proof. unfold s_finish. now destruct (asks_sc o). Qed.
  Record Made (h : hist) (A : wst aloc sconf) : Prop := {
    m_base : Base h A;
    m_mem : forall a t g, mem_of A (Ad a) t = Some g -> made (ty a) (vars a) h a (mval g);
    m_res : forall T a o q r v, pending h T = Some (a, o) -> confs A T = Some q -> res_of q = Some r -> value_of r = Some v -> made (ty a) (vars a) h a v;
    m_ans : forall T a o r v, answers h T a o r -> value_of r = Some v -> made (ty a) (vars a) h a v }.
  Lemma answers_snoc h e T a o r : answers (h ++ [e]) T a o r -> answers h T a o r \/ (e = ERet T r /\ pending h T = Some (a, o)).
  Proof.
    intros (h1 & h2 & E & P). destruct h2 as [|x h2] using rev_ind.
    - apply app_inj_tail in E as [-> ->]. auto.
    - clear IHh2. rewrite app_comm_cons, app_assoc in E. apply app_inj_tail in E as [-> ->]. left. exists h1, h2. auto.
  Qed.
  (** *** one step: what is new in memory, what is a new result *)
  Lemma own_mem x a n (w : world aloc) v r w' v' : perform aloc_eqb (map_act Ac x) n w v = Some (r, w', v') -> forall t, wmem w' (Ad a) t = wmem w (Ad a) t.
  Proof.
    intros P t. destruct x as [y aq|y k rl|y f aq rl|f]; cbn [map_act] in P.
    - apply load_inv in P as (g & _ & _ & _ & -> & _). reflexivity.
    - apply store_inv in P as (_ & _ & -> & _). reflexivity.
    - apply rmw_inv in P as (g & _ & _ & _ & P). destruct (f (mval g)); [destruct P as (_ & -> & _)|destruct P as (-> & _)]; reflexivity.
    - destruct f; cbn in P; injection P as _ <- _; reflexivity.
  Qed.
  Definition leaves (a : Z) (o : op) (m : memory aloc) (d : msg aloc) : Prop :=
    match o with
    | OLoad _ => False
    | OStore x _ => mval d = x
    | OCas _ n _ _ => mval d = n
    | ORmw r _ => exists t g, m (Ad a) t = Some g /\ mval d = spec_rmw (ty a) r (mval g) /\ vle (mview g) (mview d)
    end.
  Lemma step_mem A T A' e a t g : kind A T A' e -> mem_of A' (Ad a) t = Some g -> mem_of A (Ad a) t = Some g \/
    (e = [] /\ exists o, confs A T = Some (SDo a o) /\ leaves a o (mem_of A) g /\ vle (cur (views A T)) (mview g) /\ cur (views A T) (Ad a) < t).
  Proof.
    intros K M. destruct K as [b o A' E1 Ob EW EV E2|r A' E1 EW EV E2|b o A' n v E1 E2 P|r A' n v E1 E2 P|b ord A' n v E1 E2 P|b x ord A' n v E1 E2 P|b r ord A' n v E1 E2 P|b x y su fa A' n v E1 E2 P|x A' n v E1 E2 P].
    - rewrite EW in M. auto.
    - rewrite EW in M. auto.
    - cbn in P. injection P as _ PW _. rewrite <- PW in M. auto.
    - cbn in P. injection P as _ PW _. rewrite <- PW in M. auto.
    - apply load_inv in P as (d & _ & _ & _ & PW & _). rewrite PW in M. auto.
    - apply store_inv in P as (_ & LT & PW & _). rewrite PW in M. cbn [wmem] in M. apply mset_inv in M as [(Q & -> & ->)|M]; auto; [|apply aloc_spec].
      injection Q as ->. right. split; [reflexivity|]. exists (OStore x ord). split; [exact E1|]. split; [reflexivity|]. split; [|exact LT]. cbn. apply vset_le.
    - apply rmw_inv in P as (d & Ed & LT & _ & _ & PW & _). rewrite PW in M. cbn [wmem] in M. apply mset_inv in M as [(Q & -> & ->)|M]; auto; [|apply aloc_spec].
      injection Q as ->. right. split; [reflexivity|]. exists (ORmw r ord). split; [exact E1|]. split; [cbn; exists n, d; auto using vjoin_r|]. split; [|lia]. cbn.
      eapply vle_trans; [|apply vjoin_l]. eapply vle_trans; [|apply vset_le]. apply see_tle.
    - apply rmw_inv in P as (d & Ed & LT & _ & P). destruct (mval d =? x); [destruct P as (_ & PW & _)|destruct P as (PW & _)]; rewrite PW in M; [|auto].
      cbn [wmem] in M. apply mset_inv in M as [(Q & -> & ->)|M]; auto; [|apply aloc_spec].
      injection Q as ->. right. split; [reflexivity|]. exists (OCas x y su fa). split; [exact E1|]. split; [reflexivity|]. split; [|lia]. cbn.
      eapply vle_trans; [|apply vjoin_l]. eapply vle_trans; [|apply vset_le]. apply see_tle.
    - rewrite (own_mem _ _ _ _ _ _ _ _ P) in M. auto.
  Qed.
  Lemma step_res A T A' e q r v : kind A T A' e -> confs A' T = Some q -> res_of q = Some r -> value_of r = Some v -> e = [] /\
    ((exists q0, confs A T = Some q0 /\ res_of q0 = Some r) \/
     exists a o t g, confs A T = Some (SDo a o) /\ mem_of A (Ad a) t = Some g /\ v = mval g /\ vle (mview g) (cur (views A' T))).
  Proof.
    intros K C R V. destruct K as [b o A' E1 Ob EW EV E2|r0 A' E1 EW EV E2|b o A' n v0 E1 E2 P|r0 A' n v0 E1 E2 P|b ord A' n v0 E1 E2 P|b x ord A' n v0 E1 E2 P|b r0 ord A' n v0 E1 E2 P|b x y su fa A' n v0 E1 E2 P|x A' n v0 E1 E2 P];
      rewrite E2 in C; try easy; injection C as <-; rewrite ?res_finish in R; try (cbn in R; discriminate R).
    - destruct (panics o); [|now destruct (asks_sc o)]. injection R as <-. cbn in V. easy.
    - injection R as <-. split; [reflexivity|]. left. exists (SEnd r0). auto.
    - apply load_inv in P as (d & Ed & _ & -> & _ & PV). injection R as <-. cbn in V. injection V as <-. split; [reflexivity|]. right. exists b, (OLoad ord), n, d.
      rewrite PV. repeat split; auto. cbn. eapply vle_trans; [|apply vset_le]. apply vjoin_r.
    - injection R as <-. cbn in V. easy.
    - apply rmw_inv in P as (d & Ed & _ & -> & _ & _ & PV). injection R as <-. cbn in V. injection V as <-. split; [reflexivity|]. right. exists b, (ORmw r0 ord), n, d.
      rewrite PV. repeat split; auto. cbn. eapply vle_trans; [|apply vset_le]. eapply vle_trans; [|apply vset_le]. apply vjoin_r.
    - apply rmw_inv in P as (d & Ed & _ & -> & P).
      assert (v = mval d) as -> by (injection R as <-; destruct (mval d =? x); cbn in V; injection V as <-; reflexivity).
      split; [reflexivity|]. right. exists b, (OCas x y su fa), n, d. repeat split; auto.
      destruct (mval d =? x); [destruct P as (_ & _ & ->)|destruct P as (_ & ->)]; cbn.
      + eapply vle_trans; [|apply vset_le]. eapply vle_trans; [|apply vset_le]. apply vjoin_r.
      + eapply vle_trans; [|apply vset_le]. apply vjoin_r.
  Qed.
  Lemma kind_pending h A T A' e : Base h A -> kind A T A' e -> forall T', T' <> T -> pending (h ++ e) T' = pending h T'.
  Proof.
    intros B K T' N. destruct K; rewrite ?app_nil_r; auto; rewrite pending_app; cbn; rewrite ?upd_other; auto.
  Qed.
  Lemma made_init_ok : Made [] (s_init vars own).
  Proof.
    constructor.
    - apply base_init.
    - intros a t g. cbn. destruct (t =? 0); [|easy]. intros [= <-]. apply made_init.
    - easy.
    - intros T a o r v (h1 & h2 & E & _). now destruct h1.
  Qed.
  Lemma made_step h A l A' e : Made h A -> astep A l = Some (A', e) -> Made (h ++ e) A'.
  Proof.
    intros [B M R AN] H. pose proof (base_step _ _ _ _ _ B H) as B'. apply step_kind in H as (T & K & O). pose proof (b_conf _ _ B T) as BC.
    constructor; [exact B'| | |].
    - intros a t g E. destruct (step_mem _ _ _ _ _ _ _ K E) as [E0|(-> & o & C & LV & _)]; [now apply made_app, (M a t g)|].
      rewrite app_nil_r.
      rewrite C in BC. apply (b_called _ _ B) in BC. destruct o; cbn in LV.
      + easy.
      + rewrite LV. eapply made_store; eauto.
      + destruct LV as (u & d & Ed & -> & _). eapply made_rmw; eauto.
      + rewrite LV. eapply made_cas; eauto.
    - intros T' a o q r v Q C Rq V. destruct (Nat.eq_dec T' T) as [->|N].
      + destruct (step_res _ _ _ _ _ _ _ K C Rq V) as (-> & [(q0 & C0 & R0)|(b & o' & u & d & C0 & Ed & -> & _)]); rewrite app_nil_r in *.
        * eapply R; eauto.
        * rewrite C0 in BC. rewrite BC in Q. injection Q as -> ->. now apply (M a u).
      + destruct (O T' N) as [_ C']. rewrite C' in C. rewrite (kind_pending _ _ _ _ _ B K T' N) in Q. apply made_app. eapply R; eauto.
    - intros T' a o r v Q V. assert (D : e = [] \/ exists x, e = [x]) by (destruct K; eauto). destruct D as [->|(x & ->)]; [rewrite app_nil_r in *; eauto|].
      apply answers_snoc in Q as [Q|(-> & Q)]; [apply made_app; eauto|]. apply made_app. inversion K; subst. eapply R; eauto. reflexivity.
  Qed.
  Theorem native_whole ls A h T a o r v : arun (s_init vars own) ls = Some (A, h) -> answers h T a o r -> value_of r = Some v -> made (ty a) (vars a) h a v.
  Proof.
    intros R Q V. apply (m_ans _ _ (inv_run Made made_step ls [] _ _ _ made_init_ok R) T a o r v Q V).
  Qed.

  (** *** publication *)
  Lemma step_one A l A' e : astep A l = Some (A', e) -> e = [] \/ exists x, e = [x].
  Proof. intros H. apply step_kind in H as (T & K & _). destruct K; eauto. Qed.
  Lemma run_split ls : forall A h1 h2 A', arun A ls = Some (A', h1 ++ h2) -> exists ls1 ls2 A1, arun A ls1 = Some (A1, h1) /\ arun A1 ls2 = Some (A', h2).
  Proof.
    induction ls as [|l ls IH]; intros A h1 h2 A' R; cbn [wrun] in R.
    - injection R as <- E. symmetry in E. apply app_eq_nil in E as [-> ->]. exists [], [], A. auto.
    - destruct (astep A l) as [[A1 e]|] eqn:E; [|easy]. destruct (arun A1 ls) as [[A2 es]|] eqn:R'; [|easy]. injection R as <- H.
      destruct (step_one _ _ _ _ E) as [->|(x & ->)].
      + cbn in H. subst. apply IH in R' as (l1 & l2 & B & R1 & R2). exists (l :: l1), l2, B. split; [|exact R2]. cbn [wrun]. now rewrite E, R1.
      + cbn in H. destruct h1 as [|y h1].
        * exists [], (l :: ls), A. split; [reflexivity|]. cbn [wrun]. rewrite E, R'. cbn. cbn in H. now rewrite H.
        * cbn in H. injection H as -> H. subst. apply IH in R' as (l1 & l2 & B & R1 & R2). exists (l :: l1), l2, B. split; [|exact R2]. cbn [wrun]. rewrite E, R1. reflexivity.
  Qed.
  Lemma run_event ls : forall A x h A', arun A ls = Some (A', x :: h) ->
    exists ls1 ls2 l A1 A2, arun A ls1 = Some (A1, []) /\ astep A1 l = Some (A2, [x]) /\ arun A2 ls2 = Some (A', h).
  Proof.
    induction ls as [|l ls IH]; intros A x h A' R; cbn [wrun] in R; [easy|].
    destruct (astep A l) as [[A1 e]|] eqn:E; [|easy]. destruct (arun A1 ls) as [[A2 es]|] eqn:R'; [|easy]. injection R as <- H.
    destruct (step_one _ _ _ _ E) as [->|(y & ->)].
    - cbn in H. subst. apply IH in R' as (l1 & l2 & l' & B & C & R1 & S1 & R2). exists (l :: l1), l2, l', B, C. split; [|auto]. cbn [wrun]. now rewrite E, R1.
    - cbn in H. injection H as -> ->. exists [], ls, l, A, A1. auto.
  Qed.

  Lemma step_own_mem A T A' e x t g : kind A T A' e -> mem_of A' (Ac x) t = Some g -> mem_of A (Ac x) t = Some g \/
    exists y v, e = [EOwn T y v] /\ writes_own x (EOwn T y v) = true.
  Proof.
    intros K M. destruct K as [b o A' E1 Ob EW EV E2|r A' E1 EW EV E2|b o A' n v E1 E2 P|r A' n v E1 E2 P|b ord A' n v E1 E2 P|b k ord A' n v E1 E2 P|b r ord A' n v E1 E2 P|b k y su fa A' n v E1 E2 P|y A' n v E1 E2 P].
    - rewrite EW in M. auto.
    - rewrite EW in M. auto.
    - cbn in P. injection P as _ PW _. rewrite <- PW in M. auto.
    - cbn in P. injection P as _ PW _. rewrite <- PW in M. auto.
    - apply load_inv in P as (d & _ & _ & _ & PW & _). rewrite PW in M. auto.
    - apply store_inv in P as (_ & _ & PW & _). rewrite PW in M. auto.
    - apply rmw_inv in P as (d & Ed & _ & _ & _ & PW & _). rewrite PW in M. auto.
    - apply rmw_inv in P as (d & Ed & _ & _ & P). destruct (mval d =? k); [destruct P as (_ & PW & _)|destruct P as (PW & _)]; rewrite PW in M; auto.
    - destruct y as [z aq|z k rl|z f aq rl|f]; cbn [map_act] in P.
      + apply load_inv in P as (d & _ & _ & _ & PW & _). rewrite PW in M. auto.
      + apply store_inv in P as (_ & _ & PW & _). rewrite PW in M. cbn [wmem] in M. apply mset_inv in M as [(Q & _ & _)|M]; auto; [|apply aloc_spec].
        injection Q as ->. right. do 2 eexists. split; [reflexivity|]. cbn. apply Z.eqb_refl.
      + apply rmw_inv in P as (d & _ & _ & _ & P). destruct (f (mval d)); [destruct P as (_ & PW & _)|destruct P as (PW & _)]; rewrite PW in M; [|auto].
        cbn [wmem] in M. apply mset_inv in M as [(Q & _ & _)|M]; auto; [|apply aloc_spec].
        injection Q as ->. right. do 2 eexists. split; [reflexivity|]. cbn. apply Z.eqb_refl.
      + destruct f; cbn in P; injection P as _ PW _; rewrite <- PW in M; auto.
  Qed.

  Section Publish.
    Variables (t1 : nat) (a x d : Z).
    Definition quiet (h : hist) : Prop := Forall (fun e => writes_own x e = false) h.
    (** before the write *)
    Definition Pub1 (h : hist) (A : wst aloc sconf) : Prop :=
      Made h A /\ (quiet h -> forall u g, mem_of A (Ac x) u = Some g -> u = 0).
    Lemma pub1_step h A l A' e : Pub1 h A -> astep A l = Some (A', e) -> Pub1 (h ++ e) A'.
    Proof.
      intros [M H] S. split; [eapply made_step; eauto|]. intros Q u g E. apply Forall_app in Q as [Q Qe].
      apply step_kind in S as (T & K & _). destruct (step_own_mem _ _ _ _ _ _ _ K E) as [E0|(y & v & -> & W)]; [eapply H; eauto|].
      inversion Qe. congruence.
    Qed.
    (** after it *)
    Variables (h0 : hist) (ts : Z).
    Definition innocent (h : hist) : hist := h0 ++ filter (fun e => negb (calls t1 e)) h.
    Local Notation knows v := (ts <= (v : view aloc) (Ac x)).
    Record Pub2 (e0 : wevent op res) (h : hist) (A : wst aloc sconf) : Prop := {
      p_base : Base (h0 ++ e0 :: h) A;
      p_t1 : knows (cur (views A t1));
      p_mem : forall u g, mem_of A (Ad a) u = Some g -> made (ty a) (vars a) (innocent h) a (mval g) \/ knows (mview g);
      p_res : forall T o q r v, pending (h0 ++ e0 :: h) T = Some (a, o) -> confs A T = Some q -> res_of q = Some r -> value_of r = Some v ->
        made (ty a) (vars a) (innocent h) a v \/ knows (cur (views A T));
      p_pend : forall T o, pending (h0 ++ e0 :: h) T = Some (a, o) -> In (ECall T a o) (innocent h) \/ T = t1;
      p_own : quiet h -> forall u g, mem_of A (Ac x) u = Some g -> u = 0 \/ (u = ts /\ mval g = d) }.
    Lemma innocent_app h e : innocent (h ++ e) = innocent h ++ filter (fun e => negb (calls t1 e)) e.
    Proof. unfold innocent. now rewrite filter_app, app_assoc. Qed.
    Lemma pub2_step e0 h A l A' e : Pub2 e0 h A -> astep A l = Some (A', e) -> Pub2 e0 (h ++ e) A'.
    Proof.
      intros [B KT M R PE OW] S. pose proof (base_step _ _ _ _ _ B S) as B'. apply step_kind in S as (T & K & O).
      pose proof (b_conf _ _ B T) as BC. destruct (b_closed _ _ B) as [CW CT].
      destruct (kind_tle _ _ _ _ K CW (CT T)) as (_ & _ & _ & TLE & _).
      pose proof (kind_pending _ _ _ _ _ B K) as KP.
      assert (RW : h0 ++ e0 :: (h ++ e) = (h0 ++ e0 :: h) ++ e) by (now rewrite <- app_assoc).
      assert (UP : forall v, made (ty a) (vars a) (innocent h) a v -> made (ty a) (vars a) (innocent (h ++ e)) a v).
      { intros v H. rewrite innocent_app. now apply made_app. }
      assert (KV : forall T', knows (cur (views A T')) -> knows (cur (views A' T'))).
      { intros T' H. destruct (Nat.eq_dec T' T) as [->|N]; [specialize (TLE (Ac x)); lia|]. destruct (O T' N) as [-> _]. exact H. }
      constructor; rewrite ?RW.
      - exact B'.
      - auto.
      - intros u g E. destruct (step_mem _ _ _ _ _ _ _ K E) as [E0|(Ee & o & C & LV & VL & _)]; [destruct (M _ _ E0); auto|].
        rewrite C in BC. destruct (PE _ _ BC) as [I| ->]; [|right; specialize (VL (Ac x)); lia].
        destruct o; cbn in LV.
        + easy.
        + left. apply UP. rewrite LV. eapply made_store; eauto.
        + destruct LV as (u' & g' & Eg & LV & VV). destruct (M _ _ Eg) as [MG|KG].
          * left. apply UP. rewrite LV. eapply made_rmw; eauto.
          * right. specialize (VV (Ac x)). lia.
        + left. apply UP. rewrite LV. eapply made_cas; eauto.
      - intros T' o q r v Q C Rq V. destruct (Nat.eq_dec T' T) as [->|N].
        + destruct (step_res _ _ _ _ _ _ _ K C Rq V) as (Ee & [(q0 & C0 & R0)|(b & o' & u & g & C0 & Ed & -> & VL)]); subst e; rewrite app_nil_r in *.
          * destruct (R _ _ _ _ _ Q C0 R0 V); auto.
          * rewrite C0 in BC. rewrite BC in Q. injection Q as -> ->. destruct (M _ _ Ed) as [MG|KG]; auto. right. specialize (VL (Ac x)). lia.
        + destruct (O T' N) as [EV C']. rewrite C' in C. rewrite (KP T' N) in Q. rewrite EV. destruct (R _ _ _ _ _ Q C Rq V); auto.
      - intros T' o Q.
        assert (OLD : pending (h0 ++ e0 :: h) T' = Some (a, o) -> In (ECall T' a o) (innocent (h ++ e)) \/ T' = t1).
        { intros Q'. destruct (PE _ _ Q'); auto. left. rewrite innocent_app. apply in_or_app. auto. }
        destruct (Nat.eq_dec T' T) as [->|N]; [|rewrite (KP T' N) in Q; auto].
        destruct K; rewrite ?app_nil_r in *; auto.
        + rewrite pending_app in Q. cbn in Q. rewrite upd_same in Q. injection Q as -> ->. rewrite innocent_app. cbn.
          destruct (Nat.eqb_spec T t1); auto. left. apply in_or_app. right. now left.
        + rewrite pending_app in Q. cbn in Q. now rewrite upd_same in Q.
        + rewrite pending_app in Q. cbn in Q. auto.
      - intros Q u g E. apply Forall_app in Q as [Q Qe].
        destruct (step_own_mem _ _ _ _ _ _ _ K E) as [E0|(y & v & -> & W)]; [eapply OW; eauto|].
        inversion Qe. congruence.
    Qed.
  End Publish.

  Lemma run_inv2 (I : hist -> wst aloc sconf -> Prop) ls A A' h' : (forall h A l A' e, I h A -> astep A l = Some (A', e) -> I (h ++ e) A') ->
    I [] A -> arun A ls = Some (A', h') -> I h' A'.
  Proof. intros St H R. exact (inv_run I St ls [] A A' h' H R). Qed.
  Lemma pend_fold h1 h2 : pending (h1 ++ h2) = fold_left pend1 h2 (pending h1).
  Proof. apply fold_left_app. Qed.

  (** [t1] writes [d] to its location [x]; [t2] obtains from [a] a value that no calls but those of [t1] after
      that write can have produced; then [t2] reads [x] and gets [d]. *)
  Theorem native_publishes ls A t1 x d rl n t2 a o r v aq w h0 h1 h2 h3 :
    arun (s_init vars own) ls = Some (A, h0 ++ EOwn t1 (Store x d rl) n :: h1 ++ ERet t2 r :: h2 ++ EOwn t2 (Load x aq) w :: h3) ->
    pending (h0 ++ EOwn t1 (Store x d rl) n :: h1) t2 = Some (a, o) -> value_of r = Some v ->
    ~ made (ty a) (vars a) (h0 ++ filter (fun e => negb (calls t1 e)) h1) a v ->
    Forall (fun e => writes_own x e = false) (h0 ++ h1 ++ h2) -> w = d.
  Proof.
    intros R PD V NM Q. apply Forall_app in Q as [Q0 Q]. apply Forall_app in Q as [Q1 Q2].
    apply run_split in R as (l1 & l2 & A1 & R1 & R2).
    assert (I1 : Pub1 x h0 A1).
    { eapply (run_inv2 (Pub1 x)); [apply pub1_step| |exact R1]. split; [apply made_init_ok|]. intros _ u g. cbn. destruct (Z.eqb_spec u 0); easy. }
    apply run_event in R2 as (l2a & l2b & lab & A2 & A3 & R2 & S2 & R3).
    assert (I2 : Pub1 x h0 A2).
    { assert (Hx : Pub1 x (h0 ++ []) A2) by (eapply (inv_run (Pub1 x)); [apply pub1_step|exact I1|exact R2]). now rewrite app_nil_r in Hx. }
    (* the write *)
    set (e0 := EOwn t1 (Store x d rl) n) in *.
    assert (I3 : exists ts, 0 < ts /\ Pub2 t1 a x d h0 ts e0 [] A3).
    { destruct I2 as [M2 O2]. specialize (O2 Q0). pose proof (made_step _ _ _ _ _ M2 S2) as M3. pose proof (m_base _ _ M2) as B2.
      apply step_kind in S2 as (T & K & O). inversion K; subst. unfold e0 in *. 
      match goal with H : perform _ _ ?ts _ _ = _ |- _ => rename H into P; cbn [map_act] in P; set (tt := ts) in * end.
      pose proof (own_mem (Store x d rl) a tt _ _ _ _ _ P) as OM.
      apply store_inv in P as (P1 & P2 & P3 & P4). exists tt.
      assert (Z0 : cur (views A2 t1) (Ac x) = 0).
      { destruct (b_closed _ _ B2) as [_ CT]. destruct (CT t1) as ((CC & _) & _). destruct (CC (Ac x)) as [g Eg]. eapply O2; eauto. }
      rewrite Z0 in P2. split; [exact P2|].
      constructor.
      - exact (m_base _ _ M3).
      - rewrite P4. cbn. unfold vset. cbn. rewrite Z.eqb_refl. lia.
      - intros u g E. rewrite OM in E. left. unfold innocent. cbn. rewrite app_nil_r. now apply (m_mem _ _ M2 a u).
      - intros T o' q r' v' PQ C Rq V'. left. unfold innocent. cbn. rewrite app_nil_r.
        rewrite pending_app in PQ. cbn in PQ.
        destruct (Nat.eq_dec T t1) as [->|N]; [congruence|]. destruct (O T N) as [_ C']. rewrite C' in C. exact (m_res _ _ M2 _ _ _ _ _ _ PQ C Rq V').
      - intros T o' PQ. rewrite pending_app in PQ. cbn in PQ. left. unfold innocent. cbn. rewrite app_nil_r. now apply (b_called _ _ B2).
      - intros _ u g E. rewrite P3 in E. cbn [wmem] in E. apply mset_inv in E as [(_ & -> & ->)|E]; [right; auto| |apply aloc_spec]. left. eapply O2; eauto. }
    destruct I3 as (ts & TS & I3).
    apply run_split in R3 as (l3 & l4 & A4 & R3 & R4).
    assert (I4 : Pub2 t1 a x d h0 ts e0 h1 A4) by (eapply (run_inv2 (Pub2 t1 a x d h0 ts e0)); [apply pub2_step|exact I3|exact R3]).
    apply run_event in R4 as (l4a & l4b & lab4 & A5 & A6 & R4 & S4 & R5).
    assert (I5 : Pub2 t1 a x d h0 ts e0 h1 A5).
    { assert (Hx : Pub2 t1 a x d h0 ts e0 (h1 ++ []) A5) by (eapply (inv_run (Pub2 t1 a x d h0 ts e0)); [apply pub2_step|exact I4|exact R4]). now rewrite app_nil_r in Hx. }
    (* the answer *)
    pose proof (pub2_step _ _ _ _ _ _ _ _ _ _ _ _ I5 S4) as I6.
    assert (KN : ts <= cur (views A6 t2) (Ac x)).
    { apply step_kind in S4 as (T & K & O). inversion K; subst.
      match goal with H : views A6 t2 = _ |- _ => rewrite H end.
      match goal with H : confs A5 t2 = _ |- _ => destruct (p_res _ _ _ _ _ _ _ _ _ I5 _ _ _ _ _ PD H eq_refl V) as [HM|HK] end; [easy|exact HK]. }
    apply run_split in R5 as (l5 & l6 & A7 & R5 & R6).
    set (I := fun h A => (exists h', h' = (h1 ++ [ERet t2 r]) ++ h /\ Pub2 t1 a x d h0 ts e0 h' A) /\ ts <= cur (views A t2) (Ac x)).
    assert (IS : forall h A l A' e, I h A -> astep A l = Some (A', e) -> I (h ++ e) A').
    { intros h A0 l A' e ((h' & -> & P) & K) S. split.
      - exists ((h1 ++ [ERet t2 r]) ++ h ++ e). split; [reflexivity|]. rewrite (app_assoc (h1 ++ _)). eapply pub2_step; eauto.
      - destruct (p_base _ _ _ _ _ _ _ _ _ P) as [_ _ (CW & CT)]. apply step_kind in S as (T & KK & O).
        destruct (kind_tle _ _ _ _ KK CW (CT T)) as (_ & _ & _ & TLE & _).
        destruct (Nat.eq_dec t2 T) as [->|N]; [specialize (TLE (Ac x)); lia|]. destruct (O t2 N) as [-> _]. exact K. }
    assert (I7 : I h2 A7).
    { apply (run_inv2 I _ _ _ _ IS) in R5; auto. split; [|exact KN]. eexists. split; [reflexivity|]. now rewrite app_nil_r. }
    apply run_event in R6 as (l6a & l6b & lab6 & A8 & A9 & R6 & S6 & _).
    assert (I8 : I h2 A8). { apply (inv_run I IS _ h2) in R6; auto. now rewrite app_nil_r in R6. }
    destruct I8 as ((h' & -> & P8) & K8).
    apply step_kind in S6 as (T & K & O). inversion K; subst.
    match goal with H : perform _ _ _ _ _ = _ |- _ => cbn [map_act] in H; apply load_inv in H as (g & Eg & L1 & -> & _ & _) end.
    apply (p_own _ _ _ _ _ _ _ _ _ P8) in Eg as [->|(-> & ->)]; [lia|reflexivity|].
    unfold quiet. rewrite !Forall_app. auto.
  Qed.

  (** *** read-modify-writes are not lost *)
  Section Counter.
    Variables (a : Z) (r : rmw).
    Definition only_rmw (h : hist) : Prop := forall T o, In (ECall T a o) h -> is_load_call o = true \/ exists ord, o = ORmw r ord.
    Definition nth_value (i : nat) : Z := Nat.iter i (spec_rmw (ty a) r) (vars a).
    Local Notation log := (rmw_values (fun _ => None) a).
    Lemma rmw_values_app h : forall f h', rmw_values f a (h ++ h') = rmw_values f a h ++ rmw_values (fold_left pend1 h f) a h'.
    Proof. induction h as [|e h IH]; intros f h'; [reflexivity|]. cbn [app rmw_values fold_left]. now rewrite IH, app_assoc. Qed.
    Definition owes (h : hist) (A : wst aloc sconf) (T : nat) (v : Z) : Prop :=
      exists q ord, confs A T = Some q /\ res_of q = Some (RVal v) /\ pending h T = Some (a, ORmw r ord).
    Definition Cnt (h : hist) (A : wst aloc sconf) : Prop := Base h A /\ (only_rmw h -> exists n P,
      (forall t g, mem_of A (Ad a) t = Some g -> 0 <= t <= Z.of_nat n /\ mval g = nth_value (Z.to_nat t)) /\
      (forall i, (i <= n)%nat -> mem_of A (Ad a) (Z.of_nat i) <> None) /\
      NoDup (map fst P) /\ (forall T v, In (T, v) P <-> owes h A T v) /\
      Permutation (log h ++ map snd P) (map nth_value (seq 0 n))).
    Lemma cnt_init : Cnt [] (s_init vars own).
    Proof.
      split; [apply base_init|]. intros _. exists 0%nat, []. repeat split; cbn; try constructor; try easy.
      - cbn in H. destruct (Z.eqb_spec t 0); [|easy]. lia.
      - cbn in H. destruct (Z.eqb_spec t 0); [|easy]. lia.
      - cbn in H. destruct (Z.eqb_spec t 0); [subst|easy]. injection H as <-. reflexivity.
      - intros i Hi. now replace i with 0%nat by lia.
      - intros (q & ord & E & _). cbn in E. easy.
    Qed.
    Lemma cnt_step h A l A' e : Cnt h A -> astep A l = Some (A', e) -> Cnt (h ++ e) A'.
    Proof.
      intros [B IH] S. pose proof (base_step _ _ _ _ _ B S) as B'. split; [exact B'|]. intros OK.
      assert (OK0 : only_rmw h) by (intros T o I; apply (OK T o), in_or_app; auto).
      destruct (IH OK0) as (n & P & M1 & M2 & ND & OW & PM). clear IH.
      apply step_kind in S as (T & K & O). pose proof (kind_pending _ _ _ _ _ B K) as KP. pose proof (b_conf _ _ B T) as BC.
      assert (OTHER : forall T' v, T' <> T -> owes (h ++ e) A' T' v <-> owes h A T' v).
      { intros T' v N. unfold owes. destruct (O T' N) as [_ ->]. now rewrite (KP T' N). }
      assert (SAME : forall (P0 : Prop), log (h ++ e) = log h -> (forall t, mem_of A' (Ad a) t = mem_of A (Ad a) t) -> (forall v, owes (h ++ e) A' T v <-> owes h A T v) -> exists n P,
        (forall t g, mem_of A' (Ad a) t = Some g -> 0 <= t <= Z.of_nat n /\ mval g = nth_value (Z.to_nat t)) /\
        (forall i, (i <= n)%nat -> mem_of A' (Ad a) (Z.of_nat i) <> None) /\
        NoDup (map fst P) /\ (forall T v, In (T, v) P <-> owes (h ++ e) A' T v) /\
        Permutation (log (h ++ e) ++ map snd P) (map nth_value (seq 0 n))).
      { intros _ EL EM EO. exists n, P. rewrite EL. split; [intros t g; rewrite EM; apply M1|]. split; [intros i; rewrite EM; apply M2|]. split; [exact ND|]. split; [|exact PM].
        intros T' v. rewrite OW. destruct (Nat.eq_dec T' T) as [->|N]; [symmetry; apply EO|symmetry; now apply OTHER]. }
      specialize (SAME True).
      destruct K as [b o A' E1 Ob EW EV E2|r0 A' E1 EW EV E2|b o A' k v E1 E2 PF|r0 A' k v E1 E2 PF|b ord A' k v E1 E2 PF|b x ord A' k v E1 E2 PF|b r0 ord A' k v E1 E2 PF|b x y su fa A' k v E1 E2 PF|x A' k v E1 E2 PF].
      - apply SAME.
        + rewrite rmw_values_app. cbn. now rewrite app_nil_r.
        + intros t. now rewrite EW.
        + intros v. unfold owes. rewrite E1, E2. split; [|intros (q & od & C & _); easy]. intros (q & od & C & Rq & _). injection C as <-.
          destruct (panics o); [easy|]. now destruct (asks_sc o).
      - rewrite E1 in BC. destruct BC as [[b o] BC].
        assert (EL : log (h ++ [ERet T r0]) = log h ++ match r0, o with RVal v, ORmw _ _ => if b =? a then [v] else [] | _, _ => [] end).
        { rewrite rmw_values_app. f_equal. cbn. fold (pending h). rewrite BC, app_nil_r. destruct r0; auto. }
        assert (NO : forall v, ~ owes (h ++ [ERet T r0]) A' T v) by (intros v (q & od & C & _); congruence).
        destruct (match r0, o with RVal v, ORmw _ _ => b =? a | _, _ => false end) eqn:D.
        + destruct r0 as [v| | | |]; try easy. destruct o as [| |r' od|]; try easy. apply Z.eqb_eq in D as ->.
          assert (r' = r) as ->. { apply (b_called _ _ B) in BC. destruct (OK0 _ _ BC) as [|(od' & [= -> ->])]; easy. }
          assert (IN : In (T, v) P) by (apply OW; exists (SRet (RVal v)), od; auto).
          apply in_split in IN as (P1 & P2 & ->). exists n, (P1 ++ P2). split; [now rewrite EW|]. split; [now rewrite EW|]. rewrite !map_app in *. cbn [map fst snd] in *.
          assert (NI : ~ In T (map fst P1 ++ map fst P2)) by (now apply NoDup_remove_2 in ND).
          split; [now apply NoDup_remove_1 in ND|]. split.
          * intros T' v'. destruct (Nat.eq_dec T' T) as [->|N].
            -- split; [|intros H; now apply NO in H]. intros H. exfalso. apply NI. rewrite <- map_app. change T with (fst (T, v')). now apply in_map.
            -- rewrite OTHER by exact N. rewrite <- OW. rewrite !in_app_iff. cbn. split; [tauto|]. intros [H|[H|H]]; auto. congruence.
          * rewrite EL, Z.eqb_refl. rewrite <- PM. rewrite <- app_assoc. apply Permutation_app_head. cbn. apply Permutation_middle.
        + apply SAME.
          * rewrite EL. destruct r0, o; rewrite ?D, ?app_nil_r; auto.
          * intros t. now rewrite EW.
          * intros v. split; [intros H; now apply NO in H|]. intros (q & od & C & Rq & Q). rewrite E1 in C. injection C as <-. cbn in Rq. injection Rq as ->. rewrite BC in Q. injection Q as -> ->.
            rewrite Z.eqb_refl in D. easy.
      - apply SAME; rewrite ?app_nil_r; auto.
        + intros t. cbn in PF. injection PF as _ PW _. now rewrite <- PW.
        + intros v'. unfold owes. rewrite E1, E2. split; intros (q & od & C & Rq & _); injection C as <-; easy.
      - apply SAME; rewrite ?app_nil_r; auto.
        + intros t. cbn in PF. injection PF as _ PW _. now rewrite <- PW.
        + intros v'. unfold owes. rewrite E1, E2. split; intros (q & od & C & Rq & Q); injection C as <-; (eexists; exists od; split; [reflexivity|]; auto).
      - apply SAME; rewrite ?app_nil_r; auto.
        + intros t. apply load_inv in PF as (d & _ & _ & _ & PW & _). now rewrite PW.
        + intros v'. unfold owes. rewrite E1, E2. rewrite E1 in BC. rewrite BC. split; [intros (q & od & _ & _ & Q); easy|]. intros (q & od & _ & _ & Q). easy.
      - rewrite E1 in BC. apply SAME; rewrite ?app_nil_r; auto.
        + intros t. apply store_inv in PF as (_ & _ & PW & _). rewrite PW. cbn [wmem]. apply mset_loc; [apply aloc_spec|]. intros Q; injection Q as Q; rewrite <- Q in BC.
          apply (b_called _ _ B) in BC. destruct (OK0 _ _ BC) as [|(? & ?)]; easy.
        + intros v'. unfold owes. rewrite E1, E2. rewrite BC. split; intros (q & od & _ & _ & Q); easy.
      - rewrite E1 in BC. destruct (Z.eq_dec b a) as [->|NB].
        + assert (r0 = r) as ->. { apply (b_called _ _ B) in BC. destruct (OK0 _ _ BC) as [|(od' & [= -> ->])]; easy. }
          apply rmw_inv in PF as (d & Ed & _ & -> & FR & PW & _).
          destruct (M1 _ _ Ed) as [KR VD].
          assert (KN : k = Z.of_nat n).
          { destruct (Z.eq_dec k (Z.of_nat n)) as [|NE]; [easy|]. exfalso. apply (M2 (Z.to_nat (k + 1))); [lia|]. rewrite Z2Nat.id by lia. exact FR. }
          subst k. rewrite Nat2Z.id in VD. exists (S n), (P ++ [(T, mval d)]). rewrite PW. cbn [wmem]. rewrite app_nil_r in *.
          assert (NT : forall v, ~ owes h A T v) by (intros v (q & od & C & Rq & _); rewrite E1 in C; injection C as <-; easy).
          split; [|split; [|split; [|split]]].
          * intros t g E. apply mset_inv in E as [(_ & -> & ->)|E]; [| |apply aloc_spec].
            -- cbn [mval]. split; [lia|]. rewrite VD. replace (Z.to_nat (Z.of_nat n + 1)) with (S n) by lia. reflexivity.
            -- destruct (M1 _ _ E). split; [lia|easy].
          * intros i Hi. destruct (Nat.eq_dec i (S n)) as [->|NE].
            -- replace (Z.of_nat (S n)) with (Z.of_nat n + 1) by lia. rewrite mset_same; [easy|apply aloc_spec].
            -- rewrite mset_ts by lia. apply M2. lia.
          * rewrite map_app. cbn. apply (Permutation_NoDup (l := T :: map fst P)); [apply Permutation_cons_append|]. constructor; [|exact ND].
            intros H. apply in_map_iff in H as ([T' v] & Q & I). cbn in Q. subst. apply OW in I. now apply NT in I.
          * intros T' v'. rewrite in_app_iff. destruct (Nat.eq_dec T' T) as [->|N].
            -- split.
               ++ intros [H|[H|[]]]; [apply OW in H; now apply NT in H|]. injection H as <-. exists (s_finish (ORmw r ord) (RVal (mval d))), ord. rewrite res_finish. auto.
               ++ intros (q & od & C & Rq & _). rewrite E2 in C. injection C as <-. rewrite res_finish in Rq. injection Rq as <-. right. now left.
            -- rewrite OTHER by exact N. rewrite <- OW. cbn. split; [|auto]. intros [H|[H|[]]]; auto. congruence.
          * rewrite map_app, app_assoc, seq_S, map_app. cbn. rewrite VD. now apply Permutation_app_tail.
        + apply SAME; rewrite ?app_nil_r; auto.
          * intros t. apply rmw_inv in PF as (d & _ & _ & _ & _ & PW & _). rewrite PW. cbn [wmem]. apply mset_loc; [apply aloc_spec|]. congruence.
          * intros v'. unfold owes. rewrite BC. split; intros (q & od & _ & _ & Q); congruence.
      - rewrite E1 in BC. apply SAME; rewrite ?app_nil_r; auto.
        + intros t. apply rmw_inv in PF as (d & Ed & _ & _ & PF). destruct (mval d =? x); [destruct PF as (_ & PW & _)|destruct PF as (PW & _)]; rewrite PW; [|reflexivity].
          cbn [wmem]. apply mset_loc; [apply aloc_spec|]. intros Q; injection Q as Q; rewrite <- Q in BC.
          apply (b_called _ _ B) in BC. destruct (OK0 _ _ BC) as [|(? & ?)]; easy.
        + intros v'. unfold owes. rewrite BC. split; intros (q & od & _ & _ & Q); easy.
      - apply SAME.
        + rewrite rmw_values_app. cbn. now rewrite app_nil_r.
        + intros t. eapply own_mem; eauto.
        + intros v'. unfold owes. rewrite E1, E2. split; intros (q & od & C & _); easy.
    Qed.
    Theorem native_counter ls A h : arun (s_init vars own) ls = Some (A, h) -> only_rmw h -> (forall T o, pending h T <> Some (a, o)) ->
      Permutation (log h) (map nth_value (seq 0 (length (log h)))).
    Proof.
      intros R OK NP. destruct (run_inv2 Cnt _ _ _ _ cnt_step cnt_init R) as [B I]. destruct (I OK) as (n & P & _ & _ & _ & OW & PM).
      assert (P = []) as ->. { destruct P as [|[T v] P]; [easy|]. destruct (proj1 (OW T v) (or_introl eq_refl)) as (q & od & _ & _ & Q). now apply NP in Q. }
      cbn in PM. rewrite app_nil_r in PM. pose proof (Permutation_length PM) as L. rewrite map_length, seq_length in L. now rewrite L.
    Qed.
  End Counter.

  (** *** SeqCst *)
  Section Sc.
    Variable a : Z.
    Local Notation fresh := (only_stores_but (vars a) a).
    Record Sc (h : hist) (A : wst aloc sconf) : Prop := {
      s_base : Base h A;
      s_mem : fresh h -> forall t g, mem_of A (Ad a) t = Some g -> (t = 0 \/ 0 < t /\ mval g <> vars a);
      s_done : forall T w, pending h T = Some (a, OStore w SeqCst) ->
        match confs A T with
        | Some (SEnd _) => 0 < cur (views A T) (Ad a)
        | Some (SRet _) => 0 < wsc (world_of A) (Ad a)
        | _ => True
        end }.
    Lemma step_wsc A T A' e : kind A T A' e -> vle (wsc (world_of A)) (wsc (world_of A')).
    Proof.
      intros K. destruct K as [b o A' E1 Ob EW EV E2|r A' E1 EW EV E2|b o A' n v E1 E2 P|r A' n v E1 E2 P|b ord A' n v E1 E2 P|b k ord A' n v E1 E2 P|b r ord A' n v E1 E2 P|b k y su fa A' n v E1 E2 P|y A' n v E1 E2 P].
      - rewrite EW. apply vle_refl.
      - rewrite EW. apply vle_refl.
      - cbn in P. injection P as _ PW _. rewrite <- PW. cbn. apply vjoin_r.
      - cbn in P. injection P as _ PW _. rewrite <- PW. cbn. apply vjoin_r.
      - apply load_inv in P as (d & _ & _ & _ & PW & _). rewrite PW. apply vle_refl.
      - apply store_inv in P as (_ & _ & PW & _). rewrite PW. apply vle_refl.
      - apply rmw_inv in P as (d & Ed & _ & _ & _ & PW & _). rewrite PW. apply vle_refl.
      - apply rmw_inv in P as (d & Ed & _ & _ & P). destruct (mval d =? k); [destruct P as (_ & PW & _)|destruct P as (PW & _)]; rewrite PW; apply vle_refl.
      - destruct y as [z aq|z k rl|z f aq rl|f]; cbn [map_act] in P.
        + apply load_inv in P as (d & _ & _ & _ & PW & _). rewrite PW. apply vle_refl.
        + apply store_inv in P as (_ & _ & PW & _). rewrite PW. apply vle_refl.
        + apply rmw_inv in P as (d & _ & _ & _ & P). destruct (f (mval d)); [destruct P as (_ & PW & _)|destruct P as (PW & _)]; rewrite PW; apply vle_refl.
        + destruct f; cbn in P; injection P as _ PW _; rewrite <- PW; try apply vle_refl. cbn. apply vjoin_r.
    Qed.
    Lemma sc_init : Sc [] (s_init vars own).
    Proof.
      constructor; [apply base_init| |easy]. intros _ t g. cbn. destruct (Z.eqb_spec t 0); [auto|easy].
    Qed.
    Lemma closed_nonneg h A T : Sc h A -> fresh h -> 0 <= cur (views A T) (Ad a).
    Proof.
      intros [B M _] F. destruct (b_closed _ _ B) as [_ CT]. destruct (CT T) as ((CC & _) & _). destruct (CC (Ad a)) as [g Eg].
      apply (M F) in Eg. lia.
    Qed.
    Lemma sc_step h A l A' e : (fresh h -> Sc h A) -> astep A l = Some (A', e) -> (fresh (h ++ e) -> Sc (h ++ e) A').
    Proof.
      intros I S F. assert (F0 : fresh h) by (intros t o H; apply (F t o), in_or_app; auto). specialize (I F0).
      assert (NN : forall T, 0 <= cur (views A T) (Ad a)) by (intros; eapply closed_nonneg; eauto).
      destruct I as [B M D]. pose proof (base_step _ _ _ _ _ B S) as B'. apply step_kind in S as (T & K & O).
      pose proof (b_conf _ _ B T) as BC. pose proof (kind_pending _ _ _ _ _ B K) as KP. pose proof (step_wsc _ _ _ _ K (Ad a)) as WS.
      constructor; [exact B'| |].
      - intros _ t g E. destruct (step_mem _ _ _ _ _ _ _ K E) as [E0|(Ee & o & C & LV & VL & LT)]; [now apply (M F0)|].
        rewrite C in BC. apply (b_called _ _ B) in BC. apply F0 in BC. destruct o; try easy. cbn in LV. right. specialize (NN T). split; [lia|congruence].
      - intros T' w Q. destruct (Nat.eq_dec T' T) as [->|N].
        + destruct K as [b o A' E1 Ob EW EV E2|r A' E1 EW EV E2|b o A' n v E1 E2 P|r A' n v E1 E2 P|b ord A' n v E1 E2 P|b k ord A' n v E1 E2 P|b r ord A' n v E1 E2 P|b k y su fa A' n v E1 E2 P|y A' n v E1 E2 P];
            rewrite E2; rewrite ?app_nil_r in Q; try exact I.
          * rewrite pending_app in Q. cbn in Q. rewrite upd_same in Q. injection Q as -> ->. exact I.
          * specialize (D _ _ Q). rewrite E1 in D. cbn in P. injection P as _ PW _. rewrite <- PW. cbn. unfold vjoin. lia.
          * rewrite E1 in BC. congruence.
          * rewrite E1 in BC. rewrite BC in Q. injection Q as -> -> ->. cbn. apply store_inv in P as (_ & LT & _ & PV). rewrite PV. cbn. unfold vset. cbn. rewrite Z.eqb_refl.
            specialize (NN T). lia.
          * rewrite E1 in BC. congruence.
          * rewrite E1 in BC. congruence.
        + destruct (O T' N) as [EV EC]. rewrite EV, EC. rewrite (KP T' N) in Q. specialize (D _ _ Q). destruct (confs A T') as [[| | |]|]; auto. lia.
    Qed.
    (** a SeqCst store has returned; [t2] is in a later SeqCst load *)
    Variable t2 : nat.
    Definition Sc1 (h0 h : hist) (A : wst aloc sconf) : Prop := fresh (h0 ++ h) -> Sc (h0 ++ h) A /\ 0 < wsc (world_of A) (Ad a).
    Lemma sc1_step h0 h A l A' e : Sc1 h0 h A -> astep A l = Some (A', e) -> Sc1 h0 (h ++ e) A'.
    Proof.
      intros I S F. rewrite app_assoc in *. assert (F0 : fresh (h0 ++ h)) by (intros t o H; apply (F t o), in_or_app; auto).
      destruct (I F0) as [I1 I2]. split; [eapply sc_step; eauto|]. apply step_kind in S as (T & K & _). pose proof (step_wsc _ _ _ _ K (Ad a)). lia.
    Qed.
    Definition Sc2 (h0 h : hist) (A : wst aloc sconf) : Prop := fresh (h0 ++ h) -> Forall (fun e => calls t2 e = false) h ->
      Sc (h0 ++ h) A /\ 0 < wsc (world_of A) (Ad a) /\
      match confs A t2 with
      | Some (SBegin b o) => b = a /\ o = OLoad SeqCst
      | Some (SDo b o) => b = a /\ o = OLoad SeqCst /\ 0 < cur (views A t2) (Ad a)
      | Some (SEnd r) | Some (SRet r) => exists v, r = RVal v /\ v <> vars a
      | None => True
      end.
    Lemma sc2_step h0 h A l A' e : Sc2 h0 h A -> astep A l = Some (A', e) -> Sc2 h0 (h ++ e) A'.
    Proof.
      intros IH S F NC. rewrite app_assoc in *. assert (F0 : fresh (h0 ++ h)) by (intros t o H; apply (F t o), in_or_app; auto).
      apply Forall_app in NC as [NC NE].
      destruct (IH F0 NC) as (I1 & I2 & I3). split; [eapply sc_step; eauto|]. apply step_kind in S as (T & K & O). pose proof (step_wsc _ _ _ _ K (Ad a)).
      split; [lia|]. destruct (Nat.eq_dec t2 T) as [<-|N]; [|destruct (O t2 N) as [-> ->]; exact I3].
      destruct K as [b o A' E1 Ob EW EV E2|r A' E1 EW EV E2|b o A' n v E1 E2 P|r A' n v E1 E2 P|b ord A' n v E1 E2 P|b k ord A' n v E1 E2 P|b r ord A' n v E1 E2 P|b k y su fa A' n v E1 E2 P|y A' n v E1 E2 P];
            rewrite E2; rewrite E1 in I3; try exact I.
      - inversion NE. cbn in *. rewrite Nat.eqb_refl in *. easy.
      - destruct I3 as [-> ->]. repeat split; auto. cbn in P. injection P as _ _ PV. rewrite <- PV. cbn. unfold vjoin. lia.
      - exact I3.
      - destruct I3 as (-> & [= ->] & I3). cbn. exists v. split; [reflexivity|]. apply load_inv in P as (d & Ed & LT & -> & _ & _).
        apply (s_mem _ _ I1 F0) in Ed. destruct Ed as [->|[_ ?]]; [lia|easy].
      - destruct I3 as (_ & ? & _). easy.
      - destruct I3 as (_ & ? & _). easy.
      - destruct I3 as (_ & ? & _). easy.
    Qed.
    Theorem native_sc_visible ls A t1 w h0 h1 h2 r h3 h :
      arun (s_init vars own) ls = Some (A, h) ->
      h = h0 ++ ERet t1 RUnit :: h1 ++ ECall t2 a (OLoad SeqCst) :: h2 ++ ERet t2 (RVal r) :: h3 ->
      pending h0 t1 = Some (a, OStore w SeqCst) -> Forall (fun e => calls t2 e = false) h2 -> fresh h -> r <> vars a.
    Proof.
      intros R Eh PD NC F.
      assert (SUB : forall k k', h = k ++ k' -> fresh k) by (intros k k' -> t o H; apply (F t o), in_or_app; auto).
      rewrite Eh in R. apply run_split in R as (l1 & l2 & A1 & R1 & R2).
      assert (I1 : fresh h0 -> Sc h0 A1). { eapply (run_inv2 (fun h A => fresh h -> Sc h A)); [apply sc_step| |exact R1]. intros _. apply sc_init. }
      apply run_event in R2 as (l2a & l2b & lab & A2 & A3 & R2 & S2 & R3).
      assert (I2 : fresh h0 -> Sc h0 A2).
      { assert (Hx : fresh (h0 ++ []) -> Sc (h0 ++ []) A2) by (eapply (inv_run (fun h A => fresh h -> Sc h A)); [apply sc_step|exact I1|exact R2]). now rewrite app_nil_r in Hx. }
      set (g0 := h0 ++ [ERet t1 RUnit]). assert (F0 : fresh h0) by (eapply SUB; exact Eh).
      assert (I3 : Sc1 g0 [] A3).
      { intros Fg. rewrite app_nil_r in *. pose proof (sc_step _ _ _ _ _ I2 S2 Fg) as I3. split; [exact I3|].
        pose proof (s_done _ _ (I2 F0) _ _ PD) as D. apply step_kind in S2 as (T & K & _). inversion K; subst.
        match goal with H : confs A2 t1 = _ |- _ => rewrite H in D end.
        match goal with H : world_of A3 = _ |- _ => rewrite H end. exact D. }
      apply run_split in R3 as (l3 & l4 & A4 & R3 & R4).
      assert (I4 : Sc1 g0 h1 A4) by (eapply (run_inv2 (Sc1 g0)); [apply sc1_step|exact I3|exact R3]).
      apply run_event in R4 as (l4a & l4b & lab4 & A5 & A6 & R4 & S4 & R5).
      assert (I5 : Sc1 g0 h1 A5).
      { assert (Hx : Sc1 g0 (h1 ++ []) A5) by (eapply (inv_run (Sc1 g0)); [apply sc1_step|exact I4|exact R4]). now rewrite app_nil_r in Hx. }
      set (g1 := g0 ++ h1 ++ [ECall t2 a (OLoad SeqCst)]).
      assert (I6 : Sc2 g1 [] A6).
      { intros Fg _. rewrite app_nil_r in *. pose proof (sc1_step _ _ _ _ _ _ I5 S4) as I6.
        destruct (I6 Fg) as [I6a I6b]. split; [exact I6a|]. split; [exact I6b|].
        apply step_kind in S4 as (T & K & _). inversion K; subst.
        match goal with H : confs A6 t2 = _ |- _ => rewrite H end. cbn. auto. }
      apply run_split in R5 as (l5 & l6 & A7 & R5 & R6).
      assert (I7 : Sc2 g1 h2 A7) by (eapply (run_inv2 (Sc2 g1)); [apply sc2_step|exact I6|exact R5]).
      apply run_event in R6 as (l6a & l6b & lab6 & A8 & A9 & R6 & S6 & _).
      assert (I8 : Sc2 g1 h2 A8). { assert (Hx : Sc2 g1 (h2 ++ []) A8) by (eapply (inv_run (Sc2 g1)); [apply sc2_step|exact I7|exact R6]). now rewrite app_nil_r in Hx. }
      assert (Fg : fresh (g1 ++ h2)).
      { apply (SUB _ (ERet t2 (RVal r) :: h3)). unfold g1, g0. rewrite Eh. rewrite <- !app_assoc. reflexivity. }
      destruct (I8 Fg NC) as (_ & _ & I9). apply step_kind in S6 as (T & K & _). inversion K; subst.
      match goal with H : confs A8 t2 = _ |- _ => rewrite H in I9 end. destruct I9 as (v & [= <-] & NV). exact NV.
    Qed.
  End Sc.
  Lemma split_before {X} (h0 k0 : list X) x y h k : h0 ++ x :: h = k0 ++ y :: k -> (length h0 <= length k0)%nat -> (x = y /\ h0 = k0) \/ exists m, k0 = h0 ++ x :: m /\ h = m ++ y :: k.
  Proof.
    revert k0. induction h0 as [|z h0 IH]; intros [|z' k0] E L; cbn in *; try lia.
    - injection E as -> ->. auto.
    - injection E as -> ->. right. exists k0. auto.
    - injection E as -> E. destruct (IH k0 E) as [[-> ->]|(m & -> & ->)]; [lia|auto|]. right. exists m. auto.
  Qed.
  Theorem native_store_buffering ls A h t1 t2 a va b vb ra rb :
    arun (s_init vars own) ls = Some (A, h) -> only_stores_but (vars a) a h -> only_stores_but (vars b) b h ->
    stores_then_loads h t1 a va b rb -> stores_then_loads h t2 b vb a ra -> t1 <> t2 -> ~ (rb = vars b /\ ra = vars a).
  Proof.
    intros R Fa Fb (h0 & h1 & h2 & h3 & Eh & Ph & Nh) (k0 & k1 & k2 & k3 & Ek & Pk & Nk) NE [Hb Ha].
    pose proof (eq_trans (eq_sym Eh) Ek) as EE.
    destruct (Nat.le_ge_cases (length h0) (length k0)) as [L|L].
    - destruct (split_before _ _ _ _ _ _ EE L) as [[[= ->] _]|(m & -> & Em)]; [easy|].
      apply (native_sc_visible a t2 ls A t1 va h0 (m ++ ERet t2 RUnit :: k1) k2 ra k3 h R); auto. rewrite Ek. rewrite <- app_assoc. cbn. now rewrite <- app_assoc.
    - destruct (split_before _ _ _ _ _ _ (eq_sym EE) L) as [[[= ->] _]|(m & -> & Em)]; [easy|].
      apply (native_sc_visible b t1 ls A t2 vb k0 (m ++ ERet t1 RUnit :: h1) h2 rb h3 h R); auto. rewrite Eh. rewrite <- app_assoc. cbn. now rewrite <- app_assoc.
  Qed.
End P.
