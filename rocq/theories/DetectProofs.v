(** * Proofs about DetectModel.v *)
From Coq Require Import ZArith List Bool Lia.
From Verif Require Import Spec OrderingModel DispatchModel DetectModel.
Import ListNotations.
Open Scope Z_scope.

(** ** Flags *)
Lemma cpu_set_spec : forall x b k, 0 <= b -> 0 <= k -> Z.testbit (cpu_set x b) k = Z.testbit x k || (k =? b).
Proof.
  intros x b k Hb Hk. unfold cpu_set. rewrite Z.lor_spec, Z.shiftl_spec by assumption. f_equal.
  destruct (Z.eqb_spec k b) as [->|N].
  - rewrite Z.sub_diag. reflexivity.
  - destruct (Z.lt_trichotomy k b) as [L|[L|L]]; [rewrite Z.testbit_neg_r by lia; reflexivity | lia |].
    destruct (k - b) eqn:E; try lia. cbn. destruct p; reflexivity.
Qed.
Lemma cpu_test_spec : forall x b, 0 <= b -> cpu_test x b = Z.testbit x b.
Proof.
  intros x b Hb. unfold cpu_test. rewrite Z.shiftl_1_l.
  destruct (Z.testbit x b) eqn:E.
  - apply negb_true_iff, Z.eqb_neq. intros Q. assert (Z.testbit (Z.land x (2 ^ b)) b = true).
    { rewrite Z.land_spec, E, Z.pow2_bits_true by assumption. reflexivity. }
    rewrite Q, Z.bits_0 in H. discriminate.
  - apply negb_false_iff, Z.eqb_eq. apply Z.bits_inj'. intros k Hk. rewrite Z.land_spec, Z.bits_0.
    destruct (Z.eq_dec k b) as [->|N]; [rewrite E; reflexivity|]. rewrite Z.pow2_bits_false by lia. apply andb_false_r.
Qed.
Lemma set_if_spec : forall c x b k, 0 <= b -> 0 <= k -> Z.testbit (set_if c b x) k = Z.testbit x k || (c && (k =? b)).
Proof.
  intros [] x b k Hb Hk; cbn [set_if andb]; [apply cpu_set_spec; assumption | now rewrite orb_false_r].
Qed.
Lemma land_pow2 : forall x k, 0 <= k -> negb (Z.land x (Z.shiftl 1 k) =? 0) = Z.testbit x k.
Proof. intros x k Hk. exact (cpu_test_spec x k Hk). Qed.

(** ** The machine *)
Section Detect.
  Variable site : Type.
  Variable fn : Type.
  Variable sel : site -> Z -> fn.
  Variable env : Type.
  Variable _detect : env -> Z -> Z.
  Variable detect_false use_cas : bool.
  Variable site_eqb : site -> site -> bool.
  Hypothesis site_eqb_ok : forall a b, site_eqb a b = true -> a = b.

  (** What [detect()] computes from one answer of the platform. *)
  Definition outcome (e : env) : Z := let i := cpu_set 0 Init in if detect_false then i else _detect e i.
  Hypothesis outcome_nonzero : forall e, outcome e <> 0.

  Notation st := (dstate site fn env).
  Notation dstep := (dstep site fn sel env _detect detect_false use_cas site_eqb).
  Notation drun := (drun site fn sel env _detect detect_false use_cas site_eqb).

  Definition sampled (s : st) (i : Z) : Prop := exists e, In e (d_samples _ _ _ s) /\ i = outcome e.
  Definition known (s : st) (i : Z) : Prop := sampled s i /\ (use_cas = true -> d_cache _ _ _ s = [0; i]).
  Definition phase_ok (s : st) (p : phase site fn) : Prop :=
    match p with
    | Detecting _ _ _ i => i = 0
    | Publish _ _ _ i => sampled s i
    | StoreFunc _ _ x f | Exec _ _ x f => exists i, known s i /\ f = sel x i
    | _ => True
    end.
  Record Inv (s : st) : Prop := mk_Inv {
    inv_cache : forall v, In v (d_cache _ _ _ s) -> v = 0 \/ known s v;
    inv_one : use_cas = true -> d_cache _ _ _ s = [0] \/ exists i, d_cache _ _ _ s = [0; i] /\ i <> 0;
    inv_func : forall x f, In (Some f) (d_func _ _ _ s x) -> exists i, known s i /\ f = sel x i;
    inv_call : forall id, phase_ok s (d_call _ _ _ s id) }.
  Definition event_ok (s : st) (e : devent site fn) : Prop :=
    match e with
    | Executed _ _ _ x f => exists i, known s i /\ f = sel x i
    | Detected _ _ _ i => known s i
    end.
  (** What only grows. *)
  Definition mono (s s' : st) : Prop :=
    (forall e, In e (d_samples _ _ _ s) -> In e (d_samples _ _ _ s')) /\
    (use_cas = true -> forall i, d_cache _ _ _ s = [0; i] -> d_cache _ _ _ s' = [0; i]).
  Lemma mono_refl : forall s, mono s s.
  Proof. split; auto. Qed.
  Lemma mono_trans : forall a b c, mono a b -> mono b c -> mono a c.
  Proof. intros a b c [A B] [C D]. split; auto. Qed.
  Lemma mono_sampled : forall s s' i, mono s s' -> sampled s i -> sampled s' i.
  Proof. intros s s' i [A _] (e & H & E). exists e. auto. Qed.
  Lemma mono_known : forall s s' i, mono s s' -> known s i -> known s' i.
  Proof. intros s s' i M [A B]. split; [eapply mono_sampled; eauto|]. destruct M as [_ M]. auto. Qed.
  Lemma mono_phase : forall s s' p, mono s s' -> phase_ok s p -> phase_ok s' p.
  Proof.
    intros s s' p M. destruct p; cbn; auto; try (intros (i & K & E); exists i; split; auto; eapply mono_known; eauto; fail).
    eapply mono_sampled; eauto.
  Qed.
  Lemma mono_event : forall s s' e, mono s s' -> event_ok s e -> event_ok s' e.
  Proof.
    intros s s' e M. destruct e; cbn; [intros (i & K & E); exists i; split; auto|]; eapply mono_known; eauto.
  Qed.
  Lemma sampled_nonzero : forall s i, sampled s i -> i <> 0.
  Proof. intros s i (e & _ & ->). apply outcome_nonzero. Qed.

  Lemma inv_set_call : forall s id p, Inv s -> phase_ok s p -> Inv (set_call _ _ _ s id p) /\ mono s (set_call _ _ _ s id p).
  Proof.
    intros s id p [A B C D] P. split; [|split; auto]. constructor; auto.
    intros i. cbn. destruct (Nat.eqb i id); [exact P | apply D].
  Qed.
  Lemma give_ok : forall s id k i s' ev, Inv s -> known s i -> give _ _ sel _ s id k i = (s', ev) ->
    Inv s' /\ mono s s' /\ Forall (event_ok s') ev.
  Proof.
    intros s id k i s' ev I K. unfold give. destruct k as [x|]; intros E; injection E as <- <-.
    - destruct (inv_set_call s id (StoreFunc _ _ x (sel x i)) I) as [A B]; [cbn; eauto|]. auto.
    - destruct (inv_set_call s id (Finished _ _) I) as [A B]; [exact Logic.I|].
      split; [exact A|]. split; [exact B|]. constructor; [|constructor]. exact (mono_known _ _ _ B K).
  Qed.
  Lemma publish_ok : forall s id k i s' ev, Inv s -> sampled s i ->
    (use_cas = true -> d_cache _ _ _ s = [0]) ->
    give _ _ sel _ (mk_dstate _ _ _ (d_cache _ _ _ s ++ [i]) (d_func _ _ _ s) (d_call _ _ _ s) (d_samples _ _ _ s)) id k i = (s', ev) ->
    Inv s' /\ mono s s' /\ Forall (event_ok s') ev.
  Proof.
    intros s id k i s' ev I S H0 E.
    set (s1 := mk_dstate _ _ _ _ _ _ _) in E.
    assert (M : mono s s1). { split; [auto|]. intros U j Ej. rewrite (H0 U) in Ej. discriminate. }
    assert (K : known s1 i). { split; [exact S|]. intros U. cbn. rewrite (H0 U). reflexivity. }
    assert (I1 : Inv s1).
    { constructor.
      - cbn. intros v Hv. apply in_app_iff in Hv as [Hv|[<-|[]]]; [|right; exact K].
        destruct (inv_cache s I v Hv) as [->|Q]; [auto|]. right. eapply mono_known; eauto.
      - intros U. right. exists i. cbn. rewrite (H0 U). split; [reflexivity | eapply sampled_nonzero; eauto].
      - intros x f Hf. destruct (inv_func s I x f Hf) as (j & Kj & ->). exists j. split; [eapply mono_known; eauto | reflexivity].
      - intros j. eapply mono_phase; [exact M | apply (inv_call s I)]. }
    destruct (give_ok s1 id k i s' ev I1 K E) as (A & B & C). split; [exact A|]. split; [eapply mono_trans; eauto | exact C].
  Qed.

  Lemma dstep_ok : forall s l s' ev, Inv s -> dstep s l = Some (s', ev) -> Inv s' /\ mono s s' /\ Forall (event_ok s') ev.
  Proof.
    intros s l s' ev I H. pose proof (inv_call s I) as PC. destruct l as [id k|id n|id e|id]; cbn in H; specialize (PC id).
    - destruct (d_call _ _ _ s id); try discriminate. injection H as <- <-.
      destruct (inv_set_call s id (match k with ForCall _ x => LoadFunc _ _ x | ForInfo _ => LoadCache _ _ (ForInfo _) end) I) as [A B];
        [destruct k; exact Logic.I|]. auto.
    - destruct (d_call _ _ _ s id) as [|x|k|k i|k i|x f|x f|] eqn:Q; try discriminate.
      + destruct (nth_error (d_func _ _ _ s x) n) as [[f|]|] eqn:F; try discriminate; injection H as <- <-.
        * destruct (inv_set_call s id (Exec _ _ x f) I) as [A B]; [|auto].
          apply nth_error_In in F. exact (inv_func s I x f F).
        * destruct (inv_set_call s id (LoadCache _ _ (ForCall _ x)) I) as [A B]; [exact Logic.I | auto].
      + destruct (nth_error (d_cache _ _ _ s) n) as [v|] eqn:F; try discriminate.
        apply nth_error_In in F. destruct (Z.eqb_spec v 0) as [->|N]; cbn in H.
        * injection H as <- <-. destruct (inv_set_call s id (Detecting _ _ k 0) I) as [A B]; [reflexivity | auto].
        * injection H as H. destruct (inv_cache s I v F) as [|K]; [contradiction|]. eapply give_ok; eauto.
      + destruct use_cas eqn:U; [|discriminate].
        destruct (nth_error (d_cache _ _ _ s) n) as [v|] eqn:F; try discriminate.
        apply nth_error_In in F. destruct (Z.eqb_spec v 0) as [->|N]; [discriminate|]. injection H as H.
        destruct (inv_cache s I v F) as [|K]; [contradiction|]. eapply give_ok; eauto.
    - destruct (d_call _ _ _ s id) as [|x|k|k i|k i|x f|x f|] eqn:Q; try discriminate. injection H as <- <-.
      cbn in PC. subst i. set (s1 := mk_dstate _ _ _ _ _ _ _).
      assert (M : mono s s1) by (split; [cbn; auto | auto]).
      split; [|auto]. constructor.
      + intros v Hv. destruct (inv_cache s I v Hv) as [->|K]; [auto|]. right. eapply mono_known; eauto.
      + exact (inv_one s I).
      + intros x f Hf. destruct (inv_func s I x f Hf) as (j & Kj & ->). exists j. split; [eapply mono_known; eauto | reflexivity].
      + intros j. cbn. destruct (Nat.eqb j id).
        * cbn. exists e. split; [left; reflexivity | reflexivity].
        * eapply mono_phase; [exact M | apply (inv_call s I)].
    - destruct (d_call _ _ _ s id) as [|x|k|k i|k i|x f|x f|] eqn:Q; try discriminate; cbn in PC.
      + destruct use_cas eqn:U.
        * destruct (Z.eqb_spec (last (d_cache _ _ _ s) 0) 0) as [L|L]; [|discriminate]. injection H as H.
          apply (publish_ok s id k i s' ev I PC); [|exact H]. intros _.
          destruct (inv_one s I) as [E|(j & E & N)]; [exact U | exact E|]. rewrite E in L. cbn in L. contradiction.
        * injection H as H. apply (publish_ok s id k i s' ev I PC); [congruence | exact H].
      + injection H as <- <-. destruct PC as (i & K & Ef).
        set (s1 := mk_dstate _ _ _ _ _ _ _). assert (M : mono s s1) by (split; auto).
        assert (K1 : known s1 i) by (eapply mono_known; eauto).
        assert (I1 : Inv s1).
        { constructor.
          - exact (inv_cache s I).
          - exact (inv_one s I).
          - intros y g Hg. cbn in Hg. destruct (site_eqb y x) eqn:Ey.
            + apply in_app_iff in Hg as [Hg|[Hg|[]]]; [exact (inv_func s I y g Hg)|].
              apply site_eqb_ok in Ey. subst y. injection Hg as <-. exists i. auto.
            + exact (inv_func s I y g Hg).
          - exact (inv_call s I). }
        destruct (inv_set_call s1 id (Exec _ _ x f) I1) as [A B]; [cbn; eauto|].
        split; [exact A|]. split; [eapply mono_trans; eauto | constructor].
      + injection H as <- <-. destruct (inv_set_call s id (Finished _ _) I) as [A B]; [exact Logic.I|].
        split; [exact A|]. split; [exact B|]. constructor; [|constructor]. cbn. destruct PC as (i & K & E). exists i. split; auto.
  Qed.

  Lemma drun_ok : forall ls s s' ev, Inv s -> drun s ls = Some (s', ev) -> Inv s' /\ mono s s' /\ Forall (event_ok s') ev.
  Proof.
    induction ls as [|l ls IH]; intros s s' ev I H; cbn in H.
    - injection H as <- <-. split; [exact I|]. split; [apply mono_refl | constructor].
    - destruct (dstep s l) as [[s1 ev1]|] eqn:E1; [|discriminate].
      destruct (drun s1 ls) as [[s2 ev2]|] eqn:E2; [|discriminate]. injection H as <- <-.
      destruct (dstep_ok s l s1 ev1 I E1) as (I1 & M1 & F1). destruct (IH s1 s2 ev2 I1 E2) as (I2 & M2 & F2).
      split; [exact I2|]. split; [eapply mono_trans; eauto|]. apply Forall_app. split; [|exact F2].
      eapply Forall_impl; [|exact F1]. intros a. apply mono_event. exact M2.
  Qed.
  Lemma inv_init : Inv (dinit _ _ _).
  Proof.
    constructor; cbn.
    - intros v [<-|[]]. auto.
    - auto.
    - intros x f [H|[]]. discriminate.
    - exact (fun _ => I).
  Qed.

  (** Every call runs what some sampled platform answer selects. *)
  Theorem run_sampled : forall ls s ev, drun (dinit _ _ _) ls = Some (s, ev) ->
    (forall id x f, In (Executed _ _ id x f) ev -> exists e, In e (d_samples _ _ _ s) /\ f = sel x (outcome e)) /\
    (forall id i, In (Detected _ _ id i) ev -> exists e, In e (d_samples _ _ _ s) /\ i = outcome e).
  Proof.
    intros ls s ev H. destruct (drun_ok ls _ s ev inv_init H) as (_ & _ & F). rewrite Forall_forall in F. split.
    - intros id x f Hin. destruct (F _ Hin) as (i & [(e & He & ->) _] & ->). eauto.
    - intros id i Hin. destruct (F _ Hin) as [(e & He & ->) _]. eauto.
  Qed.
  (** With the compare-exchange, one answer serves every call for ever. *)
  Theorem run_single : forall ls s ev, use_cas = true -> drun (dinit _ _ _) ls = Some (s, ev) ->
    ev = [] \/ exists e, In e (d_samples _ _ _ s) /\
      (forall id x f, In (Executed _ _ id x f) ev -> f = sel x (outcome e)) /\
      (forall id i, In (Detected _ _ id i) ev -> i = outcome e).
  Proof.
    intros ls s ev U H. destruct (drun_ok ls _ s ev inv_init H) as (_ & _ & F). rewrite Forall_forall in F.
    destruct ev as [|d ev]; [left; reflexivity|]. right.
    assert (exists i, known s i) as (i & [(e & He & Ei) Hc]).
    { specialize (F d (or_introl eq_refl)). destruct d; cbn in F; [destruct F as (i & K & _)|]; eauto. }
    exists e. split; [exact He|]. split.
    - intros id x f Hin. destruct (F _ Hin) as (j & [_ Kj] & ->). rewrite (Hc U) in Kj. specialize (Kj U). congruence.
    - intros id j Hin. destruct (F _ Hin) as [_ Kj]. rewrite (Hc U) in Kj. specialize (Kj U). congruence.
  Qed.

  (** ** Progress: no call waits for another *)
  (** Own steps still needed. *)
  Definition todo (p : phase site fn) : nat :=
    match p with
    | NotStarted _ _ => 0 | LoadFunc _ _ _ => 6 | LoadCache _ _ _ => 5 | Detecting _ _ _ _ => 4
    | Publish _ _ _ _ => 3 | StoreFunc _ _ _ _ => 2 | Exec _ _ _ _ => 1 | Finished _ _ => 0
    end%nat.
  (** A pending call can always take a step, and any step it takes brings it closer to its end; the steps of
      the others leave it alone. *)
  Definition label_id (l : dlabel site env) : nat :=
    match l with Start _ _ id _ | StepRead _ _ id _ | StepEnv _ _ id _ | Step _ _ id => id end.
  Theorem step_enabled : forall s id (e : env), (0 < todo (d_call _ _ _ s id))%nat ->
    (d_cache _ _ _ s <> [] /\ forall x, d_func _ _ _ s x <> []) ->
    exists l s' ev, label_id l = id /\ dstep s l = Some (s', ev) .
  Proof.
    intros s id e H [NC NF]. destruct (d_call _ _ _ s id) as [|x|k|k i|k i|x f|x f|] eqn:Q; cbn in H; try lia.
    - destruct (d_func _ _ _ s x) as [|[f|] l] eqn:Fx; [destruct (NF x Fx)| |];
        exists (StepRead _ _ id 0); cbn; rewrite Q, Fx; cbn; eauto.
    - destruct (d_cache _ _ _ s) as [|v l] eqn:C; [congruence|].
      exists (StepRead _ _ id 0). cbn. rewrite Q, C. cbn. destruct (negb (v =? 0)); [|eauto].
      destruct (give _ _ sel _ s id k v); eauto.
    - exists (StepEnv _ _ id e). cbn. rewrite Q. eauto.
    - destruct use_cas eqn:U.
      + destruct (last (d_cache _ _ _ s) 0 =? 0) eqn:L.
        * exists (Step _ _ id). cbn. rewrite Q, L. unfold give. destruct k; eauto.
        * assert (exists n, nth_error (d_cache _ _ _ s) n = Some (last (d_cache _ _ _ s) 0)) as (n & Hn).
          { apply In_nth_error. destruct (exists_last NC) as (l & a & ->). rewrite last_last. apply in_app_iff. right. left. reflexivity. }
          exists (StepRead _ _ id n). cbn. rewrite Q, Hn, L. unfold give. destruct k; eauto.
      + exists (Step _ _ id). cbn. rewrite Q. unfold give. destruct k; eauto.
    - exists (Step _ _ id). cbn. rewrite Q. eauto.
    - exists (Step _ _ id). cbn. rewrite Q. eauto.
  Qed.
  Lemma call_same : forall s id p, d_call _ _ _ (set_call site fn env s id p) id = p.
  Proof. intros. cbn. now rewrite Nat.eqb_refl. Qed.
  Lemma call_other : forall s id j p, id <> j -> d_call _ _ _ (set_call site fn env s id p) j = d_call _ _ _ s j.
  Proof. intros s id j p N. cbn. destruct (Nat.eqb_spec j id); congruence. Qed.
  Theorem step_measure : forall s l s' ev, dstep s l = Some (s', ev) ->
    (forall j, j <> label_id l -> d_call _ _ _ s' j = d_call _ _ _ s j) /\
    ((exists id k, l = Start _ _ id k) \/ (todo (d_call _ _ _ s' (label_id l)) < todo (d_call _ _ _ s (label_id l)))%nat).
  Proof.
    assert (G : forall (s1 : st) id k v s' ev, give _ _ sel _ s1 id k v = (s', ev) ->
      (forall j, j <> id -> d_call _ _ _ s' j = d_call _ _ _ s1 j) /\ (todo (d_call _ _ _ s' id) < 3)%nat).
    { intros s1 id k v s' ev E. unfold give in E. destruct k; injection E as <- <-.
      - rewrite call_same. split; [intros j N; apply call_other; congruence | cbn; lia].
      - rewrite call_same. split; [intros j N; apply call_other; congruence | cbn; lia]. }
    intros s l s' ev H. destruct l as [id k|id n|id e|id]; cbn in H |- *.
    - destruct (d_call _ _ _ s id); try discriminate. injection H as <- <-.
      split; [intros j N; apply call_other; congruence | left; eauto].
    - destruct (d_call _ _ _ s id) as [|x|k|k i|k i|x f|x f|] eqn:Q; try discriminate.
      + destruct (nth_error (d_func _ _ _ s x) n) as [[f|]|]; try discriminate; injection H as <- <-;
          (split; [intros j N; apply call_other; congruence | right; rewrite call_same; cbn; lia]).
      + destruct (nth_error (d_cache _ _ _ s) n) as [v|]; [|discriminate]. destruct (negb (v =? 0)).
        * injection H as H. apply G in H as [A B]. split; [exact A | right; cbn; lia].
        * injection H as <- <-. split; [intros j N; apply call_other; congruence | right; rewrite call_same; cbn; lia].
      + destruct use_cas; [|discriminate]. destruct (nth_error (d_cache _ _ _ s) n) as [v|]; [|discriminate].
        destruct (v =? 0); [discriminate|]. injection H as H. apply G in H as [A B]. split; [exact A | right; cbn; lia].
    - destruct (d_call _ _ _ s id) as [|x|k|k i|k i|x f|x f|] eqn:Q; try discriminate. injection H as <- <-. cbn. split.
      + intros j N. destruct (Nat.eqb_spec j id); congruence.
      + right. rewrite Nat.eqb_refl. cbn. lia.
    - destruct (d_call _ _ _ s id) as [|x|k|k i|k i|x f|x f|] eqn:Q; try discriminate.
      + destruct (use_cas && negb (last (d_cache _ _ _ s) 0 =? 0)) eqn:UC.
        * apply andb_prop in UC as [-> UC]. apply negb_true_iff in UC. rewrite UC in H. discriminate.
        * assert (H' : Some (give _ _ sel _ (mk_dstate _ _ _ (d_cache _ _ _ s ++ [i]) (d_func _ _ _ s) (d_call _ _ _ s) (d_samples _ _ _ s)) id k i) = Some (s', ev)).
          { destruct use_cas; [|exact H]. cbn in UC. apply negb_false_iff in UC. rewrite UC in H. exact H. }
          injection H' as H'. apply G in H' as [A B]. split; [exact A | right; cbn; lia].
      + injection H as <- <-. split; [intros j N; rewrite call_other by congruence; reflexivity | right; rewrite call_same; cbn; lia].
      + injection H as <- <-. split; [intros j N; apply call_other; congruence | right; rewrite call_same; cbn; lia].
  Qed.
  (** Lists never become empty. *)
  Theorem run_nonempty : forall ls s s' ev, d_cache _ _ _ s <> [] /\ (forall x, d_func _ _ _ s x <> []) ->
    drun s ls = Some (s', ev) -> d_cache _ _ _ s' <> [] /\ (forall x, d_func _ _ _ s' x <> []).
  Proof.
    assert (NE : forall A (l : list A) x, l ++ [x] <> []) by (intros A [] x; discriminate).
    assert (G : forall s l s' ev, d_cache _ _ _ s <> [] /\ (forall x, d_func _ _ _ s x <> []) ->
      dstep s l = Some (s', ev) -> d_cache _ _ _ s' <> [] /\ (forall x, d_func _ _ _ s' x <> [])).
    { intros s l s' ev [A B] H. destruct l as [id k|id n|id e|id]; cbn in H.
      - destruct (d_call _ _ _ s id); try discriminate. injection H as <- <-. auto.
      - destruct (d_call _ _ _ s id) as [|x|k|k i|k i|x f|x f|]; try discriminate.
        + destruct (nth_error (d_func _ _ _ s x) n) as [[f|]|]; try discriminate; injection H as <- <-; auto.
        + destruct (nth_error (d_cache _ _ _ s) n) as [v|]; [|discriminate]. destruct (negb (v =? 0)); unfold give in H;
            [destruct k|]; injection H as <- <-; auto.
        + destruct use_cas; [|discriminate]. destruct (nth_error (d_cache _ _ _ s) n) as [v|]; [|discriminate].
          destruct (v =? 0); [discriminate|]. unfold give in H; destruct k; injection H as <- <-; auto.
      - destruct (d_call _ _ _ s id); try discriminate. injection H as <- <-. auto.
      - destruct (d_call _ _ _ s id) as [|x|k|k i|k i|x f|x f|]; try discriminate.
        + unfold give in H. destruct use_cas; [destruct (last (d_cache _ _ _ s) 0 =? 0); [|discriminate]|]; destruct k; injection H as <- <-; cbn; auto.
        + injection H as <- <-. cbn. split; [exact A|]. intros y. destruct (site_eqb y x); auto.
        + injection H as <- <-. auto. }
    induction ls as [|l ls IH]; intros s s' ev N H; cbn in H.
    - injection H as <- <-. exact N.
    - destruct (dstep s l) as [[s1 ev1]|] eqn:E1; [|discriminate].
      destruct (drun s1 ls) as [[s2 ev2]|] eqn:E2; [|discriminate]. injection H as <- <-. eauto.
  Qed.

  (** The ghost samples are the answers in the labels. *)
  Lemma samples_labels : forall ls s s' ev e, drun s ls = Some (s', ev) -> In e (d_samples _ _ _ s') ->
    In e (d_samples _ _ _ s) \/ exists id, In (StepEnv _ _ id e) ls.
  Proof.
    assert (G : forall s l s' ev e, dstep s l = Some (s', ev) -> In e (d_samples _ _ _ s') ->
      In e (d_samples _ _ _ s) \/ exists id, l = StepEnv _ _ id e).
    { intros s l s' ev e H Hin. destruct l as [id k|id n|id e'|id]; cbn in H.
      - destruct (d_call _ _ _ s id); try discriminate. injection H as <- <-. auto.
      - destruct (d_call _ _ _ s id) as [|x|k|k i|k i|x f|x f|]; try discriminate.
        + destruct (nth_error (d_func _ _ _ s x) n) as [[f|]|]; try discriminate; injection H as <- <-; auto.
        + destruct (nth_error (d_cache _ _ _ s) n) as [v|]; [|discriminate]. destruct (negb (v =? 0)); unfold give in H;
            [destruct k|]; injection H as <- <-; auto.
        + destruct use_cas; [|discriminate]. destruct (nth_error (d_cache _ _ _ s) n) as [v|]; [|discriminate].
          destruct (v =? 0); [discriminate|]. unfold give in H; destruct k; injection H as <- <-; auto.
      - destruct (d_call _ _ _ s id); try discriminate. injection H as <- <-. destruct Hin as [->|Hin]; [right; eauto | auto].
      - destruct (d_call _ _ _ s id) as [|x|k|k i|k i|x f|x f|]; try discriminate.
        + unfold give in H. destruct use_cas; [destruct (last (d_cache _ _ _ s) 0 =? 0); [|discriminate]|]; destruct k; injection H as <- <-; cbn; auto.
        + injection H as <- <-. auto.
        + injection H as <- <-. auto. }
    induction ls as [|l ls IH]; intros s s' ev e H Hin; cbn in H.
    - injection H as <- <-. auto.
    - destruct (dstep s l) as [[s1 ev1]|] eqn:E1; [|discriminate].
      destruct (drun s1 ls) as [[s2 ev2]|] eqn:E2; [|discriminate]. injection H as <- <-.
      destruct (IH s1 s2 ev2 e E2 Hin) as [A|(id & A)]; [|right; exists id; right; exact A].
      destruct (G s l s1 ev1 e E1 A) as [B|(id & ->)]; [auto|]. right. exists id. left. reflexivity.
  Qed.
End Detect.
