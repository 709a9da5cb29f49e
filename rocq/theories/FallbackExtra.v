(** More consequences for the fallback machine: batches of non-writing calls, bounded runs,
    completion of every pending call. *)
From Coq Require Import ZArith Lia Bool List PeanoNat ZifyBool.
From Verif Require Import Words Spec WordsFacts LinFacts OrderingModel FallbackModel FallbackFacts
  FallbackProofs FallbackStruct FallbackProgress FallbackMain.
Import ListNotations.
Open Scope Z_scope.

Section Extra.
  Variable c : config.

  (** ** Loads and failing compare_exchanges change nothing *)
  Definition quiet_op (o : op) : Prop := match o with OLoad _ | OCas _ _ _ _ => True | _ => False end.
  Definition dirty (p : pc) : Prop :=
    match p with
    | LWrite _ _ _ _ _ (ROk _) | RelHiLd _ _ _ (ROk _) | RelHiSt _ _ _ _ (ROk _)
    | Rel _ _ _ true (ROk _) | Fin (ROk _) => True
    | _ => False
    end.
  Definition clean (s0 : state) (p : pc) : Prop :=
    match p with
    | LRead a _ st _ => st = lo (locks s0 (lock_index a))
    | Rel a _ st false _ => st = lo (locks s0 (lock_index a))
    | LWrite _ _ _ _ _ _ | RelHiLd _ _ _ _ | RelHiSt _ _ _ _ _ | Rel _ _ _ true _ => False
    | _ => True
    end.
  Definition J (s0 s : state) : Prop :=
    (forall t a o, pc_obj (pcs s t) = Some (a, o) -> quiet_op o) /\
    ((exists t, dirty (pcs s t)) \/
     ((forall x, mem s x = mem s0 x) /\
      (forall k, hi (locks s k) = hi (locks s0 k)) /\
      (forall k, lo (locks s k) = LOCKED \/ lo (locks s k) = lo (locks s0 k)) /\
      (forall t, clean s0 (pcs s t)))).

  Lemma J_step s0 s l s' e : J s0 s -> step c s l = Some (s', e) ->
    (forall a o, call l = Some (a, o) -> quiet_op o) ->
    (forall t v, ~ In (Return t (ROk v)) e) -> J s0 s'.
  Proof.
    intros [Jq Jd] Hs Hc He.
    assert (Hoth : forall u, u <> tid l -> pcs s' u = pcs s u) by (intros; eapply step_other; eauto).
    split.
    - intros t a o Hp. destruct (Nat.eq_dec t (tid l)) as [->|Hn].
      2:{ rewrite Hoth in Hp by assumption. eauto. }
      revert Hp. pose proof (Jq (tid l)) as Jt. unfold step in Hs.
      destruct (pcs s (tid l)) eqn:Ep; cbn [pc_obj] in Jt;
        repeat match type of Hs with
           | context [match ?d with _ => _ end] => destruct d eqn:?; try discriminate
           end; injection Hs as <- <-; cbn [go pcs]; rewrite ?set_n_same, ?Ep; cbn; intros [= <- <-]; eauto.
    - destruct Jd as [[t Ht]|(Jm & Jh & Jl & Jc)].
      + left. exists t. destruct (Nat.eq_dec t (tid l)) as [->|Hn].
        2:{ now rewrite Hoth. }
        unfold step in Hs.
        destruct (pcs s (tid l)) as [ | a o | a o | a o sh0 g | a o sh0 sl acc g g2 | a o sh0 sl v g g2
                          | a o sh0 sl lo' v g g2 g3 | a o | a o | a o st acc | a o st new i r
                          | a o st r | a o st h r | a o next bump r | r ] eqn:Ep; cbn in Ht; try contradiction;
          repeat match type of Hs with
           | context [match ?d with _ => _ end] => destruct d eqn:?; try discriminate
           end; injection Hs as <- <-; cbn [go pcs]; rewrite ?set_n_same; cbn; auto.
        all: try contradiction.
        exfalso. destruct r; try contradiction. eapply He. left; reflexivity.
      + assert (Ht := Jc (tid l)). assert (Hq := Jq (tid l)). unfold step in Hs.
        destruct (pcs s (tid l)) as [ | a o | a o | a o sh0 g | a o sh0 sl acc g g2 | a o sh0 sl v g g2
                          | a o sh0 sl lo' v g g2 g3 | a o | a o | a o st acc | a o st new i r
                          | a o st r | a o st h r | a o next bump r | r ] eqn:Ep; cbn in Ht; try contradiction;
          (* steps that touch neither memory nor locks *)
          try (repeat match type of Hs with
           | context [match ?d with _ => _ end] => destruct d eqn:?; try discriminate
           end; injection Hs as <- <-;
           right; splits; auto; intros t; (destruct (Nat.eq_dec t (tid l)) as [->|Hn];
           [cbn; rewrite ?set_n_same, ?Ep; exact I | cbn; rewrite ?set_n_other by assumption; apply Jc])).
        * (* Acq *) cbv zeta in Hs.
          destruct (Z.eqb_spec (lo (locks s (lock_index a))) LOCKED) as [E|E].
          -- injection Hs as <- <-. right. splits; auto.
             ++ intros k. cbn. unfold set_z. destruct (Z.eqb_spec k (lock_index a)) as [->|]; cbn; auto.
             ++ intros k. cbn. unfold set_z. destruct (Z.eqb_spec k (lock_index a)) as [->|]; cbn; auto.
             ++ intros t; destruct (Nat.eq_dec t (tid l)) as [->|Hn];
                [cbn; rewrite ?set_n_same; exact I | cbn; rewrite ?set_n_other by assumption; apply Jc].
          -- assert (Hst : lo (locks s (lock_index a)) = lo (locks s0 (lock_index a))) by (destruct (Jl (lock_index a)); [contradiction|assumption]).
             assert (Hqo := Hq a o eq_refl).
             destruct o; try contradiction; injection Hs as <- <-; right; splits; auto.
             all: try (intros k; cbn; unfold set_z; destruct (Z.eqb_spec k (lock_index a)) as [->|]; cbn; auto; fail).
             all: intros t; destruct (Nat.eq_dec t (tid l)) as [->|Hn];
                [cbn; rewrite ?set_n_same; cbn; auto | cbn; rewrite ?set_n_other by assumption; apply Jc].
        * (* LRead *) cbv zeta in Hs.
          destruct (Nat.ltb (length acc) (len c (obj_ty c a))).
          -- injection Hs as <- <-. right. splits; auto. intros t; destruct (Nat.eq_dec t (tid l)) as [->|Hn];
             [cbn; rewrite ?set_n_same; exact Ht | cbn; rewrite ?set_n_other by assumption; apply Jc].
          -- assert (Hqo := Hq a o eq_refl). destruct o; try contradiction.
             ++ injection Hs as <- <-. right. splits; auto. intros t; destruct (Nat.eq_dec t (tid l)) as [->|Hn];
                [cbn; rewrite ?set_n_same; exact Ht | cbn; rewrite ?set_n_other by assumption; apply Jc].
             ++ destruct (of_chunks c (obj_ty c a) acc =? current); injection Hs as <- <-.
                ** left. exists (tid l). cbn. rewrite set_n_same. exact I.
                ** right. splits; auto. intros t; destruct (Nat.eq_dec t (tid l)) as [->|Hn];
                   [cbn; rewrite ?set_n_same; exact Ht | cbn; rewrite ?set_n_other by assumption; apply Jc].
        * (* Rel *)
          destruct bump; [contradiction|]. injection Hs as <- <-. right. splits; auto.
          -- intros k. cbn. unfold set_z. destruct (Z.eqb_spec k (lock_index a)) as [->|]; cbn; auto.
          -- intros k. cbn. unfold set_z. destruct (Z.eqb_spec k (lock_index a)) as [->|]; cbn; auto.
          -- intros t; destruct (Nat.eq_dec t (tid l)) as [->|Hn];
             [cbn; rewrite ?set_n_same; exact I | cbn; rewrite ?set_n_other by assumption; apply Jc].
  Qed.

  Lemma J_run s0 ls : forall s s' h, J s0 s -> run c s ls = Some (s', h) ->
    (forall l a o, In l ls -> call l = Some (a, o) -> quiet_op o) ->
    (forall t v, ~ In (Return t (ROk v)) h) -> J s0 s'.
  Proof.
    induction ls as [|l ls IH]; intros s s' h HJ; cbn [run].
    - now intros [= <- <-].
    - destruct (step c s l) as [[s1 e]|] eqn:Es; [|discriminate].
      destruct (run c s1 ls) as [[s2 es]|] eqn:Er; [|discriminate]. intros [= <- <-] Hq Hh.
      apply (IH s1 s2 es); auto.
      + apply (J_step s0 s l s1 e); auto.
        * intros a o Hc. eapply Hq; [now left|exact Hc].
        * intros t v Hin. eapply Hh. apply in_or_app. left; exact Hin.
      + intros l' a o Hl Hc. eapply Hq; [now right; exact Hl|exact Hc].
      + intros t v Hin. eapply Hh. apply in_or_app. right; exact Hin.
  Qed.

  Lemma quiet_batch m ls0 s0 h0 ls s h :
    run c (init m) ls0 = Some (s0, h0) -> (forall t, pcs s0 t = Idle) ->
    run c s0 ls = Some (s, h) -> (forall t, pcs s t = Idle) ->
    (forall l a o, In l ls -> call l = Some (a, o) -> quiet_op o) ->
    (forall t v, ~ In (Return t (ROk v)) h) ->
    (forall x, mem s x = mem s0 x) /\ (forall k, locks s k = locks s0 k).
  Proof.
    intros Hr0 HI0 Hr HI Hq Hh.
    assert (HJ : J s0 s).
    { eapply J_run; eauto. split.
      - intros t a o. rewrite HI0. discriminate.
      - right. splits; auto. intros t. rewrite HI0. exact I. }
    destruct HJ as [_ [[t Ht]|(Jm & Jh & Jl & Jc)]].
    - rewrite HI in Ht. contradiction.
    - split; auto. intros k.
      assert (SI : SInv c s) by (eapply SInv_run; eauto; eapply reach_SInv; eauto).
      destruct (Jl k) as [E|E].
      + destruct SI as (_ & _ & _ & I4 & _). destruct (I4 k E) as [t Ht]. rewrite HI in Ht. contradiction.
      + specialize (Jh k). destruct (locks s k), (locks s0 k); cbn in *; congruence.
  Qed.

  (** ** Short runs satisfy the window condition *)
  Definition g_ok (n : Z) (p : pc) : Prop :=
    match p with
    | OptLo _ _ _ g => 0 <= g
    | OptRead _ _ _ _ _ g g2 | ValLo _ _ _ _ _ g g2 | ValHi _ _ _ _ _ _ g g2 _ => 0 <= g /\ 0 <= g2
    | _ => True
    end.
  Lemma windows_short ls : forall s n,
    0 <= n -> (forall k, 0 <= writes s k <= n) -> (forall t, g_ok n (pcs s t)) ->
    n + Z.of_nat (length ls) < max_window c -> windows_ok c s ls.
  Proof.
    induction ls as [|l ls IH]; intros s n Hn Hw Hg Hlen; cbn [windows_ok]; auto.
    cbn [length] in Hlen. split.
    - unfold window_ok. pose proof (Hg (tid l)) as G. destruct (pcs s (tid l)); auto; cbn in G; pose proof (Hw (lock_index a)); lia.
    - destruct (step c s l) as [[s' e]|] eqn:Es; auto.
      apply (IH s' (n + 1)); try lia.
      + intros k. unfold step in Es. specialize (Hw k).
        destruct (pcs s (tid l)); 
        repeat match type of Es with
           | context [match ?d with _ => _ end] => destruct d eqn:?; try discriminate
           end; injection Es as <- <-; cbn; unfold set_z; try lia.
        destruct (Z.eqb_spec k (lock_index a)) as [->|]; lia.
      + intros t. destruct (Nat.eq_dec t (tid l)) as [->|Hne].
        2:{ erewrite step_other; eauto. }
        pose proof (Hg (tid l)) as G. unfold step in Es.
        destruct (pcs s (tid l)) eqn:Ep; cbn in G;
        repeat match type of Es with
           | context [match ?d with _ => _ end] => destruct d eqn:?; try discriminate
           end; injection Es as <- <-; cbn; rewrite ?set_n_same, ?Ep; cbn; auto; try lia.
        all: try (pose proof (Hw (lock_index a)); lia).
  Qed.

  Lemma windows_short_init m ls : Z.of_nat (length ls) < max_window c -> windows_ok c (init m) ls.
  Proof.
    intros H. apply (windows_short ls (init m) 0); try lia.
    - intros k; cbn; lia.
    - intros t; exact I.
  Qed.

  (** ** Everybody can finish *)
  Definition no_new_calls (ls : list label) : Prop := Forall (fun l => call l = None) ls.
  Lemma no_new_repeat t k : no_new_calls (repeat (solo t) k).
  Proof. induction k; constructor; auto. Qed.
  Lemma no_new_app a b : no_new_calls a -> no_new_calls b -> no_new_calls (a ++ b).
  Proof. intros. apply Forall_app. auto. Qed.

  Lemma can_finish_one s t : SInv c s ->
    exists ls s' h, run c s ls = Some (s', h) /\ pcs s' t = Idle /\ no_new_calls ls /\
      forall u, pcs s' u = pcs s u \/ pcs s' u = Idle.
  Proof.
    intros I. pose proof I as (I1 & I2 & I3 & I4 & I5 & I6).
    assert (Solo : forall s t, SInv c s ->
      (forall a o, pc_obj (pcs s t) = Some (a, o) -> forall u, u <> t -> ~ holder (pcs s u) (lock_index a)) ->
      exists ls s' h, run c s ls = Some (s', h) /\ pcs s' t = Idle /\ no_new_calls ls /\
        (forall u, u <> t -> pcs s' u = pcs s u)).
    { intros s1 t1 I' H'. destruct (solo_finish c (todo c (pcs s1 t1)) s1 t1 I' (Nat.le_refl _) H') as (k & s' & h & _ & Hr & Hi & Ho).
      eexists _, _, _. splits; eauto. apply no_new_repeat. }
    assert (Wrap : forall ls s' h, run c s ls = Some (s', h) -> pcs s' t = Idle -> no_new_calls ls ->
       (forall u, u <> t -> pcs s' u = pcs s u) ->
       exists ls s' h, run c s ls = Some (s', h) /\ pcs s' t = Idle /\ no_new_calls ls /\
      forall u, pcs s' u = pcs s u \/ pcs s' u = Idle).
    { intros ls s' h Hr Hi Hn Ho. exists ls, s', h. splits; auto. intros u. destruct (Nat.eq_dec u t) as [->|]; auto. }
    destruct (pc_obj (pcs s t)) as [[a o]|] eqn:Eo.
    2:{ destruct (Solo s t I) as (ls & s' & h & Hr & Hi & Hn & Ho).
        { rewrite Eo; discriminate. }
        eauto. }
    destruct (Z.eq_dec (lo (locks s (lock_index a))) LOCKED) as [E|E].
    - destruct (I4 _ E) as [u Hu]. destruct (Nat.eq_dec u t) as [->|Hn].
      + destruct (Solo s t I) as (ls & s' & h & Hr & Hi & Hn & Ho).
        { rewrite Eo. intros ? ? [= <- <-] v Hv Hh. apply Hv. eauto. }
        eauto.
      + destruct (Solo s u I) as (ls1 & s1 & h1 & Hr1 & Hi1 & Hn1 & Ho1).
        { intros b o' Hb v Hv Hh. destruct (holder_pc_obj _ _ Hu) as (a' & o2 & Ha' & Hl).
          rewrite Hb in Ha'. injection Ha' as -> ->. apply Hv. eapply I3; eauto. now rewrite Hl. }
        assert (I' : SInv c s1) by eauto using SInv_run.
        destruct (Solo s1 t I') as (ls2 & s2 & h2 & Hr2 & Hi2 & Hn2 & Ho2).
        { rewrite Ho1 by auto. rewrite Eo. intros ? ? [= <- <-] v Hv Hh.
          destruct (Nat.eq_dec v u) as [->|Hvu].
          - rewrite Hi1 in Hh. contradiction.
          - rewrite Ho1 in Hh by assumption. apply Hvu. eauto. }
        exists (ls1 ++ ls2), s2, (h1 ++ h2). splits; auto.
        * eapply run_app; eauto.
        * now apply no_new_app.
        * intros v. destruct (Nat.eq_dec v t) as [->|Hv]; auto. rewrite Ho2 by auto.
          destruct (Nat.eq_dec v u) as [->|Hvu]; auto.
    - destruct (Solo s t I) as (ls & s' & h & Hr & Hi & Hn & Ho).
      { rewrite Eo. intros ? ? [= <- <-] v Hv Hh. apply E. eauto. }
      eauto.
  Qed.

  Lemma can_finish_all ts : forall s, SInv c s ->
    exists ls s' h, run c s ls = Some (s', h) /\ (forall t, In t ts -> pcs s' t = Idle) /\ no_new_calls ls /\
      forall u, pcs s' u = pcs s u \/ pcs s' u = Idle.
  Proof.
    induction ts as [|t ts IH]; intros s I.
    - exists [], s, []. splits; auto.
      + intros t [].
      + constructor.
    - destruct (can_finish_one s t I) as (ls1 & s1 & h1 & Hr1 & Hi1 & Hn1 & Ho1).
      assert (I' : SInv c s1) by eauto using SInv_run.
      destruct (IH s1 I') as (ls2 & s2 & h2 & Hr2 & Hi2 & Hn2 & Ho2).
      exists (ls1 ++ ls2), s2, (h1 ++ h2). splits.
      + eapply run_app; eauto.
      + intros u [<-|Hu]; auto. destruct (Ho2 t) as [E|E]; auto. now rewrite E.
      + now apply no_new_app.
      + intros u. destruct (Ho2 u) as [E|E]; auto. rewrite E. auto.
  Qed.
End Extra.
