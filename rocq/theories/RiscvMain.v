From Coq Require Import ZArith List Bool Lia.
From Verif Require Import Words Spec WordsFacts OrderingModel LinFacts FallbackModel FallbackFacts ByteMem ByteMemFacts ByteSpec RiscvModel RiscvProofs.
Import ListNotations.
Open Scope Z_scope.

Lemma rmw_ok_typed t r : rmw_ok t r = true -> rmw_typed t r.
Proof. destruct r; cbn; intros H; try exact I; now apply in_rangeb_iff. Qed.

Lemma spec_rmw_range t r x : wf_ity t -> in_range t x -> rmw_typed t r -> in_range t (spec_rmw t r x).
Proof.
  intros Hw Hx Hr. rewrite <- rmw_next_spec by assumption.
  assert (P : 0 < 2 ^ ibits t) by (apply pow2_pos; unfold wf_ity in Hw; lia).
  assert (0 <= ibits t) as H0 by (unfold wf_ity in Hw; lia).
  pose proof (to_bits_range t x Hw) as Bx.
  destruct r as [v|v|v|v|v|v|v| | |v|v]; cbn [rmw_next rmw_typed] in *; try exact Hr.
  - apply of_bits_range; [exact Hw | apply Z.mod_pos_bound, P].
  - apply of_bits_range; [exact Hw | apply Z.mod_pos_bound, P].
  - apply of_bits_range; [exact Hw | apply bitops_range; auto using to_bits_range].
  - apply of_bits_range; [exact Hw | apply bitops_range; [exact H0 | now apply to_bits_range | rewrite Z.ones_equiv; lia]].
  - apply of_bits_range; [exact Hw | apply bitops_range; auto using to_bits_range].
  - apply of_bits_range; [exact Hw | apply bitops_range; auto using to_bits_range].
  - apply of_bits_range; [exact Hw | apply bitops_range; [exact H0 | exact Bx | rewrite Z.ones_equiv; lia]].
  - apply of_bits_range; [exact Hw | apply Z.mod_pos_bound, P].
  - unfold cmp_max. now destruct (x <=? v).
  - unfold cmp_min. now destruct (x <=? v).
Qed.

(** The meaning of one access: the specified result, the specified new value, no other byte touched. *)
Definition access_ok (be : bool) (t : ity) (a : Z) (o : bop) (m m' : memory) (r : res) : Prop :=
  bsem t o (value_at be m t a) = (value_at be m' t a, r) /\
  byte_mem m' /\ forall x, ~ inside a t x -> m' x = m x.

Theorem rv_access_ok c t a o m m' r :
  (xlen c = 32 \/ xlen c = 64) -> In (ibits t) [8; 16; 32; 64; 128] -> a mod Z.of_nat (nbytes t) = 0 ->
  0 <= a < 2 ^ xlen c -> byte_mem m -> bcallable t o = true ->
  rv_access c t a o m = Some (m', r) -> access_ok (rv_be c) t a o m m' r.
Proof.
  intros XL Hs Al Ha Hm Hc H. destruct (size_cases t Hs) as (Hw & E & _).
  unfold rv_access in H. destruct (Z.ltb_spec (xlen c) (ibits t)) as [L|L]; [discriminate|].
  pose proof (var_range c t a Hs m Hm) as Hr.
  assert (IR : in_range t (value_at (rv_be c) m t a)) by (unfold value_at; now apply of_bits_range).
  assert (RM : forall r0 m'' out, rmw_ok t r0 = true -> rv_rmw c t a r0 m = Some (m'', out) ->
    out = ld (rv_be c) (nbytes t) m a /\ updates c t a m m'' (to_bits t (spec_rmw t r0 (value_at (rv_be c) m t a)))).
  { intros r0 m'' out Ho Q. apply rmw_ok_typed in Ho. unfold rv_rmw in Q.
    destruct (zaamo c); [|discriminate]. cbn [negb] in Q.
    destruct (Z.ltb_spec (ibits t) 32) as [L32|L32]; cbn [andb] in Q.
    - destruct (zabha c); cbn [negb] in Q; [eapply word_rmw_ok; eassumption | eapply sub_word_rmw_ok; eassumption].
    - eapply word_rmw_ok; eassumption. }
  assert (UV : forall m'' y, in_range t y -> updates c t a m m'' (to_bits t y) -> value_at (rv_be c) m'' t a = y).
  { intros m'' y Hy (U & _). unfold value_at. rewrite U. now apply of_to_bits. }
  destruct o as [[ord|v ord|r0 ord|cu nw su fa]|cu nw su fa|r0 ord]; cbn [bcallable] in Hc; try discriminate.
  - destruct ord; cbn in H, Hc; try discriminate; apply some_inj, pair_equal_spec in H as [<- <-];
      (split; [reflexivity | split; [exact Hm | reflexivity]]).
  - apply andb_prop in Hc as [Hv Ho]. apply in_rangeb_iff in Hv.
    assert (S : Some (st (rv_be c) (nbytes t) m a (to_bits t v), RUnit) = Some (m', r) /\ bsem t (BOp (OStore v ord)) (value_at (rv_be c) m t a) = (v, RUnit))
      by (destruct ord; cbn in H, Ho |- *; try discriminate; auto).
    destruct S as [S1 S2]. apply some_inj, pair_equal_spec in S1 as [<- <-].
    pose proof (st_updates c t a Hs m (to_bits t v) Hm (to_bits_range t v Hw)) as U.
    split; [rewrite S2; now rewrite (UV _ v Hv U) | exact (proj2 U)].
  - destruct (rv_rmw c t a r0 m) as [[m'' x]|] eqn:Q; [|discriminate]. apply some_inj, pair_equal_spec in H as [<- <-].
    destruct (RM r0 m'' x Hc Q) as (-> & U). cbn [bsem spec_op].
    split; [|exact (proj2 U)]. rewrite (UV _ _ (spec_rmw_range t r0 _ Hw IR (rmw_ok_typed t r0 Hc)) U). reflexivity.
  - apply andb_prop in Hc as [_ Hc].
    destruct (rv_rmw c t a r0 m) as [[m'' x]|] eqn:Q; [|discriminate]. apply some_inj, pair_equal_spec in H as [<- <-].
    destruct (RM r0 m'' x Hc Q) as (-> & U). cbn [bsem].
    split; [|exact (proj2 U)]. rewrite (UV _ _ (spec_rmw_range t r0 _ Hw IR (rmw_ok_typed t r0 Hc)) U). reflexivity.
Qed.

(** changing one variable leaves the others alone *)
Lemma access_others be vars t a o m m' r : layout_ok vars -> vars a = Some t -> access_ok be t a o m m' r ->
  forall b u, vars b = Some u -> b <> a -> value_at be m' u b = value_at be m u b.
Proof.
  intros LO Va (_ & _ & O) b u Vb Nb. unfold value_at. f_equal. apply ld_ext. intros x Hx. apply O.
  intros C. apply Nb. symmetry. exact (lo_disjoint vars LO a t b u x Va Vb C Hx).
Qed.

Section Machine.
  Variables (c : rv) (vars : layout).
  Hypothesis XL : xlen c = 32 \/ xlen c = 64.
  Hypothesis LO : layout_ok vars.
  Hypothesis AD : forall a t, vars a = Some t -> 0 <= a < 2 ^ xlen c.
  Notation bs := (fun a o x out => exists t, vars a = Some t /\ out = bsem t o x).
  Notation init_vals m := (fun a => match vars a with Some t => value_at (rv_be c) m t a | None => 0 end).

  Definition phase_rel (p : rphase) (q : aphase bop res) : Prop :=
    match p with
    | RIdle => q = AIdle
    | RPending a t o => q = APending a o /\ vars a = Some t /\ bcallable t o = true
    | RFinished r => q = ADone r
    end.
  Definition rel (s : rstate) (A : astate bop res) : Prop :=
    byte_mem (rmem s) /\ (forall a t, vars a = Some t -> avals A a = value_at (rv_be c) (rmem s) t a) /\
    forall h, phase_rel (rthr s h) (aphases A h).

  Lemma step_sim s l s' e A : rel s A -> rv_step c vars s l = Some (s', e) ->
    exists A', astep bs A e A' /\ rel s' A'.
  Proof.
    intros (Hm & Hv & Hp) H. destruct l as [h a o|h]; cbn [rv_step] in H; pose proof (Hp h) as Ph.
    - destruct (rthr s h) eqn:Et; try discriminate. destruct (vars a) as [t|] eqn:Va; [|discriminate].
      destruct (bcallable t o) eqn:Hc; [|discriminate]. destruct (rv_access c t a o (rmem s)) as [pr|] eqn:Qa; [|discriminate].
      apply some_inj, pair_equal_spec in H as [<- <-].
      exists (mk_astate (avals A) (updn (aphases A) h (APending a o))). split.
      + apply a_call; [exact Ph | reflexivity | split; [apply updn_same | intros; now apply updn_other]].
      + split; [exact Hm | split; [exact Hv|]]. intros k. cbn. unfold updn.
        destruct (Nat.eqb_spec k h) as [->|N]; [|apply Hp]. cbn. auto.
    - destruct (rthr s h) as [|a t o|r] eqn:Et; try discriminate.
      + destruct Ph as (Ph & Va & Hc).
        destruct (rv_access c t a o (rmem s)) as [[m' r]|] eqn:Q; [|discriminate].
        apply some_inj, pair_equal_spec in H as [<- <-].
        assert (OK : access_ok (rv_be c) t a o (rmem s) m' r).
        { apply rv_access_ok with (c := c); auto; [exact (lo_size vars LO a t Va) | exact (lo_aligned vars LO a t Va) | exact (AD a t Va)]. }
        exists (mk_astate (upd (avals A) a (value_at (rv_be c) m' t a)) (updn (aphases A) h (ADone r))). split.
        * apply a_take_effect with (t := h) (a := a) (o := o) (v' := value_at (rv_be c) m' t a) (r := r).
          -- exact Ph.
          -- exists t. split; [exact Va|]. rewrite (Hv a t Va). symmetry. exact (proj1 OK).
          -- split; [apply upd_same | intros; now apply upd_other].
          -- split; [apply updn_same | intros; now apply updn_other].
        * split; [exact (proj1 (proj2 OK)) | split].
          -- intros b u Vb. cbn. unfold upd. destruct (Z.eqb_spec b a) as [->|N].
             ++ assert (u = t) as -> by congruence. reflexivity.
             ++ rewrite (Hv b u Vb). symmetry. exact (access_others _ _ _ _ _ _ _ _ LO Va OK b u Vb N).
          -- intros k. cbn. unfold updn. destruct (Nat.eqb_spec k h) as [->|N]; [reflexivity | apply Hp].
      + apply some_inj, pair_equal_spec in H as [<- <-]. cbn in Ph.
        exists (mk_astate (avals A) (updn (aphases A) h AIdle)). split.
        * apply a_return; [exact Ph | reflexivity | split; [apply updn_same | intros; now apply updn_other]].
        * split; [exact Hm | split; [exact Hv|]]. intros k. cbn. unfold updn.
          destruct (Nat.eqb_spec k h) as [->|N]; [reflexivity | apply Hp].
  Qed.

  Lemma run_sim m ls : forall s s' h h0 A, asteps bs (mk_astate (init_vals m) (fun _ => AIdle)) h0 A -> rel s A ->
    rv_run c vars s ls = Some (s', h) ->
    exists A', asteps bs (mk_astate (init_vals m) (fun _ => AIdle)) (h0 ++ h) A' /\ rel s' A'.
  Proof.
    induction ls as [|l ls IH]; intros s s' h h0 A HA HR H; cbn [rv_run] in H.
    - apply some_inj, pair_equal_spec in H as [<- <-]. rewrite app_nil_r. eauto.
    - destruct (rv_step c vars s l) as [[s1 e]|] eqn:Q; [|discriminate].
      destruct (rv_run c vars s1 ls) as [[s2 es]|] eqn:Q2; [|discriminate].
      apply some_inj, pair_equal_spec in H as [<- <-].
      destruct (step_sim s l s1 e A HR Q) as (A1 & S1 & R1).
      rewrite app_assoc. eapply IH; [eapply as_snoc; eassumption | exact R1 | exact Q2].
  Qed.

  Theorem rv_atomic m ls s h : byte_mem m -> rv_run c vars (rv_init m) ls = Some (s, h) ->
    byte_history (rv_be c) vars m h (values (rv_be c) vars (rmem s)).
  Proof.
    intros Hm H. destruct (run_sim m ls (rv_init m) s h [] (mk_astate (init_vals m) (fun _ => AIdle))) as (A & S & R).
    - apply as_nil; reflexivity.
    - split; [exact Hm|]. split; [|intros; reflexivity]. intros a t Va. cbn. now rewrite Va.
    - exact H.
    - exists A. split; [exact S|]. intros a v Q. unfold values in Q. destruct (vars a) as [t|] eqn:Va; [|discriminate].
      injection Q as <-. destruct R as (_ & R & _). now apply R.
  Qed.

  (** no byte outside the variables ever changes *)
  Theorem rv_frame m ls s h : byte_mem m -> rv_run c vars (rv_init m) ls = Some (s, h) ->
    forall x, (forall a t, vars a = Some t -> ~ inside a t x) -> rmem s x = m x.
  Proof.
    intros Hm H x Hx.
    assert (G : forall ls s0 s h A, rel s0 A -> rv_run c vars s0 ls = Some (s, h) -> rmem s x = rmem s0 x).
    { clear - XL LO AD Hx. induction ls as [|l ls IH]; intros s0 s h A R H; cbn [rv_run] in H.
      - apply some_inj, pair_equal_spec in H as [<- _]. reflexivity.
      - destruct (rv_step c vars s0 l) as [[s1 e]|] eqn:Q; [|discriminate].
        destruct (rv_run c vars s1 ls) as [[s2 es]|] eqn:Q2; [|discriminate].
        apply some_inj, pair_equal_spec in H as [<- _].
        destruct (step_sim s0 l s1 e A R Q) as (A1 & _ & R1).
        rewrite (IH s1 s2 es A1 R1 Q2). destruct R as (Hm & _ & Hp).
        destruct l as [k a o|k]; cbn [rv_step] in Q; pose proof (Hp k) as Ph.
        + destruct (rthr s0 k); try discriminate. destruct (vars a); [|discriminate]. destruct (bcallable i o); [|discriminate].
          destruct (rv_access c i a o (rmem s0)); [|discriminate]. apply some_inj, pair_equal_spec in Q as [<- _]. reflexivity.
        + destruct (rthr s0 k) as [|a t o|r]; try discriminate.
          * destruct Ph as (_ & Va & Hc). destruct (rv_access c t a o (rmem s0)) as [[m' r]|] eqn:Q'; [|discriminate].
            apply some_inj, pair_equal_spec in Q as [<- _]. cbn.
            assert (OK : access_ok (rv_be c) t a o (rmem s0) m' r).
            { apply rv_access_ok with (c := c); auto; [exact (lo_size vars LO a t Va) | exact (lo_aligned vars LO a t Va) | exact (AD a t Va)]. }
            apply OK. now apply Hx.
          * apply some_inj, pair_equal_spec in Q as [<- _]. reflexivity. }
    apply (G ls (rv_init m) s h (mk_astate (init_vals m) (fun _ => AIdle))); [|exact H].
    split; [exact Hm|]. split; [|intros; reflexivity]. intros a t Va. cbn. now rewrite Va.
  Qed.

  (** whatever is called finishes in two steps of its own *)
  Theorem rv_wait_free s h a t o : rthr s h = RPending a t o -> (exists m, rv_access c t a o m <> None) ->
    exists r s', rv_run c vars s [LStep h; LStep h] = Some (s', [Return h r]).
  Proof.
    intros Et (m & N).
    assert (exists m' r, rv_access c t a o (rmem s) = Some (m', r)) as (m' & r & Q).
    { unfold rv_access, rv_rmw, word_rmw, sub_word_rmw in *. destruct (xlen c <? ibits t); [congruence|].
      destruct o as [[ord|v ord|r0 ord|cu nw su fa]|cu nw su fa|r0 ord]; try congruence.
      - destruct ord; cbn in *; try congruence; eauto.
      - destruct ord; cbn in *; try congruence; eauto.
      - destruct (zaamo c); cbn [negb] in *; [|congruence].
        destruct ((ibits t <? 32) && negb (zabha c)); destruct r0; try congruence;
          unfold amo_exec, sub_word_and, sub_word_or, sub_word_xor;
          try (destruct (create_sub_word_mask_values c (nbytes t) a) as [[? ?] ?]); cbn; eauto.
      - destruct (zaamo c); cbn [negb] in *; [|congruence].
        destruct ((ibits t <? 32) && negb (zabha c)); destruct r0; try congruence;
          unfold amo_exec, sub_word_and, sub_word_or, sub_word_xor;
          try (destruct (create_sub_word_mask_values c (nbytes t) a) as [[? ?] ?]); cbn; eauto. }
    exists r. cbn [rv_run rv_step]. rewrite Et, Q. cbn [rgoto rthr]. rewrite Nat.eqb_refl. cbn [app]. eauto.
  Qed.
End Machine.
