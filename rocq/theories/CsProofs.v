(** Proofs about the critical-section machine *)
From Coq Require Import ZArith List Bool Lia PeanoNat.
From Verif Require Import Words Spec WordsFacts OrderingModel LinFacts FallbackModel FallbackFacts ByteMem ByteMemFacts ByteSpec RiscvModel RiscvProofs RiscvMain IntModel IntProofs IntMain CsSpec CsModel.
Import ListNotations.
Open Scope Z_scope.

Lemma externalb_spec c x : externalb c x = true <-> external c x.
Proof. destruct c; unfold externalb, external; rewrite andb_true_iff, !Z.leb_le; reflexivity. Qed.

(** The address of the first byte decides for the whole variable. *)
Lemma in_psram_all c t a : In (ibits t) [8; 16; 32] -> a mod Z.of_nat (nbytes t) = 0 ->
  forall x, inside a t x -> (external c x <-> in_psram c a = true).
Proof.
  intros Hs Al x Hx. unfold inside in Hx.
  assert (HN : Z.of_nat (nbytes t) = 1 \/ Z.of_nat (nbytes t) = 2 \/ Z.of_nat (nbytes t) = 4).
  { cbn in Hs. unfold nbytes. destruct Hs as [<-|[<-|[<-|[]]]]; cbn; auto. }
  unfold in_psram. rewrite andb_true_iff, Z.leb_le, Z.ltb_lt.
  apply Z.mod_divide in Al; [|lia]. destruct Al as [k ->].
  destruct c; cbn [external psram fst snd]; destruct HN as [E|[E|E]]; rewrite E in *; split; lia.
Qed.

Lemma s32c1i_spec c t a : In (ibits t) [8; 16; 32] -> a mod Z.of_nat (nbytes t) = 0 ->
  in_psram c a = false -> s32c1i_works c t a = true.
Proof.
  intros Hs Al N. unfold s32c1i_works. apply forallb_forall. intros i Hi. apply in_seq in Hi.
  destruct (externalb c (a + Z.of_nat i)) eqn:E; [|reflexivity]. apply externalb_spec in E.
  rewrite (in_psram_all c t a Hs Al) in E by (unfold inside; lia). congruence.
Qed.

Lemma lower_callable t o : wf_ity t -> bcallable t o = true -> bcallable t (lower t o) = true.
Proof.
  intros Hw. assert (X : in_rangeb t (bit_not t 0) = true).
  { apply in_rangeb_iff. rewrite bit_not_spec by exact Hw. apply norm_range, Hw. }
  destruct o as [[| |[]|]| |[]]; cbn; intros H; try exact H; try exact X; try discriminate; now apply andb_prop in H.
Qed.
Lemma xor_all_ones t x : wf_ity t -> in_range t x -> rmw_next t (Xor (bit_not t 0)) x = spec_rmw t Not x.
Proof.
  intros WF X. cbn [rmw_next spec_rmw]. assert (B : bit_not t 0 = norm t (-1)) by (rewrite bit_not_spec; auto).
  rewrite B, bit_xor_spec; auto using norm_range.
  apply (to_bits_inj t); auto using norm_range.
  { apply lxor_in_range; auto using norm_range. }
  rewrite norm_bits by auto. unfold to_bits. rewrite lxor_mod by (unfold wf_ity in WF; lia).
  pose proof (norm_bits t (-1) WF) as NB. unfold to_bits in NB. rewrite NB.
  rewrite <- lxor_mod by (unfold wf_ity in WF; lia). rewrite Z.lxor_m1_r. f_equal.
Qed.
Lemma lower_sem t o x : wf_ity t -> in_range t x -> bcallable t o = true ->
  bsem t o x = (fst (bsem t (lower t o) x), give o (snd (bsem t (lower t o) x))).
Proof.
  intros Hw Hx Hc.
  assert (X : spec_rmw t (Xor (bit_not t 0)) x = spec_rmw t Not x).
  { rewrite <- rmw_next_spec; [now apply xor_all_ones | exact Hw | exact Hx |].
    cbn. rewrite bit_not_spec by exact Hw. apply norm_range, Hw. }
  destruct o as [o| |r ord].
  - destruct o as [| |[]|]; cbn [lower bsem give spec_op fst snd]; try rewrite X; try reflexivity; apply surjective_pairing.
  - cbn [lower give]. apply surjective_pairing.
  - destruct r; cbn [lower bsem give spec_op fst snd]; try rewrite X; reflexivity.
Qed.

(** ** core's operations *)
Section Core.
  Variables (be : bool) (c : chip) (t : ity) (a : Z) (m : memory).
  Hypothesis Hs : In (ibits t) [8; 16; 32].
  Hypothesis Al : a mod Z.of_nat (nbytes t) = 0.
  Hypothesis Hm : byte_mem m.
  Notation x := (value_at be m t a).

  Lemma sizes : In (ibits t) [8; 16; 32; 64; 128].
  Proof. cbn in *. tauto. Qed.
  Lemma stays o : bcallable t o = true -> bsem t o x = (x, snd (bsem t o x)) -> access_ok be t a o m m (snd (bsem t o x)).
  Proof. intros Hc E. split; [exact E | split; [exact Hm | reflexivity]]. Qed.

  (** an operation that core has, on memory where it works *)
  Definition has_core (o : bop) : bool :=
    match o with BOp (ORmw (Not | Neg) _) | BNoFetch _ _ => false | _ => true end.
  Lemma core_ok o sp m' out : bcallable t o = true -> core_op be c t a o sp m = Some (m', out) ->
    access_ok be t a o m m' out \/ (exists cu nw su fa, o = BCasWeak cu nw su fa) /\ m' = m /\ out = RErr x.
  Proof.
    intros Hc H. destruct (size_cases t sizes) as (Hw & E8 & _).
    assert (IR : in_range t x) by (apply of_bits_range; [exact Hw | rewrite <- E8; apply ld_range, Hm]).
    assert (CAS : forall cu nw o0 su fa, in_range t nw -> match fa with Release | AcqRel => false | _ => true end = true -> (o0 = BOp (OCas cu nw su fa) \/ o0 = BCasWeak cu nw su fa) ->
      (if s32c1i_works c t a then Some (if x =? cu then (st be (nbytes t) m a (to_bits t nw), ROk x) else (m, RErr x)) else None) = Some (m', out) ->
      access_ok be t a o0 m m' out).
    { intros cu nw o0 su fa Rn Of Eo. destruct (s32c1i_works c t a); [|discriminate]. destruct (x =? cu) eqn:Q; intros [= <- <-].
      - eapply st_access; [exact sizes | exact Hm | exact Rn | | reflexivity]. destruct Eo as [-> | ->]; cbn [bsem spec_op]; destruct fa; try discriminate; now rewrite Q.
      - split; [|split; [exact Hm | reflexivity]]. destruct Eo as [-> | ->]; cbn [bsem spec_op]; destruct fa; try discriminate; now rewrite Q. }
    destruct o as [[ord|v ord|r ord|cu nw su fa]|cu nw su fa|r ord]; cbn [core_op] in H; cbn [bcallable] in Hc.
    - injection H as <- <-. left. split; [destruct ord; (reflexivity || discriminate) | split; [exact Hm | reflexivity]].
    - apply andb_prop in Hc as [Hv Ho]. apply in_rangeb_iff in Hv. injection H as <- <-. left.
      eapply st_access; [exact sizes | exact Hm | exact Hv | destruct ord; (reflexivity || discriminate) | reflexivity].
    - left. destruct (match r with Not | Neg => true | _ => false end) eqn:N; [now destruct r|].
      assert (H' : s32c1i_works c t a = true /\ m' = st be (nbytes t) m a (to_bits t (spec_rmw t r x)) /\ out = RVal x).
      { destruct r; try discriminate; destruct (s32c1i_works c t a); try discriminate; injection H as <- <-; auto. }
      destruct H' as (_ & -> & ->).
      eapply st_access; [exact sizes | exact Hm | | reflexivity | reflexivity]. apply spec_rmw_range; auto using rmw_ok_typed.
    - left. apply andb_prop in Hc as [Hc Ho]. apply andb_prop in Hc as [_ Hn]. apply in_rangeb_iff in Hn. exact (CAS cu nw _ su fa Hn Ho (or_introl eq_refl) H).
    - apply andb_prop in Hc as [Hc Ho]. apply andb_prop in Hc as [_ Hn]. apply in_rangeb_iff in Hn. destruct sp.
      + right. destruct (s32c1i_works c t a); [|discriminate]. injection H as <- <-. eauto 10.
      + left. exact (CAS cu nw _ su fa Hn Ho (or_intror eq_refl) H).
    - discriminate.
  Qed.
  Lemma core_total o sp : has_core o = true ->
    (match o with BOp (OLoad _) | BOp (OStore _ _) => true | _ => s32c1i_works c t a end) = true ->
    core_op be c t a o sp m <> None.
  Proof.
    intros Hh W. destruct o as [[| |[]|]| |]; cbn in *; try discriminate; try rewrite W; try discriminate; destruct sp; discriminate.
  Qed.
End Core.
