From Coq Require Import ZArith List Bool Lia Znumtheory.
From Verif Require Import Words Spec WordsFacts OrderingModel LinFacts FallbackModel FallbackFacts ByteMem ByteMemFacts ByteSpec RiscvModel.
Import ListNotations.
Open Scope Z_scope.

Lemma size_cases t : In (ibits t) [8; 16; 32; 64; 128] -> wf_ity t /\ 8 * Z.of_nat (nbytes t) = ibits t /\ (0 < nbytes t)%nat.
Proof.
  intros H. unfold nbytes, wf_ity. cbn [In] in H.
  destruct H as [H|[H|[H|[H|[H|[]]]]]]; rewrite <- H; (split; [lia | split; [reflexivity | apply Nat.ltb_lt; reflexivity]]).
Qed.

Lemma bitops_range k y z : 0 <= k -> 0 <= y < 2 ^ k -> 0 <= z < 2 ^ k ->
  0 <= Z.land y z < 2 ^ k /\ 0 <= Z.lor y z < 2 ^ k /\ 0 <= Z.lxor y z < 2 ^ k.
Proof.
  intros Hk Hy Hz.
  pose proof (proj1 (in_range_unsigned_bits k y Hk) Hy) as By. pose proof (proj1 (in_range_unsigned_bits k z Hk) Hz) as Bz.
  refine (conj _ (conj _ _)); (apply in_range_unsigned_bits; [exact Hk|]; intros i Hi;
    rewrite ?Z.land_spec, ?Z.lor_spec, ?Z.lxor_spec, By, Bz by exact Hi; reflexivity).
Qed.

Lemma some_inj {A} (x y : A) : Some x = Some y -> x = y.
Proof. congruence. Qed.

Lemma mod_sub a n k : 0 < n -> (n | k) -> 0 < k -> (a mod k) mod n = a mod n.
Proof. intros. symmetry. apply Zmod_div_mod; assumption. Qed.

Section R.
  Variable c : rv.
  Hypothesis XL : xlen c = 32 \/ xlen c = 64.
  Notation be := (rv_be c).

  (** position (in bytes, by significance) of the variable inside its word *)
  Definition pos (n : nat) (a : Z) : Z := if be then Z.lxor (a mod 4) (4 - Z.of_nat n) else a mod 4.

  Lemma div32 : (32 | 2 ^ 32) /\ (2 ^ 32 | 2 ^ xlen c) /\ (32 | 2 ^ xlen c).
  Proof.
    assert (A : (32 | 2 ^ 32)) by (exists (2 ^ 27); reflexivity).
    assert (B : (2 ^ 32 | 2 ^ xlen c)) by (destruct XL as [->| ->]; [exists 1 | exists (2 ^ 32)]; reflexivity).
    repeat split; try assumption. eapply Z.divide_trans; eassumption.
  Qed.

  Lemma mask_values n a : (n = 1 \/ n = 2)%nat -> 0 <= a < 2 ^ xlen c ->
    exists sh, create_sub_word_mask_values c n a = (4 * (a / 4), sh, 2 ^ (8 * Z.of_nat n) - 1) /\ sh mod 32 = 8 * pos n a.
  Proof.
    intros Hn Ha. destruct div32 as (D1 & D2 & D3).
    assert (P : 0 < 2 ^ xlen c) by (apply pow2_pos; destruct XL; lia).
    assert (E8 : forall y, ((y * 8) mod 2 ^ xlen c mod 2 ^ 32) mod 32 = 8 * (y mod 4)).
    { intros y. rewrite mod_sub by (try assumption; lia). rewrite mod_sub by (try assumption; lia).
      Z.to_euclidean_division_equations; lia. }
    eexists. split.
    - unfold create_sub_word_mask_values. rewrite (Z.mul_comm (Z.of_nat n)). f_equal. f_equal.
      apply Z.bits_inj'. intros k K.
      rewrite Z.land_spec, Z.lxor_spec, Z.mul_comm. change 4 with (2 ^ 2). rewrite Z.mul_pow2_bits by lia.
      rewrite <- Z.shiftr_div_pow2 by lia.
      rewrite Z.testbit_ones_nonneg by (destruct XL; lia).
      assert (B : xlen c <= k -> Z.testbit a k = false) by (apply in_range_unsigned_bits; [destruct XL; lia | exact Ha]).
      destruct (Z.ltb_spec k 2) as [L|L].
      + rewrite (Z.testbit_neg_r _ (k - 2)) by lia. replace (Z.testbit (2 ^ 2 - 1) k) with true.
        * replace (k <? xlen c) with true by (symmetry; apply Z.ltb_lt; destruct XL; lia). apply andb_false_r.
        * assert (k = 0 \/ k = 1) as [->| ->] by lia; reflexivity.
      + rewrite Z.shiftr_spec by lia. replace (k - 2 + 2) with k by lia.
        replace (Z.testbit (2 ^ 2 - 1) k) with false.
        * destruct (Z.ltb_spec k (xlen c)); [apply andb_true_r | rewrite B by lia; reflexivity].
        * symmetry. apply (in_range_unsigned_bits 2 3); lia.
    - destruct be eqn:Q; cbn [negb]; rewrite E8; unfold pos; rewrite Q; [|reflexivity].
      f_equal. change 4 with (2 ^ 2) at 2. rewrite lxor_mod by lia. f_equal.
      destruct Hn as [->| ->]; reflexivity.
  Qed.

  (** the variable lies inside the word, byte for byte *)
  Lemma word_place n a : (n = 1 \/ n = 2)%nat -> a mod Z.of_nat n = 0 ->
    0 <= pos n a /\ pos n a + Z.of_nat n <= 4 /\
    forall j, 0 <= j < Z.of_nat n ->
      baddr be 4 (4 * (a / 4)) (Z.to_nat (pos n a + j)) = baddr be n a (Z.to_nat j).
  Proof.
    intros Hn Al. unfold pos.
    assert (C : a = 4 * (a / 4) + a mod 4) by (apply Z.div_mod; lia).
    assert (R : 0 <= a mod 4 < 4) by (apply Z.mod_pos_bound; lia).
    assert (E : a mod 4 = 0 \/ a mod 4 = 1 \/ a mod 4 = 2 \/ a mod 4 = 3) by lia.
    assert (N2 : n = 2%nat -> a mod 4 = 0 \/ a mod 4 = 2).
    { intros ->. change (Z.of_nat 2) with 2 in Al. Z.to_euclidean_division_equations; lia. }
    unfold baddr. set (q := a / 4) in *. set (e := a mod 4) in *. clearbody q e. clear Al.
    destruct be; destruct Hn as [->| ->].
    - change (4 - Z.of_nat 1) with 3.
      destruct E as [E|[E|[E|E]]]; subst e;
        [change (Z.lxor 0 3) with 3 | change (Z.lxor 1 3) with 2 | change (Z.lxor 2 3) with 1 | change (Z.lxor 3 3) with 0];
        repeat split; try lia; intros j Hj; lia.
    - change (4 - Z.of_nat 2) with 2.
      destruct (N2 eq_refl) as [E'|E']; subst e; [change (Z.lxor 0 2) with 2 | change (Z.lxor 2 2) with 0];
        repeat split; try lia; intros j Hj; lia.
    - repeat split; try lia; intros j Hj; lia.
    - destruct (N2 eq_refl) as [E'|E']; repeat split; try lia; intros j Hj; lia.
  Qed.

  Lemma sllw_range v sh : 0 <= sllw v sh < 2 ^ 32.
  Proof. unfold sllw. apply Z.mod_pos_bound. reflexivity. Qed.

  Section Place.
    Variables (n : nat) (a : Z).
    Hypothesis Hn : (n = 1 \/ n = 2)%nat.
    Hypothesis Al : a mod Z.of_nat n = 0.
    Notation w := (4 * (a / 4)).
    Notation p := (8 * pos n a).
    Notation k := (8 * Z.of_nat n).

    Lemma word_bits m j : byte_mem m -> 0 <= j < k -> Z.testbit (ld be 4 m w) (p + j) = Z.testbit (ld be n m a) j.
    Proof.
      intros Hm Hj. destruct (word_place n a Hn Al) as (P0 & P1 & P).
      rewrite !ld_testbit by (assumption || lia).
      change (8 * Z.of_nat 4) with 32.
      destruct (Z.ltb_spec (p + j) 32); [|lia]. destruct (Z.ltb_spec j k); [|lia].
      replace ((p + j) / 8) with (pos n a + j / 8) by (Z.to_euclidean_division_equations; lia).
      replace ((p + j) mod 8) with (j mod 8) by (Z.to_euclidean_division_equations; lia).
      rewrite P; [reflexivity|]. Z.to_euclidean_division_equations; lia.
    Qed.

    Lemma word_read m : byte_mem m -> (ld be 4 m w / 2 ^ p) mod 2 ^ k = ld be n m a.
    Proof.
      intros Hm. destruct (word_place n a Hn Al) as (P0 & P1 & P).
      apply Z.bits_inj'. intros j J. rewrite mod_pow2_testbit by lia.
      rewrite <- Z.shiftr_div_pow2 by lia. rewrite Z.shiftr_spec by lia.
      destruct (Z.ltb_spec j k) as [L|L]; cbn [andb].
      - rewrite Z.add_comm. now apply word_bits.
      - symmetry. apply (in_range_unsigned_bits k); [lia | now apply ld_range | exact L].
    Qed.

    (** a new word that differs only in the variable's bits *)
    Lemma word_write m W : byte_mem m -> 0 <= W < 2 ^ 32 ->
      (forall i, 0 <= i < 32 -> ~ (p <= i < p + k) -> Z.testbit W i = Z.testbit (ld be 4 m w) i) ->
      ld be n (st be 4 m w W) a = (W / 2 ^ p) mod 2 ^ k /\
      forall x, ~ (a <= x < a + Z.of_nat n) -> st be 4 m w W x = m x.
    Proof.
      intros Hm HW HO. destruct (word_place n a Hn Al) as (P0 & P1 & P). split.
      - rewrite <- word_read by (apply st_bytes, Hm). rewrite ld_st by (assumption || exact HW). reflexivity.
      - intros x Hx.
        destruct (Z_le_gt_dec w x) as [L1|L1]; [destruct (Z_lt_ge_dec x (w + 4)) as [L2|L2]|].
        + destruct (baddr_surj be 4 w x ltac:(lia)) as (i & Hi & Ex). rewrite Ex, st_in by exact Hi.
          rewrite <- (ld_byte be 4 m w i Hm Hi).
          apply Z.bits_inj'. intros j J. destruct (Z_lt_ge_dec j 8) as [J8|J8].
          * rewrite !byte_of_testbit by lia. apply HO; [lia|]. intros C.
            apply Hx. rewrite Ex.
            assert (Q : 0 <= Z.of_nat i - pos n a < Z.of_nat n) by lia.
            pose proof (P _ Q) as P'. replace (Z.to_nat (pos n a + (Z.of_nat i - pos n a))) with i in P' by lia.
            rewrite P'. apply baddr_in. lia.
          * rewrite !byte_testbit_high by (try apply byte_of_range; lia). reflexivity.
        + apply st_out. change (Z.of_nat 4) with 4. lia.
        + apply st_out. lia.
    Qed.

    Lemma sllw_bits v sh i : 0 <= v < 2 ^ k -> sh mod 32 = p -> 0 <= i ->
      Z.testbit (sllw v sh) i = (p <=? i) && (i <? p + k) && Z.testbit v (i - p).
    Proof.
      intros Hv E Hi. destruct (word_place n a Hn Al) as (P0 & P1 & P).
      unfold sllw. rewrite E, mod_pow2_testbit by lia. rewrite Z.mul_pow2_bits by lia.
      destruct (Z.leb_spec p i) as [L|L]; cbn [andb].
      - destruct (Z.ltb_spec i (p + k)) as [L'|L']; cbn [andb].
        + destruct (Z.ltb_spec i 32); [reflexivity | lia].
        + rewrite (proj1 (in_range_unsigned_bits k v ltac:(lia)) Hv (i - p)) by lia. apply andb_false_r.
      - rewrite Z.testbit_neg_r by lia. apply andb_false_r.
    Qed.
    Lemma full_bits i : 0 <= i -> Z.testbit (2 ^ k - 1) i = (i <? k).
    Proof.
      intros Hi. replace (2 ^ k - 1) with (Z.ones k) by (rewrite Z.ones_equiv; lia). apply Z.testbit_ones_nonneg; lia.
    Qed.
    Lemma full_range : 0 <= 2 ^ k - 1 < 2 ^ k.
    Proof. pose proof (pow2_pos k ltac:(lia)). lia. Qed.

    (** what the three sub-word operations do to the memory *)
    Lemma sub_word_gen (f : bool -> bool -> bool) m v W : byte_mem m -> 0 <= v < 2 ^ k -> 0 <= W < 2 ^ 32 ->
      (forall i, 0 <= i < 32 -> Z.testbit W i =
         if (p <=? i) && (i <? p + k) then f (Z.testbit (ld be 4 m w) i) (Z.testbit v (i - p))
         else Z.testbit (ld be 4 m w) i) ->
      (forall j, 0 <= j < k -> Z.testbit (ld be n (st be 4 m w W) a) j = f (Z.testbit (ld be n m a) j) (Z.testbit v j)) /\
      (forall x, ~ (a <= x < a + Z.of_nat n) -> st be 4 m w W x = m x).
    Proof.
      intros Hm Hv HW HB. destruct (word_place n a Hn Al) as (P0 & P1 & P).
      destruct (word_write m W Hm HW) as (E1 & E2).
      { intros i Hi C. rewrite HB by exact Hi.
        destruct (Z.leb_spec p i); destruct (Z.ltb_spec i (p + k)); cbn [andb]; reflexivity || lia. }
      split; [|exact E2]. intros j Hj. rewrite E1. rewrite mod_pow2_testbit by lia.
      rewrite <- Z.shiftr_div_pow2 by lia. rewrite Z.shiftr_spec by lia.
      destruct (Z.ltb_spec j k); [|lia]. cbn [andb]. rewrite HB by lia.
      destruct (Z.leb_spec p (j + p)); [|lia]. destruct (Z.ltb_spec (j + p) (p + k)); [|lia]. cbn [andb].
      rewrite (Z.add_comm j p), word_bits by assumption. do 2 f_equal. lia.
    Qed.
  End Place.

  (** ** The operations on one variable *)
  Section Var.
    Variables (t : ity) (a : Z).
    Hypothesis Hs : In (ibits t) [8; 16; 32; 64; 128].
    Hypothesis Hx : ibits t <= xlen c.
    Hypothesis Ha : 0 <= a < 2 ^ xlen c.
    Hypothesis Al : a mod Z.of_nat (nbytes t) = 0.

    (** the variable goes from [x] to [y] (bit patterns) and nothing else changes *)
    Definition updates (m m' : memory) (y : Z) : Prop :=
      ld be (nbytes t) m' a = y /\ byte_mem m' /\ forall x, ~ inside a t x -> m' x = m x.

    Lemma st_updates m y : byte_mem m -> 0 <= y < 2 ^ ibits t -> updates m (st be (nbytes t) m a y) y.
    Proof.
      intros Hm Hy. destruct (size_cases t Hs) as (Hw & E & _).
      repeat split; [apply ld_st; [exact Hm | rewrite E; exact Hy] | | | intros x Hi; apply st_out; unfold inside in Hi; lia].
      all: apply st_bytes, Hm.
    Qed.

    Lemma var_range m : byte_mem m -> 0 <= ld be (nbytes t) m a < 2 ^ ibits t.
    Proof. intros Hm. destruct (size_cases t Hs) as (Hw & E & _). rewrite <- E. now apply ld_range. Qed.

    Lemma xlen_pos : 0 < xlen c. Proof. destruct XL; lia. Qed.

    Lemma word_rmw_ok m r m' out : byte_mem m -> rmw_typed t r -> word_rmw c t a r m = Some (m', out) ->
      out = ld be (nbytes t) m a /\ updates m m' (to_bits t (spec_rmw t r (value_at be m t a))).
    Proof.
      intros Hm Ht H. destruct (size_cases t Hs) as (Hw & E & _).
      pose proof (var_range m Hm) as Hr. unfold value_at. set (x := ld be (nbytes t) m a) in *.
      rewrite <- rmw_next_spec by (try assumption; now apply of_bits_range).
      assert (W : forall v, 0 <= to_bits t v < 2 ^ ibits t) by (intros; now apply to_bits_range).
      assert (G : forall k v, 0 <= amo_val k (ibits t) x v < 2 ^ ibits t ->
        amo_val k (ibits t) x v = to_bits t (rmw_next t r (of_bits t x)) ->
        Some (amo_exec c k (nbytes t) a v m) = Some (m', out) ->
        out = x /\ updates m m' (to_bits t (rmw_next t r (of_bits t x)))).
      { intros k v R <- Q. assert (Q' : amo_exec c k (nbytes t) a v m = (m', out)) by congruence.
        unfold amo_exec in Q'. rewrite E in Q'. apply pair_equal_spec in Q' as [<- <-]. fold x. split; [reflexivity|]. now apply st_updates. }
      assert (P0 : 0 < 2 ^ ibits t) by (apply pow2_pos; unfold wf_ity in Hw; clear - Hw; lia).
      assert (TO : to_bits t (of_bits t x) = x) by (now apply to_of_bits).
      assert (LA : forall y z, 0 <= y < 2 ^ ibits t -> 0 <= z < 2 ^ ibits t -> 0 <= Z.land y z < 2 ^ ibits t /\ 0 <= Z.lor y z < 2 ^ ibits t /\ 0 <= Z.lxor y z < 2 ^ ibits t).
      { intros y z Hy Hz. unfold wf_ity in Hw. apply bitops_range; [clear - Hw; lia | exact Hy | exact Hz]. }
      assert (MM : forall f : bool, forall y z, 0 <= y < 2 ^ ibits t -> 0 <= z < 2 ^ ibits t -> 0 <= (if f then y else z) < 2 ^ ibits t) by (intros []; auto).
      assert (SG : forall y, isigned t = true -> of_bits (mk_ity (ibits t) true) y = of_bits t y).
      { intros y Hsg. unfold of_bits. cbn. now rewrite Hsg. }
      assert (US : forall y, isigned t = false -> of_bits t y = y).
      { intros y Hsg. unfold of_bits. now rewrite Hsg. }
      destruct r as [v|v|v|v|v|v|v| | |v|v]; cbn [word_rmw rmw_typed] in H, Ht; try discriminate.
      - eapply G; [| |exact H]; cbn [amo_val rmw_next]; rewrite Z.mod_small by apply W; [apply W | reflexivity].
      - eapply G; [| |exact H]; cbn [amo_val rmw_next]; [apply Z.mod_pos_bound; exact P0|].
        unfold wrapping_add. rewrite to_of_bits by (try exact Hw; apply Z.mod_pos_bound; exact P0).
        rewrite TO, (Z.mod_small (to_bits t v)) by apply W. reflexivity.
      - eapply G; [| |exact H]; cbn [amo_val rmw_next]; [apply Z.mod_pos_bound; exact P0|].
        unfold wrapping_sub, wrapping_neg. rewrite !to_of_bits by (try exact Hw; apply Z.mod_pos_bound; exact P0).
        rewrite TO, Z.mod_mod by lia. rewrite Z.add_mod_idemp_r by lia. f_equal; lia.
      - eapply G; [| |exact H]; cbn [amo_val rmw_next]; rewrite Z.mod_small by apply W; [apply LA; auto|].
        unfold bit_and. rewrite to_of_bits; [now rewrite TO | exact Hw | rewrite TO; apply LA; auto].
      - eapply G; [| |exact H]; cbn [amo_val rmw_next]; rewrite Z.mod_small by apply W; [apply LA; auto|].
        unfold bit_or. rewrite to_of_bits; [now rewrite TO | exact Hw | rewrite TO; apply LA; auto].
      - eapply G; [| |exact H]; cbn [amo_val rmw_next]; rewrite Z.mod_small by apply W; [apply LA; auto|].
        unfold bit_xor. rewrite to_of_bits; [now rewrite TO | exact Hw | rewrite TO; apply LA; auto].
      - assert (O : Z.ones (xlen c) mod 2 ^ ibits t = Z.ones (ibits t)).
        { apply Z.bits_inj'. intros i Hi. unfold wf_ity in Hw. rewrite mod_pow2_testbit, !Z.testbit_ones_nonneg by lia.
          destruct (Z.ltb_spec i (ibits t)); [|reflexivity]. cbn. apply Z.ltb_lt. lia. }
        assert (OR : 0 <= Z.ones (ibits t) < 2 ^ ibits t) by (rewrite Z.ones_equiv; lia).
        eapply G; [| |exact H]; cbn [amo_val rmw_next]; rewrite O; [apply LA; auto|].
        unfold bit_not. rewrite to_of_bits; [now rewrite TO | exact Hw | rewrite TO; apply LA; auto].
      - destruct (isigned t) eqn:Hsg; ((eapply G; [| |exact H]); cbv iota; cbn [amo_val rmw_next]; (rewrite (Z.mod_small (to_bits t v)) by apply W); [solve [apply MM; auto]|]).
        + rewrite !SG by reflexivity. rewrite of_to_bits by assumption. unfold cmp_max.
          destruct (Z.ltb_spec (of_bits t x) v); destruct (Z.leb_spec (of_bits t x) v); try lia; try congruence.
          assert (v = of_bits t x) as -> by lia. congruence.
        + assert (TV : to_bits t v = v) by (rewrite <- (US (to_bits t v)) by reflexivity; now apply of_to_bits).
          rewrite TV, (US x) by reflexivity. unfold cmp_max.
          assert (TX : to_bits t x = x) by (rewrite <- TO at 2; now rewrite (US x)).
          destruct (Z.ltb_spec x v); destruct (Z.leb_spec x v); try lia; try congruence.
      - destruct (isigned t) eqn:Hsg; ((eapply G; [| |exact H]); cbv iota; cbn [amo_val rmw_next]; (rewrite (Z.mod_small (to_bits t v)) by apply W); [solve [apply MM; auto]|]).
        + rewrite !SG by reflexivity. rewrite of_to_bits by assumption. unfold cmp_min.
          destruct (Z.ltb_spec v (of_bits t x)); destruct (Z.leb_spec (of_bits t x) v); try lia; try congruence.
        + assert (TV : to_bits t v = v) by (rewrite <- (US (to_bits t v)) by reflexivity; now apply of_to_bits).
          rewrite TV, (US x) by reflexivity. unfold cmp_min.
          assert (TX : to_bits t x = x) by (rewrite <- TO at 2; now rewrite (US x)).
          destruct (Z.ltb_spec v x); destruct (Z.leb_spec x v); try lia; try congruence.
    Qed.

    (** the sub-word forms *)
    Hypothesis Hsub : ibits t < 32.
    Lemma sub_n : (nbytes t = 1 \/ nbytes t = 2)%nat.
    Proof.
      unfold nbytes. destruct Hs as [H|[H|[H|[H|[H|[]]]]]]; rewrite <- H in *; try lia; [left | right]; reflexivity.
    Qed.

    Lemma sub_out m sh : byte_mem m -> sh mod 32 = 8 * pos (nbytes t) a ->
      to_bits t (srlw (ld be 4 m (4 * (a / 4))) sh) = ld be (nbytes t) m a.
    Proof.
      intros Hm E. destruct (size_cases t Hs) as (Hw & E8 & _).
      unfold to_bits, srlw. rewrite E, <- E8. apply word_read; [apply sub_n | exact Al | exact Hm].
    Qed.

    Lemma sub_gen (f : bool -> bool -> bool) (F : Z -> Z -> Z) m v W sh m' out :
      (forall y z i, Z.testbit (F y z) i = f (Z.testbit y i) (Z.testbit z i)) -> f false false = false ->
      byte_mem m -> 0 <= v < 2 ^ ibits t -> 0 <= W < 2 ^ 32 -> sh mod 32 = 8 * pos (nbytes t) a ->
      (forall i, 0 <= i < 32 -> Z.testbit W i =
         if (8 * pos (nbytes t) a <=? i) && (i <? 8 * pos (nbytes t) a + 8 * Z.of_nat (nbytes t))
         then f (Z.testbit (ld be 4 m (4 * (a / 4))) i) (Z.testbit v (i - 8 * pos (nbytes t) a))
         else Z.testbit (ld be 4 m (4 * (a / 4))) i) ->
      m' = st be 4 m (4 * (a / 4)) W -> out = to_bits t (srlw (ld be 4 m (4 * (a / 4))) sh) ->
      out = ld be (nbytes t) m a /\ updates m m' (F (ld be (nbytes t) m a) v).
    Proof.
      intros HF H00 Hm Hv HW Hsh HB -> ->. destruct (size_cases t Hs) as (Hw & E8 & _).
      split; [now apply sub_out|].
      destruct (sub_word_gen (nbytes t) a sub_n Al f m v W Hm ltac:(rewrite E8; exact Hv) HW HB) as (B & O).
      split; [|split; [apply st_bytes, Hm | intros x Hi; apply O; exact Hi]].
      apply Z.bits_inj'. intros i Hi. rewrite HF. destruct (Z_lt_ge_dec i (8 * Z.of_nat (nbytes t))) as [L|L].
      - now apply B.
      - assert (HI : forall mm, byte_mem mm -> Z.testbit (ld be (nbytes t) mm a) i = false).
        { intros mm Hmm. apply (in_range_unsigned_bits (8 * Z.of_nat (nbytes t))); [lia | now apply ld_range | lia]. }
        rewrite (HI _ (st_bytes be 4 m _ W Hm)), (HI m Hm).
        rewrite (proj1 (in_range_unsigned_bits (8 * Z.of_nat (nbytes t)) v ltac:(lia)) ltac:(rewrite E8; exact Hv) i) by lia.
        now rewrite H00.
    Qed.

    Lemma land32 y z : 0 <= y < 2 ^ 32 -> 0 <= z < 2 ^ 32 ->
      0 <= Z.land y z < 2 ^ 32 /\ 0 <= Z.lor y z < 2 ^ 32 /\ 0 <= Z.lxor y z < 2 ^ 32.
    Proof.
      intros Hy Hz. apply bitops_range; [lia | exact Hy | exact Hz].
    Qed.

    Lemma word32 m : byte_mem m -> 0 <= ld be 4 m (4 * (a / 4)) < 2 ^ 32.
    Proof. intros Hm. exact (ld_range be 4 m _ Hm). Qed.

    Lemma sub_word_rmw_ok m r m' out : byte_mem m -> rmw_typed t r -> sub_word_rmw c t a r m = Some (m', out) ->
      out = ld be (nbytes t) m a /\ updates m m' (to_bits t (spec_rmw t r (value_at be m t a))).
    Proof.
      intros Hm Ht H. destruct (size_cases t Hs) as (Hw & E8 & _).
      destruct (mask_values (nbytes t) a sub_n Ha) as (sh & EM & Hsh).
      pose proof (word32 m Hm) as HW32. pose proof (var_range m Hm) as Hr.
      unfold value_at. rewrite <- rmw_next_spec by (try assumption; now apply of_bits_range).
      set (x := ld be (nbytes t) m a) in *. set (W := ld be 4 m (4 * (a / 4))) in *.
      assert (TO : to_bits t (of_bits t x) = x) by (now apply to_of_bits).
      assert (V : forall v, 0 <= to_bits t v < 2 ^ ibits t) by (intros; now apply to_bits_range).
      assert (Vk : forall v, 0 <= to_bits t v < 2 ^ (8 * Z.of_nat (nbytes t))) by (intros; rewrite E8; apply V).
      assert (OB : forall y z, 0 <= y < 2 ^ ibits t -> 0 <= z < 2 ^ ibits t ->
        to_bits t (of_bits t (Z.land y z)) = Z.land y z /\ to_bits t (of_bits t (Z.lor y z)) = Z.lor y z /\ to_bits t (of_bits t (Z.lxor y z)) = Z.lxor y z).
      { intros y z Hy Hz. assert (0 <= ibits t) as Hw0 by (unfold wf_ity in Hw; clear - Hw; lia).
        destruct (bitops_range (ibits t) y z Hw0 Hy Hz) as (A1 & A2 & A3).
        refine (conj _ (conj _ _)); now apply to_of_bits. }
      pose proof sllw_range as SR.
      assert (XOR : forall v, sub_word_xor c t a v m = (m', out) ->
        out = x /\ updates m m' (Z.lxor x (to_bits t v))).
      { intros v Q. unfold sub_word_xor in Q. rewrite EM in Q. cbn [amo_exec] in Q.
        apply pair_equal_spec in Q as [<- <-]. fold W.
        eapply (sub_gen xorb Z.lxor m (to_bits t v)); try reflexivity; try eassumption; try apply V.
        - intros; apply Z.lxor_spec.
        - change (8 * Z.of_nat 4) with 32. unfold amo_val. rewrite Z.mod_small by apply SR. apply land32; [exact HW32 | apply SR].
        - intros i Hi. change (8 * Z.of_nat 4) with 32. unfold amo_val. rewrite Z.mod_small by apply SR.
          rewrite Z.lxor_spec. unfold zero_extend.
          rewrite (sllw_bits (nbytes t) a sub_n Al _ _ _ (Vk v) Hsh) by lia.
          fold W. destruct ((8 * pos (nbytes t) a <=? i) && (i <? 8 * pos (nbytes t) a + 8 * Z.of_nat (nbytes t))); cbn [andb]; [reflexivity | apply xorb_false_r]. }
      destruct r as [v|v|v|v|v|v|v| | |v|v]; cbn [sub_word_rmw rmw_typed rmw_next] in H, Ht |- *; try discriminate; apply some_inj in H.
      - unfold bit_and. rewrite TO, (proj1 (OB x (to_bits t v) Hr (V v))).
        unfold sub_word_and in H. rewrite EM in H. cbn [amo_exec] in H.
        apply pair_equal_spec in H as [<- <-]. fold W.
        set (mk := sllw (2 ^ (8 * Z.of_nat (nbytes t)) - 1) sh). set (sv := sllw (zero_extend t v) sh).
        assert (MR : 0 <= Z.lor sv (Z.lxor mk (Z.ones 32)) < 2 ^ 32).
        { apply land32; [apply SR|]. apply land32; [apply SR | rewrite Z.ones_equiv; lia]. }
        eapply (sub_gen andb Z.land m (to_bits t v)); try reflexivity; try eassumption; try apply V.
        + intros; apply Z.land_spec.
        + change (8 * Z.of_nat 4) with 32. unfold amo_val. rewrite Z.mod_small by exact MR. apply land32; [exact HW32 | exact MR].
        + intros i Hi. change (8 * Z.of_nat 4) with 32. unfold amo_val. rewrite Z.mod_small by exact MR.
          rewrite Z.land_spec, Z.lor_spec, Z.lxor_spec, Z.testbit_ones_nonneg by lia. unfold mk, sv, zero_extend.
          rewrite (sllw_bits (nbytes t) a sub_n Al _ _ _ (Vk v) Hsh) by lia.
          rewrite (sllw_bits (nbytes t) a sub_n Al _ _ _ (full_range (nbytes t) sub_n) Hsh) by lia.
          replace (i <? 32) with true by (symmetry; apply Z.ltb_lt; lia). fold W.
          destruct (Z.leb_spec (8 * pos (nbytes t) a) i) as [L1|L1]; destruct (Z.ltb_spec i (8 * pos (nbytes t) a + 8 * Z.of_nat (nbytes t))) as [L2|L2]; cbn [andb xorb orb];
            try (rewrite orb_true_r || idtac; now rewrite ?andb_true_r).
          rewrite (full_bits (nbytes t) sub_n) by lia. replace (i - 8 * pos (nbytes t) a <? 8 * Z.of_nat (nbytes t)) with true by (symmetry; apply Z.ltb_lt; lia).
          cbn. now rewrite orb_false_r.
      - unfold bit_or. rewrite TO, (proj1 (proj2 (OB x (to_bits t v) Hr (V v)))).
        unfold sub_word_or in H. rewrite EM in H. cbn [amo_exec] in H.
        apply pair_equal_spec in H as [<- <-]. fold W.
        eapply (sub_gen orb Z.lor m (to_bits t v)); try reflexivity; try eassumption; try apply V.
        + intros; apply Z.lor_spec.
        + change (8 * Z.of_nat 4) with 32. unfold amo_val. rewrite Z.mod_small by apply SR. apply land32; [exact HW32 | apply SR].
        + intros i Hi. change (8 * Z.of_nat 4) with 32. unfold amo_val. rewrite Z.mod_small by apply SR.
          rewrite Z.lor_spec. unfold zero_extend.
          rewrite (sllw_bits (nbytes t) a sub_n Al _ _ _ (Vk v) Hsh) by lia.
          fold W. destruct ((8 * pos (nbytes t) a <=? i) && (i <? 8 * pos (nbytes t) a + 8 * Z.of_nat (nbytes t))); cbn [andb]; [reflexivity | apply orb_false_r].
      - unfold bit_xor. rewrite TO, (proj2 (proj2 (OB x (to_bits t v) Hr (V v)))). now apply XOR.
      - apply XOR in H.
        assert (O : to_bits t (if isigned t then -1 else 2 ^ ibits t - 1) = Z.ones (ibits t)).
        { unfold wf_ity in Hw. pose proof (pow2_pos (ibits t) ltac:(lia)). rewrite Z.ones_equiv. unfold to_bits.
          destruct (isigned t); [symmetry; apply Zmod_unique with (-1); lia | rewrite Z.mod_small; lia]. }
        rewrite O in H. unfold bit_not. rewrite TO, (proj2 (proj2 (OB x (Z.ones (ibits t)) Hr ltac:(rewrite <- O; apply V)))). exact H.
    Qed.
  End Var.
End R.
