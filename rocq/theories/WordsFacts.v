(** Facts about machine words. *)
From Coq Require Import ZArith Lia Bool List ZifyBool.
From Verif Require Import Words Spec.
Import ListNotations.
Open Scope Z_scope.

Definition wf_ity (t : ity) : Prop := 0 < ibits t.

Lemma pow2_pos k : 0 <= k -> 0 < 2 ^ k.
Proof. intros; apply Z.pow_pos_nonneg; lia. Qed.

Lemma pow2_half t : wf_ity t -> 2 ^ ibits t = 2 * 2 ^ (ibits t - 1).
Proof. unfold wf_ity; intros. rewrite <- Z.pow_succ_r by lia. f_equal; lia. Qed.

Lemma in_rangeb_iff t x : in_rangeb t x = true <-> in_range t x.
Proof. unfold in_rangeb, in_range. lia. Qed.

Lemma to_bits_range t x : wf_ity t -> 0 <= to_bits t x < 2 ^ ibits t.
Proof. intros H. unfold to_bits. apply Z.mod_pos_bound. apply pow2_pos. unfold wf_ity in H. lia. Qed.

Lemma of_bits_range t b : wf_ity t -> 0 <= b < 2 ^ ibits t -> in_range t (of_bits t b).
Proof.
  intros H Hb. pose proof (pow2_half t H). unfold in_range, imin, imax, of_bits.
  destruct (isigned t); simpl; [destruct (Z.leb_spec (2 ^ (ibits t - 1)) b)|]; lia.
Qed.

Lemma of_to_bits t x : wf_ity t -> in_range t x -> of_bits t (to_bits t x) = x.
Proof.
  intros H Hx. pose proof (pow2_half t H) as Hp.
  assert (0 < 2 ^ (ibits t - 1)) by (apply pow2_pos; unfold wf_ity in H; lia).
  unfold in_range, imin, imax in Hx. unfold of_bits, to_bits.
  destruct (isigned t); simpl.
  - destruct (Z.ltb_spec x 0).
    + replace (x mod 2 ^ ibits t) with (x + 2 ^ ibits t).
      2:{ symmetry. rewrite <- (Z.mod_add x 1) by lia. rewrite Z.mul_1_l. apply Z.mod_small. lia. }
      destruct (Z.leb_spec (2 ^ (ibits t - 1)) (x + 2 ^ ibits t)); lia.
    + rewrite Z.mod_small by lia. destruct (Z.leb_spec (2 ^ (ibits t - 1)) x); lia.
  - apply Z.mod_small; lia.
Qed.

Lemma to_of_bits t b : wf_ity t -> 0 <= b < 2 ^ ibits t -> to_bits t (of_bits t b) = b.
Proof.
  intros H Hb. pose proof (pow2_half t H) as Hp. unfold to_bits, of_bits.
  destruct (isigned t && (2 ^ (ibits t - 1) <=? b)) eqn:E.
  - replace (b - 2 ^ ibits t) with (b + (-1) * 2 ^ ibits t) by lia.
    rewrite Z.mod_add by lia. apply Z.mod_small; lia.
  - apply Z.mod_small; lia.
Qed.

Lemma to_bits_inj t x y : wf_ity t -> in_range t x -> in_range t y -> to_bits t x = to_bits t y -> x = y.
Proof. intros H Hx Hy E. rewrite <- (of_to_bits t x), <- (of_to_bits t y) by assumption. now rewrite E. Qed.

Lemma norm_range t z : wf_ity t -> in_range t (norm t z).
Proof.
  intros H. pose proof (pow2_half t H) as Hp. unfold norm, in_range.
  assert (0 < 2 ^ ibits t) by (apply pow2_pos; unfold wf_ity in H; lia).
  pose proof (Z.mod_pos_bound (z - imin t) (2 ^ ibits t) ltac:(lia)).
  unfold imin, imax in *. destruct (isigned t); lia.
Qed.

Lemma norm_bits t z : wf_ity t -> to_bits t (norm t z) = to_bits t z.
Proof.
  intros H. assert (0 < 2 ^ ibits t) by (apply pow2_pos; unfold wf_ity in H; lia).
  unfold to_bits, norm.
  rewrite Z.add_mod_idemp_r by lia. f_equal. lia.
Qed.

(** [norm] and "bits, then back" agree. *)
Lemma norm_of_to t z : wf_ity t -> of_bits t (to_bits t z) = norm t z.
Proof.
  intros H. rewrite <- norm_bits by assumption. apply of_to_bits; auto using norm_range.
Qed.

Lemma norm_id t x : wf_ity t -> in_range t x -> norm t x = x.
Proof. intros. rewrite <- norm_of_to by assumption. now apply of_to_bits. Qed.

Lemma cast_norm t z : wf_ity t -> cast t z = norm t z.
Proof. intros. unfold cast. now apply norm_of_to. Qed.

Lemma wrapping_add_spec t a b : wf_ity t -> wrapping_add t a b = norm t (a + b).
Proof.
  intros H. assert (0 < 2 ^ ibits t) by (apply pow2_pos; unfold wf_ity in H; lia).
  unfold wrapping_add. rewrite <- norm_of_to by assumption. f_equal.
  unfold to_bits. now rewrite <- Z.add_mod by lia.
Qed.
Lemma wrapping_sub_spec t a b : wf_ity t -> wrapping_sub t a b = norm t (a - b).
Proof.
  intros H. assert (0 < 2 ^ ibits t) by (apply pow2_pos; unfold wf_ity in H; lia).
  unfold wrapping_sub. rewrite <- norm_of_to by assumption. f_equal.
  unfold to_bits. now rewrite <- Zminus_mod by lia.
Qed.
Lemma wrapping_neg_spec t a : wf_ity t -> wrapping_neg t a = norm t (- a).
Proof.
  intros H. assert (0 < 2 ^ ibits t) by (apply pow2_pos; unfold wf_ity in H; lia).
  unfold wrapping_neg. rewrite <- norm_of_to by assumption. f_equal.
  unfold to_bits. rewrite Zminus_mod_idemp_r. f_equal; lia.
Qed.
Lemma wrapping_mul_spec t a b : wf_ity t -> wrapping_mul t a b = norm t (a * b).
Proof.
  intros H. assert (0 < 2 ^ ibits t) by (apply pow2_pos; unfold wf_ity in H; lia).
  unfold wrapping_mul. rewrite <- norm_of_to by assumption. f_equal.
  unfold to_bits. now rewrite <- Z.mul_mod by lia.
Qed.

(** ** Bitwise operations *)
Lemma mod_pow2_testbit a k i : 0 <= k -> 0 <= i -> Z.testbit (a mod 2 ^ k) i = (i <? k) && Z.testbit a i.
Proof.
  intros. destruct (Z.ltb_spec i k).
  - now rewrite Z.mod_pow2_bits_low by lia.
  - now rewrite Z.mod_pow2_bits_high by lia.
Qed.

Lemma land_mod a b k : 0 <= k -> Z.land a b mod 2 ^ k = Z.land (a mod 2 ^ k) (b mod 2 ^ k).
Proof.
  intros. apply Z.bits_inj'; intros i Hi.
  rewrite Z.land_spec, !mod_pow2_testbit, Z.land_spec by lia. destruct (i <? k); simpl; auto.
Qed.
Lemma lor_mod a b k : 0 <= k -> Z.lor a b mod 2 ^ k = Z.lor (a mod 2 ^ k) (b mod 2 ^ k).
Proof.
  intros. apply Z.bits_inj'; intros i Hi.
  rewrite Z.lor_spec, !mod_pow2_testbit, Z.lor_spec by lia. destruct (i <? k); simpl; auto.
Qed.
Lemma lxor_mod a b k : 0 <= k -> Z.lxor a b mod 2 ^ k = Z.lxor (a mod 2 ^ k) (b mod 2 ^ k).
Proof.
  intros. apply Z.bits_inj'; intros i Hi.
  rewrite Z.lxor_spec, !mod_pow2_testbit, Z.lxor_spec by lia. destruct (i <? k); simpl; auto.
Qed.
Lemma lnot_mod a k : 0 <= k -> Z.lnot a mod 2 ^ k = Z.lxor (a mod 2 ^ k) (Z.ones k).
Proof.
  intros. apply Z.bits_inj'; intros i Hi.
  rewrite Z.lxor_spec, !mod_pow2_testbit, Z.lnot_spec by lia.
  destruct (Z.ltb_spec i k).
  - rewrite Z.ones_spec_low by lia. simpl. now destruct (Z.testbit a i).
  - rewrite Z.ones_spec_high by lia. reflexivity.
Qed.

(** In-range values under bitwise operations stay in range: characterise the range by bits. *)
Lemma in_range_unsigned_bits k x : 0 <= k -> (0 <= x < 2 ^ k <-> forall i, k <= i -> Z.testbit x i = false).
Proof.
  intros Hk. split.
  - intros [H1 H2] i Hi. destruct (Z.eq_dec x 0) as [->|Hn]. { apply Z.testbit_0_l. }
    apply Z.bits_above_log2; [lia|]. apply Z.lt_le_trans with k; [|lia].
    apply Z.log2_lt_pow2; lia.
  - intros H. assert (E : x = x mod 2 ^ k).
    { apply Z.bits_inj'; intros i Hi. rewrite mod_pow2_testbit by lia.
      destruct (Z.ltb_spec i k); simpl; auto. }
    rewrite E. apply Z.mod_pos_bound. now apply pow2_pos.
Qed.

Lemma in_range_signed_bits k x : 0 <= k ->
  (- 2 ^ k <= x < 2 ^ k <-> forall i, k <= i -> Z.testbit x i = Z.testbit x k).
Proof.
  intros Hk. assert (0 < 2 ^ k) by now apply pow2_pos. split.
  - intros [H1 H2] i Hi. destruct (Z.ltb_spec x 0).
    + assert (forall j, k <= j -> Z.testbit x j = true) as Hj.
      { intros j Hj. assert (0 <= Z.lnot x < 2 ^ k) as Hl. { unfold Z.lnot. lia. }
        pose proof (proj1 (in_range_unsigned_bits k _ Hk) Hl j Hj) as Hb.
        rewrite Z.lnot_spec in Hb by lia. now destruct (Z.testbit x j). }
      now rewrite !Hj by lia.
    + assert (0 <= x < 2 ^ k) as Hl by lia.
      pose proof (proj1 (in_range_unsigned_bits k _ Hk) Hl) as Hb. now rewrite !Hb by lia.
  - intros H0. destruct (Z.testbit x k) eqn:E.
    + assert (0 <= Z.lnot x < 2 ^ k) as Hl.
      { apply in_range_unsigned_bits; [lia|]. intros i Hi. rewrite Z.lnot_spec by lia.
        now rewrite H0 by lia. }
      unfold Z.lnot in Hl. lia.
    + assert (0 <= x < 2 ^ k) by (apply in_range_unsigned_bits; auto; intros; apply H0; lia). lia.
Qed.

Lemma in_range_bits t x : wf_ity t ->
  (in_range t x <->
   forall i, (if isigned t then ibits t - 1 else ibits t) <= i ->
     Z.testbit x i = (isigned t && Z.testbit x (ibits t - 1))%bool).
Proof.
  intros H. unfold wf_ity in H. unfold in_range, imin, imax. destruct (isigned t); simpl.
  - rewrite <- in_range_signed_bits by lia. lia.
  - rewrite <- in_range_unsigned_bits by lia. lia.
Qed.

Lemma land_in_range t a b : wf_ity t -> in_range t a -> in_range t b -> in_range t (Z.land a b).
Proof.
  intros H Ha Hb. rewrite in_range_bits in * by assumption. intros i Hi.
  rewrite !Z.land_spec, Ha, Hb by assumption. destruct (isigned t); reflexivity.
Qed.
Lemma lor_in_range t a b : wf_ity t -> in_range t a -> in_range t b -> in_range t (Z.lor a b).
Proof.
  intros H Ha Hb. rewrite in_range_bits in * by assumption. intros i Hi.
  rewrite !Z.lor_spec, Ha, Hb by assumption. destruct (isigned t); reflexivity.
Qed.
Lemma lxor_in_range t a b : wf_ity t -> in_range t a -> in_range t b -> in_range t (Z.lxor a b).
Proof.
  intros H Ha Hb. rewrite in_range_bits in * by assumption. intros i Hi.
  rewrite !Z.lxor_spec, Ha, Hb by assumption. destruct (isigned t); reflexivity.
Qed.

Lemma bit_and_spec t a b : wf_ity t -> in_range t a -> in_range t b -> bit_and t a b = Z.land a b.
Proof.
  intros H Ha Hb. unfold bit_and, to_bits. unfold wf_ity in H. rewrite <- land_mod by lia.
  apply of_to_bits; auto using land_in_range.
Qed.
Lemma bit_or_spec t a b : wf_ity t -> in_range t a -> in_range t b -> bit_or t a b = Z.lor a b.
Proof.
  intros H Ha Hb. unfold bit_or, to_bits. unfold wf_ity in H. rewrite <- lor_mod by lia.
  apply of_to_bits; auto using lor_in_range.
Qed.
Lemma bit_xor_spec t a b : wf_ity t -> in_range t a -> in_range t b -> bit_xor t a b = Z.lxor a b.
Proof.
  intros H Ha Hb. unfold bit_xor, to_bits. unfold wf_ity in H. rewrite <- lxor_mod by lia.
  apply of_to_bits; auto using lxor_in_range.
Qed.
Lemma bit_not_spec t a : wf_ity t -> bit_not t a = norm t (Z.lnot a).
Proof.
  intros H. unfold bit_not, to_bits. unfold wf_ity in H. rewrite <- lnot_mod by lia.
  now apply norm_of_to.
Qed.
Lemma cmp_max_spec a b : cmp_max a b = Z.max a b.
Proof. unfold cmp_max. destruct (Z.leb_spec a b); lia. Qed.
Lemma cmp_min_spec a b : cmp_min a b = Z.min a b.
Proof. unfold cmp_min. destruct (Z.leb_spec a b); lia. Qed.

(** ** Chunks *)
Lemma split_le_length k n b : length (split_le k n b) = n.
Proof. revert b; induction n; simpl; auto. Qed.

Lemma join_split_le k n b : 0 <= k -> 0 <= b < 2 ^ (k * Z.of_nat n) -> join_le k (split_le k n b) = b.
Proof.
  intros Hk. assert (0 < 2 ^ k) by now apply pow2_pos.
  revert b; induction n as [|n IH]; intros b Hb.
  - simpl in *. rewrite Z.mul_0_r in Hb. simpl in Hb. lia.
  - cbn [split_le join_le]. rewrite IH.
    + pose proof (Z.div_mod b (2 ^ k)). lia.
    + replace (k * Z.of_nat (S n)) with (k + k * Z.of_nat n) in Hb by lia.
      rewrite Z.pow_add_r in Hb by lia. split.
      * apply Z.div_pos; lia.
      * apply Z.div_lt_upper_bound; lia.
Qed.

Lemma split_le_chunk_range k n b c : 0 <= k -> In c (split_le k n b) -> 0 <= c < 2 ^ k.
Proof.
  intros Hk. revert b; induction n as [|n IH]; simpl; intros b [].
  - subst. apply Z.mod_pos_bound. now apply pow2_pos.
  - eauto.
Qed.

Lemma split_join_le k cs : 0 <= k -> Forall (fun c => 0 <= c < 2 ^ k) cs ->
  split_le k (length cs) (join_le k cs) = cs.
Proof.
  intros Hk HF. assert (0 < 2 ^ k) by now apply pow2_pos.
  induction HF as [|c cs Hc HF IH]; cbn [length split_le join_le]; auto.
  rewrite (Z.mul_comm (2 ^ k)), Z.mod_add, Z.div_add by lia.
  rewrite Z.mod_small, Z.div_small by lia. now rewrite Z.add_0_l, IH.
Qed.

Lemma join_le_range k cs : 0 <= k -> Forall (fun c => 0 <= c < 2 ^ k) cs ->
  0 <= join_le k cs < 2 ^ (k * Z.of_nat (length cs)).
Proof.
  intros Hk HF. assert (0 < 2 ^ k) by now apply pow2_pos.
  induction HF as [|c cs Hc HF IH]; cbn [length join_le].
  - rewrite Z.mul_0_r. simpl. lia.
  - replace (k * Z.of_nat (S (length cs))) with (k + k * Z.of_nat (length cs)) by lia.
    rewrite Z.pow_add_r by lia. nia.
Qed.
