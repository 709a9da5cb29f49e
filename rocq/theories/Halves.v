(** * A 128-bit value as two 64-bit halves

    Facts shared by the per-architecture instruction models.  Pure arithmetic. *)
From Coq Require Import ZArith Lia Bool ZifyBool.
From Verif Require Import Words Spec WordsFacts.
Open Scope Z_scope.

Definition B64 : Z := 2 ^ 64.
Definition lo64 (x : Z) : Z := x mod B64.
Definition hi64 (x : Z) : Z := x / B64.
Definition join64 (lo hi : Z) : Z := lo + B64 * hi.
Definition is_u64 (x : Z) : Prop := 0 <= x < B64.
Definition is_u128 (x : Z) : Prop := 0 <= x < 2 ^ 128.
(** signed reading of a 64-bit register *)
Definition s64 (x : Z) : Z := if 2 ^ 63 <=? x then x - B64 else x.

Lemma B64_eq : B64 = 18446744073709551616.
Proof. reflexivity. Qed.
Lemma B128_eq : 2 ^ 128 = B64 * B64.
Proof. reflexivity. Qed.
Ltac b64 := unfold is_u64, is_u128 in *; try rewrite B128_eq in *; try rewrite B64_eq in *.

Lemma lo64_range x : is_u64 (lo64 x).
Proof. unfold lo64, is_u64. apply Z.mod_pos_bound. reflexivity. Qed.
Lemma hi64_range x : is_u128 x -> is_u64 (hi64 x).
Proof.
  unfold is_u128, is_u64, hi64. rewrite B128_eq. intros H. pose proof B64_eq.
  split; [apply Z.div_pos; lia|apply Z.div_lt_upper_bound; lia].
Qed.
Lemma join_lo_hi x : join64 (lo64 x) (hi64 x) = x.
Proof. unfold join64, lo64, hi64. pose proof (Z.div_mod x B64). pose proof B64_eq. lia. Qed.
Lemma lo_join l h : is_u64 l -> lo64 (join64 l h) = l.
Proof.
  unfold lo64, join64, is_u64. intros. rewrite Z.mul_comm, Z.mod_add by (rewrite B64_eq; lia).
  now apply Z.mod_small.
Qed.
Lemma hi_join l h : is_u64 l -> hi64 (join64 l h) = h.
Proof.
  unfold hi64, join64, is_u64. intros. rewrite Z.mul_comm, Z.div_add by (rewrite B64_eq; lia).
  rewrite Z.div_small by lia. lia.
Qed.
Lemma join_range l h : is_u64 l -> is_u64 h -> is_u128 (join64 l h).
Proof. unfold join64. b64. lia. Qed.
Lemma join_inj l h x : is_u64 l -> x = join64 l h -> l = lo64 x /\ h = hi64 x.
Proof. intros H ->. now rewrite lo_join, hi_join. Qed.

Lemma mod_unique_pos a b q r : 0 <= r < b -> a = b * q + r -> a mod b = r.
Proof. intros. symmetry. apply Z.mod_unique with q; lia. Qed.

(** ** Carries *)
Lemma add_halves a0 a1 b0 b1 : is_u64 a0 -> is_u64 a1 -> is_u64 b0 -> is_u64 b1 ->
  join64 ((a0 + b0) mod B64) ((a1 + b1 + Z.b2z (B64 <=? a0 + b0)) mod B64)
  = (join64 a0 a1 + join64 b0 b1) mod 2 ^ 128.
Proof.
  unfold join64. b64. intros.
  destruct (Z.leb_spec 18446744073709551616 (a0 + b0)); cbn [Z.b2z];
  Z.to_euclidean_division_equations; lia.
Qed.
Lemma sub_halves a0 a1 b0 b1 : is_u64 a0 -> is_u64 a1 -> is_u64 b0 -> is_u64 b1 ->
  join64 ((a0 - b0) mod B64) ((a1 - b1 - Z.b2z (a0 <? b0)) mod B64)
  = (join64 a0 a1 - join64 b0 b1) mod 2 ^ 128.
Proof.
  unfold join64. b64. intros.
  destruct (Z.ltb_spec a0 b0); cbn [Z.b2z]; Z.to_euclidean_division_equations; lia.
Qed.

(** ** Bitwise *)
Lemma testbit_join l h i : is_u64 l -> 0 <= i ->
  Z.testbit (join64 l h) i = if i <? 64 then Z.testbit l i else Z.testbit h (i - 64).
Proof.
  intros Hl Hi. unfold join64. destruct (Z.ltb_spec i 64).
  - rewrite <- (Z.mod_pow2_bits_low (l + B64 * h) 64 i) by lia. f_equal.
    unfold B64. rewrite (Z.mul_comm (2^64)), Z.mod_add by lia. now apply Z.mod_small.
  - rewrite <- (Z.sub_add 64 i) at 1. rewrite <- Z.shiftr_spec by lia. f_equal.
    rewrite Z.shiftr_div_pow2 by lia. fold B64. now apply hi_join.
Qed.
Lemma u64_land a b : is_u64 a -> is_u64 b -> is_u64 (Z.land a b).
Proof.
  unfold is_u64, B64. rewrite !in_range_unsigned_bits by lia. intros Ha Hb i Hi.
  now rewrite Z.land_spec, Ha, Hb.
Qed.
Lemma u64_lor a b : is_u64 a -> is_u64 b -> is_u64 (Z.lor a b).
Proof.
  unfold is_u64, B64. rewrite !in_range_unsigned_bits by lia. intros Ha Hb i Hi.
  now rewrite Z.lor_spec, Ha, Hb.
Qed.
Lemma u64_lxor a b : is_u64 a -> is_u64 b -> is_u64 (Z.lxor a b).
Proof.
  unfold is_u64, B64. rewrite !in_range_unsigned_bits by lia. intros Ha Hb i Hi.
  now rewrite Z.lxor_spec, Ha, Hb.
Qed.
Lemma land_halves a0 a1 b0 b1 : is_u64 a0 -> is_u64 b0 ->
  join64 (Z.land a0 b0) (Z.land a1 b1) = Z.land (join64 a0 a1) (join64 b0 b1).
Proof.
  intros. apply Z.bits_inj'; intros i Hi. rewrite Z.land_spec, !testbit_join by auto using u64_land.
  destruct (i <? 64); now rewrite Z.land_spec.
Qed.
Lemma lor_halves a0 a1 b0 b1 : is_u64 a0 -> is_u64 b0 ->
  join64 (Z.lor a0 b0) (Z.lor a1 b1) = Z.lor (join64 a0 a1) (join64 b0 b1).
Proof.
  intros. apply Z.bits_inj'; intros i Hi. rewrite Z.lor_spec, !testbit_join by auto using u64_lor.
  destruct (i <? 64); now rewrite Z.lor_spec.
Qed.
Lemma lxor_halves a0 a1 b0 b1 : is_u64 a0 -> is_u64 b0 ->
  join64 (Z.lxor a0 b0) (Z.lxor a1 b1) = Z.lxor (join64 a0 a1) (join64 b0 b1).
Proof.
  intros. apply Z.bits_inj'; intros i Hi. rewrite Z.lxor_spec, !testbit_join by auto using u64_lxor.
  destruct (i <? 64); now rewrite Z.lxor_spec.
Qed.
(** [!x] on a 64-bit register *)
Definition not64 (x : Z) : Z := B64 - 1 - x.
Lemma u64_not a : is_u64 a -> is_u64 (not64 a).
Proof. unfold not64. b64. lia. Qed.
Lemma not_halves a0 a1 : join64 (not64 a0) (not64 a1) = 2 ^ 128 - 1 - join64 a0 a1.
Proof. unfold join64, not64. b64. lia. Qed.
Lemma not64_lxor a : is_u64 a -> not64 a = Z.lxor a (B64 - 1).
Proof.
  intros. change (B64 - 1) with (Z.ones 64).
  rewrite <- (Z.mod_small a (2 ^ 64)) at 2 by (fold B64; exact H).
  rewrite <- lnot_mod by lia. unfold not64, Z.lnot. symmetry.
  apply mod_unique_pos with (-1); [|unfold B64]; b64; lia.
Qed.

(** ** Comparisons *)
Lemma lt_halves a0 a1 b0 b1 : is_u64 a0 -> is_u64 b0 ->
  join64 a0 a1 < join64 b0 b1 <-> a1 < b1 \/ a1 = b1 /\ a0 < b0.
Proof. unfold join64. b64. lia. Qed.
(** signed reading of a 128-bit pattern *)
Lemma s128_halves l h : is_u64 l -> is_u64 h -> of_bits i128 (join64 l h) = l + B64 * s64 h.
Proof.
  intros. unfold of_bits, i128, join64, s64. cbn [isigned ibits andb].
  change (2 ^ (128 - 1)) with (B64 * 2 ^ 63). change (2 ^ 63) with 9223372036854775808.
  b64.
  destruct (Z.leb_spec (18446744073709551616 * 9223372036854775808) (l + 18446744073709551616 * h));
  destruct (Z.leb_spec 9223372036854775808 h); lia.
Qed.
Lemma slt_halves a0 a1 b0 b1 : is_u64 a0 -> is_u64 b0 -> is_u64 a1 -> is_u64 b1 ->
  of_bits i128 (join64 a0 a1) < of_bits i128 (join64 b0 b1) <-> s64 a1 < s64 b1 \/ a1 = b1 /\ a0 < b0.
Proof.
  intros. rewrite !s128_halves by assumption. unfold s64. b64.
  change (2 ^ 63) with 9223372036854775808.
  destruct (Z.leb_spec 9223372036854775808 a1); destruct (Z.leb_spec 9223372036854775808 b1); lia.
Qed.
Lemma s64_inj a b : is_u64 a -> is_u64 b -> s64 a = s64 b -> a = b.
Proof. unfold s64. b64. intros. destruct (2 ^ 63 <=? a) eqn:?, (2 ^ 63 <=? b) eqn:?; lia. Qed.
Lemma s64_range a : is_u64 a -> - 2 ^ 63 <= s64 a < 2 ^ 63.
Proof.
  unfold s64. b64. intros. change (2 ^ 63) with 9223372036854775808.
  destruct (Z.leb_spec 9223372036854775808 a); lia.
Qed.

(** ** What the operations do to bit patterns.  [bits_rmw] is the specification read on bit patterns. *)
Definition wide (t : ity) : Prop := ibits t = 128.
Lemma wide_wf t : wide t -> wf_ity t.
Proof. unfold wide, wf_ity. lia. Qed.
Lemma bits_add t v x : wide t -> to_bits t (spec_rmw t (Add v) x) = (to_bits t x + to_bits t v) mod 2 ^ 128.
Proof.
  intros W. cbn [spec_rmw]. rewrite norm_bits by now apply wide_wf. unfold to_bits. rewrite W.
  now rewrite <- Z.add_mod.
Qed.
Lemma bits_sub t v x : wide t -> to_bits t (spec_rmw t (Sub v) x) = (to_bits t x - to_bits t v) mod 2 ^ 128.
Proof.
  intros W. cbn [spec_rmw]. rewrite norm_bits by now apply wide_wf. unfold to_bits. rewrite W.
  now rewrite <- Zminus_mod.
Qed.
Lemma bits_neg t x : wide t -> to_bits t (spec_rmw t Neg x) = (0 - to_bits t x) mod 2 ^ 128.
Proof.
  intros W. cbn [spec_rmw]. rewrite norm_bits by now apply wide_wf. unfold to_bits. rewrite W.
  rewrite Zminus_mod_idemp_r. f_equal; lia.
Qed.
Lemma bits_and t v x : wide t -> to_bits t (spec_rmw t (And v) x) = Z.land (to_bits t x) (to_bits t v).
Proof. intros W. cbn [spec_rmw]. unfold to_bits. rewrite W. now rewrite <- land_mod. Qed.
Lemma bits_or t v x : wide t -> to_bits t (spec_rmw t (Or v) x) = Z.lor (to_bits t x) (to_bits t v).
Proof. intros W. cbn [spec_rmw]. unfold to_bits. rewrite W. now rewrite <- lor_mod. Qed.
Lemma bits_xor t v x : wide t -> to_bits t (spec_rmw t (Xor v) x) = Z.lxor (to_bits t x) (to_bits t v).
Proof. intros W. cbn [spec_rmw]. unfold to_bits. rewrite W. now rewrite <- lxor_mod. Qed.
Lemma bits_lnot t z : wide t -> to_bits t (norm t (Z.lnot z)) = 2 ^ 128 - 1 - to_bits t z.
Proof.
  intros W. rewrite norm_bits by now apply wide_wf. unfold to_bits. rewrite W. unfold Z.lnot.
  pose proof (Z.div_mod z (2 ^ 128) ltac:(lia)). pose proof (Z.mod_pos_bound z (2 ^ 128) ltac:(lia)).
  apply mod_unique_pos with (- (z / 2 ^ 128) - 1); lia.
Qed.
Lemma bits_not t x : wide t -> to_bits t (spec_rmw t Not x) = 2 ^ 128 - 1 - to_bits t x.
Proof. intros W. cbn [spec_rmw]. replace (- x - 1) with (Z.lnot x) by (unfold Z.lnot; lia). now apply bits_lnot. Qed.
Lemma bits_nand t v x : wide t ->
  to_bits t (spec_rmw t (Nand v) x) = 2 ^ 128 - 1 - Z.land (to_bits t x) (to_bits t v).
Proof.
  intros W. cbn [spec_rmw]. rewrite bits_lnot by assumption. f_equal.
  unfold to_bits. rewrite W. now rewrite <- land_mod.
Qed.
(** [v < x] decided on bit patterns *)
Definition lt_bits (t : ity) (a b : Z) : bool :=
  if isigned t then of_bits i128 a <? of_bits i128 b else a <? b.
Lemma lt_bits_spec t v x : wide t -> in_range t v -> in_range t x -> lt_bits t (to_bits t v) (to_bits t x) = (v <? x).
Proof.
  intros W Hv Hx. pose proof (wide_wf t W) as F.
  pose proof (of_to_bits t v F Hv) as E1. pose proof (of_to_bits t x F Hx) as E2.
  unfold lt_bits. destruct t as [b sg]; unfold wide in W; cbn [ibits] in W; subst b.
  cbn [isigned]. destruct sg.
  - fold i128 in *. now rewrite E1, E2.
  - rewrite <- E1 at 2. rewrite <- E2 at 2. unfold of_bits. cbn [isigned andb]. reflexivity.
Qed.
Lemma bits_max t v x : wide t -> in_range t v -> in_range t x ->
  to_bits t (spec_rmw t (Max v) x) = if lt_bits t (to_bits t v) (to_bits t x) then to_bits t x else to_bits t v.
Proof.
  intros. rewrite lt_bits_spec by assumption. cbn [spec_rmw].
  destruct (Z.ltb_spec v x); f_equal; lia.
Qed.
Lemma bits_min t v x : wide t -> in_range t v -> in_range t x ->
  to_bits t (spec_rmw t (Min v) x) = if lt_bits t (to_bits t v) (to_bits t x) then to_bits t v else to_bits t x.
Proof.
  intros. rewrite lt_bits_spec by assumption. cbn [spec_rmw].
  destruct (Z.ltb_spec v x); f_equal; lia.
Qed.
Lemma to_bits_u128 t x : wide t -> is_u128 (to_bits t x).
Proof. intros W. unfold is_u128. rewrite <- W. apply to_bits_range. now apply wide_wf. Qed.

(** ** Flags of a 64-bit subtraction *)
(** Signed overflow: the exact signed result does not fit. *)
Definition ovf (z : Z) : bool := (z <? - 2 ^ 63) || (2 ^ 63 <=? z).
Definition zf (v : Z) : bool := v =? 0.
Definition sf (v : Z) : bool := 2 ^ 63 <=? v.

Lemma mod_u64 z : is_u64 (z mod B64).
Proof. apply Z.mod_pos_bound. reflexivity. Qed.

(** [cmp lo; sbb hi] compares 128-bit numbers. *)
Lemma borrow_ult a0 a1 b0 b1 : is_u64 a0 -> is_u64 b0 ->
  (a1 <? b1 + Z.b2z (a0 <? b0)) = (join64 a0 a1 <? join64 b0 b1).
Proof.
  intros Ha Hb. pose proof (lt_halves a0 a1 b0 b1 Ha Hb).
  destruct (Z.ltb_spec a0 b0); cbn [Z.b2z]; lia.
Qed.
Lemma borrow_slt a0 a1 b0 b1 : is_u64 a0 -> is_u64 b0 -> is_u64 a1 -> is_u64 b1 ->
  xorb (sf ((a1 - b1 - Z.b2z (a0 <? b0)) mod B64)) (ovf (s64 a1 - s64 b1 - Z.b2z (a0 <? b0)))
  = (of_bits i128 (join64 a0 a1) <? of_bits i128 (join64 b0 b1)).
Proof.
  intros Ha Hb Ha1 Hb1.
  pose proof (slt_halves a0 a1 b0 b1 Ha Hb Ha1 Hb1) as E.
  assert (E2 : a1 = b1 <-> s64 a1 = s64 b1).
  { split; [congruence|now apply s64_inj]. }
  set (d := s64 a1 - s64 b1 - Z.b2z (a0 <? b0)) in *.
  assert (M : (a1 - b1 - Z.b2z (a0 <? b0)) mod B64 = d mod B64).
  { unfold d, s64. destruct (2 ^ 63 <=? a1), (2 ^ 63 <=? b1).
    - f_equal; lia.
    - replace (a1 - B64 - b1 - Z.b2z (a0 <? b0)) with (a1 - b1 - Z.b2z (a0 <? b0) + (-1) * B64) by lia.
      now rewrite Z.mod_add.
    - replace (a1 - (b1 - B64) - Z.b2z (a0 <? b0)) with (a1 - b1 - Z.b2z (a0 <? b0) + 1 * B64) by lia.
      now rewrite Z.mod_add.
    - f_equal; lia. }
  rewrite M. pose proof (s64_range a1 Ha1). pose proof (s64_range b1 Hb1).
  assert (D : d < 0 <-> s64 a1 < s64 b1 \/ a1 = b1 /\ a0 < b0).
  { rewrite E2. unfold d. destruct (Z.ltb_spec a0 b0); cbn [Z.b2z]; lia. }
  assert (R : - 2 ^ 64 <= d < 2 ^ 64).
  { unfold d. change (2 ^ 64) with (2 * 2 ^ 63). destruct (a0 <? b0); cbn [Z.b2z]; lia. }
  assert (X : xorb (sf (d mod B64)) (ovf d) = (d <? 0)).
  { unfold sf, ovf. clear - R. change (2 ^ 63) with 9223372036854775808. rewrite B64_eq.
    change (2 ^ 64) with 18446744073709551616 in R.
    destruct (Z.ltb_spec d 0).
    - destruct (Z.ltb_spec d (-9223372036854775808)).
      + replace (d mod 18446744073709551616) with (d + 18446744073709551616)
          by (symmetry; apply mod_unique_pos with (-1); lia). lia.
      + replace (d mod 18446744073709551616) with (d + 18446744073709551616)
          by (symmetry; apply mod_unique_pos with (-1); lia). lia.
    - rewrite Z.mod_small by lia. lia. }
  rewrite X. lia.
Qed.
