(** powerpc64: the loop bodies compute the specified values. *)
From Coq Require Import ZArith List Bool Lia ZifyBool PeanoNat.
From Verif Require Import Words Spec WideSpec WordsFacts Halves LoopModel LoopProofs AsmModel AsmProofs
  BlockModel BlockProofs AtomicImpls AtomicImplsProofs AsmMain PowerModel.
Import ListNotations.
Open Scope Z_scope.

Lemma subc_val a b : (a + not64 b + 1) mod B64 = (a - b) mod B64.
Proof. unfold not64. replace (a + (B64 - 1 - b) + 1) with (a - b + 1 * B64) by lia. now rewrite Z.mod_add. Qed.
Lemma subc_carry a b : (B64 <=? a + not64 b + 1) = negb (a <? b).
Proof. unfold not64. destruct (Z.ltb_spec a b); lia. Qed.
Lemma subfe_val a b c : (not64 a + b + Z.b2z (negb c)) mod B64 = (b - a - Z.b2z c) mod B64.
Proof.
  unfold not64. replace (B64 - 1 - a + b + Z.b2z (negb c)) with (b - a - Z.b2z c + 1 * B64) by (destruct c; cbn [Z.b2z negb]; lia).
  now rewrite Z.mod_add.
Qed.
Lemma subfic_val a : (not64 a + 0 + 1) mod B64 = (0 - a) mod B64.
Proof. rewrite <- (subc_val 0 a). f_equal. lia. Qed.
Lemma subfic_carry a : (B64 <=? not64 a + 0 + 1) = negb (0 <? a).
Proof. rewrite <- (subc_carry 0 a). f_equal. lia. Qed.
Lemma subfze_val a c : (not64 a + Z.b2z (negb c)) mod B64 = (0 - a - Z.b2z c) mod B64.
Proof. rewrite <- (subfe_val a 0 c). f_equal. lia. Qed.

(** What a body needs and provides. *)
Definition ready (t : ity) (r : rmw) (s : st) : Prop :=
  rg s ValLo = lo64 (val_of t r) /\ rg s ValHi = hi64 (val_of t r) /\ rg s Zero = 0.
Definition kept (s s' : st) : Prop :=
  (forall r, r <> R8 -> r <> R9 -> rg s' r = rg s r).

Lemma val_of_u128 t r : wide t -> is_u128 (val_of t r).
Proof.
  intros W. destruct r; cbn [val_of operand]; try (now apply to_bits_u128); unfold is_u128; lia.
Qed.

(** The compare-and-select sequences, with [h], [k] the high halves as compared. *)
Lemma lt_cond (P : Prop) (b : bool) v0 x0 k h : (P <-> k < h \/ k = h /\ v0 < x0) -> reflect P b ->
  b = (k <? h) || ((h =? k) && (v0 <? x0)).
Proof.
  intros E R. destruct R as [p|n]; [apply E in p|rewrite E in n]; clear E;
  destruct (Z.ltb_spec k h), (Z.eqb_spec h k), (Z.ltb_spec v0 x0); cbn; lia.
Qed.
Lemma sel_gt x0 x1 v0 v1 h k : (h = k -> x1 = v1) ->
  join64 (if h =? k then if v0 <? x0 then x0 else v0 else if k <? h then x0 else v0) (if k <? h then x1 else v1)
  = if (k <? h) || ((h =? k) && (v0 <? x0)) then join64 x0 x1 else join64 v0 v1.
Proof.
  intros E. destruct (Z.eqb_spec h k) as [->|N].
  - rewrite Z.ltb_irrefl. cbn [orb andb]. rewrite (E eq_refl). destruct (v0 <? x0); reflexivity.
  - destruct (k <? h); reflexivity.
Qed.
Lemma sel_lt x0 x1 v0 v1 h k : (h = k -> x1 = v1) ->
  join64 (if h =? k then if x0 <? v0 then x0 else v0 else if h <? k then x0 else v0) (if h <? k then x1 else v1)
  = if (k <? h) || ((h =? k) && (v0 <? x0)) then join64 v0 v1 else join64 x0 x1.
Proof.
  intros E. destruct (Z.eqb_spec h k) as [->|N].
  - rewrite Z.ltb_irrefl. cbn [orb andb]. rewrite (E eq_refl).
    destruct (Z.ltb_spec x0 v0), (Z.ltb_spec v0 x0); try reflexivity; try (exfalso; lia); f_equal; lia.
  - cbn [andb]. rewrite orb_false_r. destruct (Z.ltb_spec h k), (Z.ltb_spec k h); try reflexivity; exfalso; lia.
Qed.
Lemma eqb_s64 a b : is_u64 a -> is_u64 b -> (a =? b) = (s64 a =? s64 b).
Proof.
  intros A B. destruct (Z.eqb_spec a b) as [->|N]; [now rewrite Z.eqb_refl|].
  symmetry. apply Z.eqb_neq. intros E. now apply N, s64_inj.
Qed.

Lemma slt_halves_s a0 a1 b0 b1 : is_u64 a0 -> is_u64 b0 -> is_u64 a1 -> is_u64 b1 ->
  of_bits i128 (join64 a0 a1) < of_bits i128 (join64 b0 b1) <-> s64 a1 < s64 b1 \/ s64 a1 = s64 b1 /\ a0 < b0.
Proof.
  intros A B C D. rewrite slt_halves by assumption.
  assert (E : a1 = b1 <-> s64 a1 = s64 b1) by (split; [congruence|now apply s64_inj]). tauto.
Qed.

Lemma body_correct old t r p s x :
  wide t -> rmw_typed t r -> in_range t x -> body old t r = Some p -> ready t r s ->
  rg s R7 = lo64 (to_bits t x) -> rg s R6 = hi64 (to_bits t x) ->
  let s' := bexec exec1 p s in
  join64 (rg s' R9) (rg s' R8) = to_bits t (spec_rmw t r x) /\ kept s s'.
Proof.
  intros W T X P (HL & HH & HZ) H1 H0.
  pose proof (to_bits_u128 t x W) as Ux.
  pose proof (lo64_range (to_bits t x)) as L1. pose proof (hi64_range _ Ux) as L2.
  pose proof (val_of_u128 t r W) as Uv.
  pose proof (lo64_range (val_of t r)) as L3. pose proof (hi64_range _ Uv) as L4.
  pose proof (join_lo_hi (to_bits t x)) as Jx. pose proof (join_lo_hi (val_of t r)) as Jv.
  set (x0 := lo64 (to_bits t x)) in *. set (x1 := hi64 (to_bits t x)) in *.
  set (v0 := lo64 (val_of t r)) in *. set (v1 := hi64 (val_of t r)) in *. clearbody x0 x1 v0 v1.
  destruct s as [fr c0 c1 ca so cr]. cbn [rg] in *.
  Ltac norm1 x := let y := eval cbv beta iota zeta delta [exec1 set1 set_ca set_cr0 set_cr1 cmp bit rg cr0 cr1 CA SO0 crest LT GT EQ] in x in
    eval cbn [setr reg_eqb] in y.
  Ltac runp p s := match p with
    | nil => s
    | ?i :: ?q => let s1 := norm1 (exec1 i s) in runp q s1
    end.
  Ltac fin := match goal with |- context [bexec exec1 ?p ?s] =>
      let p1 := eval cbv [smaxmin umaxmin] in p in
      let s1 := runp p1 s in change (bexec exec1 p s) with s1 end;
    cbv zeta; cbn [rg]; cbn [setr reg_eqb].
  Ltac kp := intros q N1 N2; destruct q; try congruence; reflexivity.
  destruct r; cbn [body] in P; try discriminate; injection P as <-.
  - fin. rewrite H1, H0, HL, HH. split; [|kp].
    rewrite (Z.add_comm v0), (Z.add_comm v1). rewrite add_halves, Jx, Jv by assumption. symmetry; now apply bits_add.
  - fin. rewrite H1, H0, HL, HH. split; [|kp].
    rewrite subc_val, subc_carry, subfe_val, sub_halves, Jx, Jv by assumption. symmetry; now apply bits_sub.
  - fin. rewrite H1, H0, HL, HH. split; [|kp].
    rewrite (Z.land_comm v0), (Z.land_comm v1), land_halves, Jx, Jv by assumption. symmetry; now apply bits_and.
  - fin. rewrite H1, H0, HL, HH. split; [|kp].
    rewrite not_halves, (Z.land_comm v0), (Z.land_comm v1), land_halves, Jx, Jv by assumption. symmetry; now apply bits_nand.
  - fin. rewrite H1, H0, HL, HH. split; [|kp].
    rewrite (Z.lor_comm v0), (Z.lor_comm v1), lor_halves, Jx, Jv by assumption. symmetry; now apply bits_or.
  - fin. rewrite H1, H0, HL, HH. split; [|kp].
    rewrite (Z.lxor_comm v0), (Z.lxor_comm v1), lxor_halves, Jx, Jv by assumption. symmetry; now apply bits_xor.
  - fin. rewrite H1, H0, HL, HH. split; [|kp].
    assert (E : v0 = B64 - 1 /\ v1 = B64 - 1).
    { clear - Jv L3 L4. cbn [val_of] in Jv. unfold join64 in Jv. b64. lia. }
    destruct E as [-> ->]. rewrite (Z.lxor_comm _ x0), (Z.lxor_comm _ x1), <- !not64_lxor, not_halves, Jx by assumption.
    symmetry; now apply bits_not.
  - assert (N : join64 ((0 - x0) mod B64) ((0 - x1 - Z.b2z (0 <? x0)) mod B64) = to_bits t (spec_rmw t Neg x)).
    { rewrite bits_neg by assumption. rewrite <- Jx.
      replace (0 - join64 x0 x1) with (join64 0 0 - join64 x0 x1) by reflexivity.
      apply sub_halves; auto; b64; lia. }
    destruct old; fin; rewrite ?H1, ?H0, ?HZ; (split; [|kp]).
    + now rewrite subc_val, subc_carry, subfze_val.
    + now rewrite subfic_val, subfic_carry, subfze_val.
  - rewrite bits_max by assumption. unfold lt_bits. change (to_bits t v) with (val_of t (Max v)). rewrite <- Jx, <- Jv.
    destruct (isigned t); fin; (split; [|kp]); rewrite H1, H0, HL, HH.
    + rewrite (lt_cond _ _ _ _ _ _ (slt_halves_s v0 v1 x0 x1 L3 L1 L4 L2) (Z.ltb_spec0 _ _)), (eqb_s64 x1 v1) by assumption.
      apply sel_gt. now apply s64_inj.
    + rewrite (lt_cond _ _ _ _ _ _ (lt_halves v0 v1 x0 x1 L3 L1) (Z.ltb_spec0 _ _)). now apply sel_gt.
  - rewrite bits_min by assumption. unfold lt_bits. change (to_bits t v) with (val_of t (Min v)). rewrite <- Jx, <- Jv.
    destruct (isigned t); fin; (split; [|kp]); rewrite H1, H0, HL, HH.
    + rewrite (lt_cond _ _ _ _ _ _ (slt_halves_s v0 v1 x0 x1 L3 L1 L4 L2) (Z.ltb_spec0 _ _)), (eqb_s64 x1 v1) by assumption.
      apply sel_lt. now apply s64_inj.
    + rewrite (lt_cond _ _ _ _ _ _ (lt_halves v0 v1 x0 x1 L3 L1) (Z.ltb_spec0 _ _)). now apply sel_lt.
Qed.

(** ** mfcr *)
Lemma test_cr0_eq_mfcr l gt e so rest :
  test_cr0_eq (Z.b2z l * 2 ^ 31 + Z.b2z gt * 2 ^ 30 + Z.b2z e * 2 ^ 29 + Z.b2z so * 2 ^ 28 + rest mod 2 ^ 28) = e.
Proof.
  unfold test_cr0_eq. set (z := _ + _).
  assert (T : Z.land z 0x20000000 = if Z.testbit z 29 then 2 ^ 29 else 0).
  { change 0x20000000 with (2 ^ 29). apply Z.bits_inj'. intros n Hn. rewrite Z.land_spec.
    destruct (Z.eq_dec n 29) as [->|Nn].
    - rewrite Z.pow2_bits_true by lia. destruct (Z.testbit z 29); [now rewrite Z.pow2_bits_true|now rewrite Z.bits_0].
    - rewrite Z.pow2_bits_false, andb_false_r by lia. destruct (Z.testbit z 29); [rewrite Z.pow2_bits_false by lia|rewrite Z.bits_0]; reflexivity. }
  assert (B : Z.testbit z 29 = e).
  { apply eq_true_iff_eq. rewrite Z.testbit_true by lia. subst z. pose proof (Z.mod_pos_bound rest (2 ^ 28) ltac:(lia)).
    set (q := rest mod 2 ^ 28) in *. clearbody q.
    replace (Z.b2z l * 2 ^ 31 + Z.b2z gt * 2 ^ 30 + Z.b2z e * 2 ^ 29 + Z.b2z so * 2 ^ 28 + q)
      with ((Z.b2z so * 2 ^ 28 + q) + (Z.b2z l * 4 + Z.b2z gt * 2 + Z.b2z e) * 2 ^ 29)
      by (change (2 ^ 31) with 2147483648; change (2 ^ 30) with 1073741824; change (2 ^ 29) with 536870912; lia).
    rewrite Z.div_add, Z.div_small by (destruct so; cbn [Z.b2z]; lia).
    destruct l, gt, e; cbn; intuition congruence. }
  rewrite T, B. destruct e; reflexivity.
Qed.
