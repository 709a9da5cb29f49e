(** The closures compute the specified operation. *)
From Coq Require Import ZArith List Bool Lia.
From Verif Require Import Words Spec WideSpec WordsFacts AtomicImpls.
From Verif Require Import RustOps.
Import ListNotations.
Open Scope Z_scope.

Section C.
  Variable t : ity.
  Hypothesis wf : wf_ity t.
  Local Notation w := (ibits t).
  Local Notation u := (mk_ity (ibits t) false).

  Lemma wfu : wf_ity u. Proof. exact wf. Qed.
  Lemma ofu x : of_bits u x = x. Proof. reflexivity. Qed.
  Lemma castu x : cast u x = to_bits t x. Proof. reflexivity. Qed.
  Lemma tob_id x : 0 <= x < 2 ^ w -> x mod 2 ^ w = x. Proof. apply Z.mod_small. Qed.
  Lemma of_bits_mod x : 0 <= x < 2 ^ w -> exists k, of_bits t x = x + k * 2 ^ w.
  Proof. intros H. unfold of_bits. destruct (_ && _); [exists (-1)|exists 0]; lia. Qed.

  Lemma to_bits_of x : 0 <= x < 2 ^ w -> of_bits t x mod 2 ^ w = x.
  Proof. intros H. exact (to_of_bits t x wf H). Qed.

  Lemma casti x : isigned t = true -> 0 <= x < 2 ^ w -> cast (mk_ity w true) x = of_bits t x.
  Proof.
    intros S H. unfold cast. replace (mk_ity w true) with t by (destruct t; cbn in *; now subst).
    unfold to_bits. now rewrite Z.mod_small.
  Qed.

  Theorem closure_correct r g : rmw_typed t r -> 0 <= g < 2 ^ w -> closure w (select_fn t r) g = next_bits t r g.
  Proof.
    intros T G. unfold next_bits. pose proof (to_bits_of g G) as EG. pose proof (tob_id g G) as EG'.
    assert (W : 0 <= w) by (unfold wf_ity in wf; lia).
    pose proof (to_bits_range t) as RG.
    destruct r; cbn [select_fn closure spec_rmw]; try rewrite castu.
    - reflexivity.
    - rewrite norm_bits by exact wf. unfold wrapping_add. rewrite ofu. unfold to_bits. cbn [ibits].
      rewrite (Zplus_mod (of_bits t g) v), EG, EG', Z.mod_mod by (apply Z.pow_nonzero; lia). reflexivity.
    - rewrite norm_bits by exact wf. unfold wrapping_sub. rewrite ofu. unfold to_bits. cbn [ibits].
      rewrite (Zminus_mod (of_bits t g) v), EG, EG', Z.mod_mod by (apply Z.pow_nonzero; lia). reflexivity.
    - unfold bit_and. rewrite ofu. unfold to_bits. cbn [ibits]. rewrite land_mod by exact W.
      rewrite EG, EG', Z.mod_mod by (apply Z.pow_nonzero; lia). reflexivity.
    - rewrite norm_bits by exact wf. unfold bit_not, bit_and. rewrite !ofu. unfold to_bits. cbn [ibits].
      rewrite lnot_mod, (land_mod (of_bits t g) v), EG, EG', Z.mod_mod by (try exact W; apply Z.pow_nonzero; lia).
      f_equal. apply Z.mod_small. rewrite <- EG' at 1 2. rewrite <- land_mod by exact W. apply Z.mod_pos_bound. now apply pow2_pos.
    - unfold bit_or. rewrite ofu. unfold to_bits. cbn [ibits]. rewrite lor_mod by exact W.
      rewrite EG, EG', Z.mod_mod by (apply Z.pow_nonzero; lia). reflexivity.
    - unfold bit_xor. rewrite ofu. unfold to_bits. cbn [ibits]. rewrite lxor_mod by exact W.
      rewrite EG, EG', Z.mod_mod by (apply Z.pow_nonzero; lia). reflexivity.
    - rewrite norm_bits by exact wf. unfold bit_not. rewrite ofu. unfold to_bits. cbn [ibits].
      replace (- of_bits t g - 1) with (Z.lnot (of_bits t g)) by (unfold Z.lnot; lia).
      rewrite lnot_mod, EG, EG' by exact W. reflexivity.
    - rewrite norm_bits by exact wf. unfold wrapping_neg. rewrite ofu. unfold to_bits. cbn [ibits]. rewrite EG'.
      replace (- of_bits t g) with (0 - of_bits t g) by lia. rewrite (Zminus_mod 0 (of_bits t g)), EG.
      rewrite Z.mod_0_l by (apply Z.pow_nonzero; lia). reflexivity.
    - cbn in T. destruct (isigned t) eqn:S; cbn [closure].
      + rewrite castu, cmp_max_spec, !casti by (auto; apply to_bits_range; exact wf). now rewrite of_to_bits.
      + rewrite cmp_max_spec. assert (O : of_bits t g = g) by (unfold of_bits; now rewrite S). rewrite O.
        assert (V : to_bits t v = v).
        { rewrite <- (of_to_bits t v wf T) at 2. unfold of_bits. now rewrite S. }
        rewrite V. symmetry. apply Z.mod_small. pose proof (to_bits_range t v wf). lia.
    - cbn in T. destruct (isigned t) eqn:S; cbn [closure].
      + rewrite castu, cmp_min_spec, !casti by (auto; apply to_bits_range; exact wf). now rewrite of_to_bits.
      + rewrite cmp_min_spec. assert (O : of_bits t g = g) by (unfold of_bits; now rewrite S). rewrite O.
        assert (V : to_bits t v = v).
        { rewrite <- (of_to_bits t v wf T) at 2. unfold of_bits. now rewrite S. }
        rewrite V. symmetry. apply Z.mod_small. pose proof (to_bits_range t v wf). lia.
  Qed.
End C.
