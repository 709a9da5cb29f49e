(** Proofs about the float specification. *)
From Coq Require Import ZArith Bool Lia ZifyBool Floats.SpecFloat.
From Verif Require Import Words WordsFacts FrontSpec FrontModel FrontProofs FloatSpec.
Open Scope Z_scope.

Lemma sfsub_opp p e x y : SFadd p e x (SFopp y) = SFsub p e x y.
Proof.
  destruct x as [sx|sx| |sx mx ex], y as [sy|sy| |sy my ey]; cbn [SFopp SFadd SFsub]; try reflexivity.
  cbv zeta. f_equal. destruct sy; cbn [negb cond_Zopp]; lia.
Qed.

Section F.
  Variables mw ew : Z.
  Hypothesis MW : 0 < mw.
  Hypothesis EW : 0 < ew.
  Local Notation n := (mw + ew).
  Lemma split_top x : 0 <= x < 2 ^ (1 + mw + ew) ->
    0 < 2 ^ mw /\ 0 < 2 ^ ew /\ 2 ^ n = 2 ^ mw * 2 ^ ew /\ 0 <= x mod 2 ^ n < 2 ^ n /\ (x / 2 ^ n = 0 \/ x / 2 ^ n = 1) /\ x = 2 ^ n * (x / 2 ^ n) + x mod 2 ^ n.
  Proof.
    intros X. pose proof (pow2_pos mw ltac:(lia)). pose proof (pow2_pos ew ltac:(lia)). pose proof (pow2_pos n ltac:(lia)) as P.
    rewrite <- Z.add_assoc, Z.pow_add_r in X by lia. change (2 ^ 1) with 2 in X.
    split; [assumption|]. split; [assumption|]. split; [now apply Z.pow_add_r; lia|]. split; [now apply Z.mod_pos_bound|].
    split; [|apply Z.div_mod; lia].
    assert (0 <= x / 2 ^ n) by (apply Z.div_pos; lia). assert (x / 2 ^ n < 2) by (apply Z.div_lt_upper_bound; lia). lia.
  Qed.
  (** Fields only depend on the sign bit and the rest. *)
  Lemma fields s r : (s = 0 \/ s = 1) -> 0 <= r < 2 ^ n ->
    fsign mw ew (s * 2 ^ n + r) = (s =? 1) /\ fmant mw (s * 2 ^ n + r) = fmant mw r /\ fexpo mw ew (s * 2 ^ n + r) = fexpo mw ew r.
  Proof.
    intros S R. pose proof (pow2_pos mw ltac:(lia)). pose proof (pow2_pos ew ltac:(lia)).
    assert (E : 2 ^ n = 2 ^ mw * 2 ^ ew) by (apply Z.pow_add_r; lia).
    unfold fsign, fmant, fexpo. split; [lia|]. split.
    - rewrite E. replace (s * (2 ^ mw * 2 ^ ew) + r) with (r + s * 2 ^ ew * 2 ^ mw) by ring. apply Z.mod_add. lia.
    - rewrite E. replace (s * (2 ^ mw * 2 ^ ew) + r) with (r + s * 2 ^ ew * 2 ^ mw) by ring. rewrite Z.div_add by lia.
      apply Z.mod_add. lia.
  Qed.
  Lemma decode_sign s r : (s = 0 \/ s = 1) -> 0 <= r < 2 ^ n ->
    decode mw ew (s * 2 ^ n + r) =
      if fexpo mw ew r =? 0 then
        if fmant mw r =? 0 then S754_zero (s =? 1) else S754_finite (s =? 1) (Z.to_pos (fmant mw r)) (emin (fprec mw) (femax ew))
      else if fexpo mw ew r =? 2 ^ ew - 1 then
        if fmant mw r =? 0 then S754_infinity (s =? 1) else S754_nan
      else S754_finite (s =? 1) (Z.to_pos (fmant mw r + 2 ^ mw)) (fexpo mw ew r + emin (fprec mw) (femax ew) - 1).
  Proof. intros S R. unfold decode. destruct (fields s r S R) as (-> & -> & ->). reflexivity. Qed.

  Lemma decode_neg x : 0 <= x < 2 ^ (1 + mw + ew) ->
    decode mw ew ((1 - fl_sign mw ew x) * 2 ^ n + fl_rest mw ew x) = SFopp (decode mw ew x).
  Proof.
    intros X. destruct (split_top x X) as (_ & _ & _ & R & S & E). unfold fl_sign, fl_rest.
    rewrite E at 3. rewrite (Z.mul_comm (2 ^ n)), !decode_sign by lia.
    destruct (fexpo mw ew (x mod 2 ^ n) =? 0), (fmant mw (x mod 2 ^ n) =? 0), (fexpo mw ew (x mod 2 ^ n) =? 2 ^ ew - 1); destruct S as [S|S]; rewrite ?S; reflexivity.
  Qed.
  Lemma decode_abs x : 0 <= x < 2 ^ (1 + mw + ew) -> decode mw ew (fl_rest mw ew x) = SFabs (decode mw ew x).
  Proof.
    intros X. destruct (split_top x X) as (_ & _ & _ & R & S & E). unfold fl_rest.
    rewrite E at 2. rewrite (Z.mul_comm (2 ^ n)), decode_sign by lia.
    replace (x mod 2 ^ n) with (0 * 2 ^ n + x mod 2 ^ n) at 1 by lia. rewrite decode_sign by lia.
    destruct (fexpo mw ew (x mod 2 ^ n) =? 0), (fmant mw (x mod 2 ^ n) =? 0), (fexpo mw ew (x mod 2 ^ n) =? 2 ^ ew - 1); destruct S as [S|S]; rewrite ?S; reflexivity.
  Qed.
  Lemma neg_range x : 0 <= x < 2 ^ (1 + mw + ew) ->
    0 <= (1 - fl_sign mw ew x) * 2 ^ n + fl_rest mw ew x < 2 ^ (1 + mw + ew).
  Proof.
    intros X. destruct (split_top x X) as (_ & _ & _ & R & S & E). unfold fl_sign, fl_rest.
    assert (2 ^ (1 + mw + ew) = 2 * 2 ^ n) by (rewrite <- Z.add_assoc, (Z.pow_add_r 2 1) by lia; reflexivity).
    destruct S as [-> | ->]; lia.
  Qed.
  Lemma negated_eq v : 0 <= v < 2 ^ (1 + mw + ew) ->
    negated (fl_ity mw ew) v = (1 - fl_sign mw ew v) * 2 ^ n + fl_rest mw ew v.
  Proof.
    intros V. destruct (neg_mask mw ew MW EW) as [NM _]. unfold negated. rewrite NM. unfold bit_xor, to_bits.
    change (of_bits (fl_ity mw ew)) with (fun b : Z => b). cbv beta. cbn [fl_ity ibits].
    pose proof (pow2_pos n ltac:(lia)). assert (2 ^ (1 + mw + ew) = 2 * 2 ^ n) by (rewrite <- Z.add_assoc, (Z.pow_add_r 2 1) by lia; reflexivity).
    rewrite !Z.mod_small by lia. apply lxor_top; [lia|]. now rewrite Z.add_assoc.
  Qed.
  Lemma fl_sub_ok v x y : 0 <= v < 2 ^ (1 + mw + ew) -> 0 <= x < 2 ^ (1 + mw + ew) ->
    fl_spec mw ew (FAdd (negated (fl_ity mw ew) v)) x y -> fl_spec mw ew (FSub v) x y.
  Proof.
    intros V X [R H]. split; [exact R|]. rewrite negated_eq, decode_neg, sfsub_opp in H by assumption. exact H.
  Qed.
End F.
