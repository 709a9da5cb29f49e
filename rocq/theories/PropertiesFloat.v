(** * C23, continued: the float hypothesis is satisfiable, and the sum is the correctly rounded one

    These use Flocq, hence the axioms of the standard library's real numbers (listed below). *)
From Coq Require Import ZArith Lia Reals Floats.SpecFloat ZifyBool.
From Flocq Require Import Core IEEE754.Binary.
From Verif Require Import FrontSpec FloatSpec FrontModel FrontMain FloatExists.
Open Scope Z_scope.

(** Any mixture of IEEE formats (f16, f32, f64, f128: [mw] = 10, 23, 52, 112; [ew] = 5, 8, 11, 15). *)
Theorem C23_unit_exists : forall kd,
  (forall a mw ew, kd a = KFloat mw ew -> 0 < mw /\ 0 < ew /\ mw + 1 < 2 ^ (ew - 1)) -> exists ev, float_unit kd ev.
Proof.
  intros kd F.
  exists (fun a op _ x => match kd a with
     | KFloat mw ew =>
       match Z_lt_dec 0 mw, Z_lt_dec 0 ew, Z_lt_dec (mw + 1) (2 ^ (ew - 1)) with
       | left M, left E, left L => unit_ref mw ew M E L op x
       | _, _, _ => 0
       end
     | _ => 0 end).
  intros a mw ew op hist x K T X. rewrite K. destruct (F a mw ew K) as (M & E & L).
  destruct (Z_lt_dec 0 mw) as [M'|]; [|lia]. destruct (Z_lt_dec 0 ew) as [E'|]; [|lia].
  destruct (Z_lt_dec (mw + 1) (2 ^ (ew - 1))) as [L'|]; [|lia].
  apply unit_ref_ok; [exact X|]. destruct op; cbn [fop_typed] in T; unfold in_bits in T; lia.
Qed.
Example C23_formats : 10 + 1 < 2 ^ (5 - 1) /\ 23 + 1 < 2 ^ (8 - 1) /\ 52 + 1 < 2 ^ (11 - 1) /\ 112 + 1 < 2 ^ (15 - 1).
Proof. cbn. lia. Qed.

(** fetch_add of finite floats stores the real sum rounded to nearest even, or the infinity of the right
    sign when that is out of range. *)
Theorem C23_sum_rounded : forall mw ew (M : 0 < mw) (E : 0 < ew) (L : mw + 1 < 2 ^ (ew - 1)) x v y,
  let real z := B2R (mw + 1) (2 ^ (ew - 1)) (FloatExists.of_bits mw ew M E L z) in
  let finite z := is_finite (mw + 1) (2 ^ (ew - 1)) (FloatExists.of_bits mw ew M E L z) = true in
  finite x -> finite v -> fl_spec mw ew (FAdd v) x y ->
  let rounded := round radix2 (SpecFloat.fexp (mw + 1) (2 ^ (ew - 1))) ZnearestE (real x + real v)%R in
  if Rlt_bool (Rabs rounded) (bpow radix2 (2 ^ (ew - 1)))
  then finite y /\ real y = rounded
  else B2FF _ _ (FloatExists.of_bits mw ew M E L y) = F754_infinity (Bsign _ _ (FloatExists.of_bits mw ew M E L x)).
Proof. intros mw ew M E L x v y real finite FX FV H. exact (sum_rounded mw ew M E L x v y (proj1 H) FX FV H). Qed.

Print Assumptions C23_unit_exists.
Print Assumptions C23_sum_rounded.
