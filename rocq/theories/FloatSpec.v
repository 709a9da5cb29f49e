(** * Meaning of the float operations on bit patterns

    IEEE 754 binary interchange formats with [mw] mantissa and [ew] exponent bits.  The arithmetic is that
    of Coq's standard library (SpecFloat: round to nearest, ties to even). *)
From Coq Require Import ZArith Bool Floats.SpecFloat.
From Verif Require Import FrontSpec.
Open Scope Z_scope.

Section Fmt.
  Variables mw ew : Z.
  Definition fprec : Z := mw + 1.
  Definition femax : Z := 2 ^ (ew - 1).
  Definition fsign (x : Z) : bool := 2 ^ (mw + ew) <=? x.
  Definition fmant (x : Z) : Z := x mod 2 ^ mw.
  Definition fexpo (x : Z) : Z := (x / 2 ^ mw) mod 2 ^ ew.
  Definition decode (x : Z) : spec_float :=
    if fexpo x =? 0 then
      if fmant x =? 0 then S754_zero (fsign x) else S754_finite (fsign x) (Z.to_pos (fmant x)) (emin fprec femax)
    else if fexpo x =? 2 ^ ew - 1 then
      if fmant x =? 0 then S754_infinity (fsign x) else S754_nan
    else S754_finite (fsign x) (Z.to_pos (fmant x + 2 ^ mw)) (fexpo x + emin fprec femax - 1).
  Definition is_nan_bits (x : Z) : Prop := decode x = S754_nan.
  (** the top mantissa bit of a quiet NaN is set *)
  Definition signaling (x : Z) : Prop := is_nan_bits x /\ fmant x < 2 ^ (mw - 1).

  (** [f32::max] and friends: a NaN operand is ignored (unless it is signaling: then a NaN may come out, as
      fmaxnm does); of two equal operands (+0, -0) either may come out. *)
  Definition pick_spec (pick : comparison -> bool) (x v y : Z) : Prop :=
    match SFcompare (decode x) (decode v) with
    | Some Eq => y = x \/ y = v
    | Some c => y = if pick c then x else v
    | None =>
        (is_nan_bits x /\ is_nan_bits v /\ is_nan_bits y) \/
        (is_nan_bits x /\ ~ is_nan_bits v /\ y = v) \/ (~ is_nan_bits x /\ is_nan_bits v /\ y = x) \/
        ((signaling x \/ signaling v) /\ is_nan_bits y)
    end.
  Definition fl_spec (op : fop) (x y : Z) : Prop :=
    0 <= y < 2 ^ (1 + mw + ew) /\
    match op with
    | FAdd v => decode y = SFadd fprec femax (decode x) (decode v)
    | FSub v => decode y = SFsub fprec femax (decode x) (decode v)
    | FMax v => pick_spec (fun c => match c with Gt => true | _ => false end) x v y
    | FMin v => pick_spec (fun c => match c with Lt => true | _ => false end) x v y
    end.
End Fmt.

(** The [arith] parameter of [FrontSpec.psem]. *)
Definition ieee (kd : Z -> kind) (a : Z) (op : fop) (x y : Z) : Prop :=
  match kd a with KFloat mw ew => fl_spec mw ew op x y | _ => False end.
