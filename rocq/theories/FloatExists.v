(** The float specification is met by Flocq's IEEE arithmetic, for every format: the hypothesis
    [float_unit] is satisfiable, and its sum is the correctly rounded real sum. *)
From Coq Require Import ZArith Bool Lia ZifyBool Reals Floats.SpecFloat.
From Flocq Require Import Core IEEE754.BinarySingleNaN IEEE754.Binary IEEE754.Bits.
From Verif Require Import FrontSpec FloatSpec.
Open Scope Z_scope.

Section E.
  Variables mw ew : Z.
  Hypothesis MW : 0 < mw.
  Hypothesis EW : 0 < ew.
  Hypothesis FM : mw + 1 < 2 ^ (ew - 1).
  Local Notation prec := (mw + 1).
  Local Notation emax := (2 ^ (ew - 1)).
  Local Instance Hprec : Prec_gt_0 prec. Proof. unfold Prec_gt_0. lia. Qed.
  Local Instance Hmax : Prec_lt_emax prec emax. Proof. unfold Prec_lt_emax. lia. Qed.

  Definition of_bits (x : Z) : binary_float prec emax := binary_float_of_bits mw ew MW EW FM x.
  Definition sf (f : binary_float prec emax) : spec_float := FF2SF (B2FF prec emax f).

  Lemma decode_aux x : FF2SF (binary_float_of_bits_aux mw ew x) = decode mw ew x.
  Proof.
    assert (0 < 2 ^ mw) by (apply Z.pow_pos_nonneg; lia).
    pose proof (Z.mod_pos_bound x (2 ^ mw) ltac:(lia)).
    unfold binary_float_of_bits_aux, decode, split_bits, fexpo, fmant, fsign. cbv zeta.
    replace (2 ^ mw * 2 ^ ew) with (2 ^ (mw + ew)) by (apply Z.pow_add_r; lia).
    assert (ZE : forall p q, Zeq_bool p q = (p =? q)) by (intros; unfold Zeq_bool; now rewrite Z.eqb_compare).
    rewrite !ZE.
    destruct ((x / 2 ^ mw) mod 2 ^ ew =? 0).
    - destruct (x mod 2 ^ mw) eqn:Q; try lia; reflexivity.
    - destruct ((x / 2 ^ mw) mod 2 ^ ew =? 2 ^ ew - 1).
      + destruct (x mod 2 ^ mw) eqn:Q; try lia; reflexivity.
      + destruct (x mod 2 ^ mw + 2 ^ mw) eqn:Q; try lia; reflexivity.
  Qed.
  Lemma sf_of_bits x : sf (of_bits x) = decode mw ew x.
  Proof. unfold sf, of_bits, binary_float_of_bits. rewrite B2FF_FF2B. apply decode_aux. Qed.
  Lemma sf_B2SF f : sf f = BinarySingleNaN.B2SF (B2BSN prec emax f).
  Proof. now destruct f. Qed.
  Lemma decode_bits f : decode mw ew (bits_of_binary_float mw ew f) = sf f.
  Proof. rewrite <- sf_of_bits. unfold of_bits. now rewrite binary_float_of_bits_of_binary_float. Qed.
  Lemma bits_range f : 0 <= bits_of_binary_float mw ew f < 2 ^ (1 + mw + ew).
  Proof. replace (1 + mw + ew) with (mw + ew + 1) by ring. apply bits_of_binary_float_range; assumption. Qed.

  Lemma round_nearest_even_equiv s m l : round_nearest_even m l = choice_mode mode_NE s m l.
  Proof. case l; [reflexivity|intro c]. case c; [ | reflexivity..]. now simpl; unfold Round.cond_incr; case Z.even. Qed.
  Lemma binary_round_aux_equiv sx mx ex lx :
    SpecFloat.binary_round_aux prec emax sx mx ex lx = BinarySingleNaN.binary_round_aux prec emax mode_NE sx mx ex lx.
  Proof.
    unfold SpecFloat.binary_round_aux, BinarySingleNaN.binary_round_aux. set (mrse' := shr_fexp _ _ _ _ _).
    case mrse'; intros mrs' e'; simpl. now rewrite (round_nearest_even_equiv sx).
  Qed.
  Lemma binary_round_equiv s m e : SpecFloat.binary_round prec emax s m e = BinarySingleNaN.binary_round prec emax mode_NE s m e.
  Proof.
    unfold SpecFloat.binary_round, BinarySingleNaN.binary_round, BinarySingleNaN.shl_align_fexp.
    set (mez := shl_align _ _ _); case mez as [mz ez]. apply binary_round_aux_equiv.
  Qed.
  Lemma binary_normalize_equiv m e szero :
    SpecFloat.binary_normalize prec emax m e szero = BinarySingleNaN.B2SF (BinarySingleNaN.binary_normalize prec emax Hprec Hmax mode_NE m e szero).
  Proof.
    case m as [ | p | p]; [now simpl| |]; simpl; rewrite BinarySingleNaN.B2SF_SF2B; apply binary_round_equiv.
  Qed.
  Lemma SFadd_equiv (x y : BinarySingleNaN.binary_float prec emax) :
    SFadd prec emax (BinarySingleNaN.B2SF x) (BinarySingleNaN.B2SF y) = BinarySingleNaN.B2SF (BinarySingleNaN.Bplus mode_NE x y).
  Proof.
    destruct x as [sx|sx| |sx mx ex Bx], y as [sy|sy| |sy my ey By]; [now (trivial || simpl; case Bool.eqb).. | ].
    apply binary_normalize_equiv.
  Qed.
  Lemma SFsub_equiv (x y : BinarySingleNaN.binary_float prec emax) :
    SFsub prec emax (BinarySingleNaN.B2SF x) (BinarySingleNaN.B2SF y) = BinarySingleNaN.B2SF (BinarySingleNaN.Bminus mode_NE x y).
  Proof.
    destruct x as [sx|sx| |sx mx ex Bx], y as [sy|sy| |sy my ey By]; [now (trivial || simpl; case Bool.eqb).. | ].
    simpl. unfold Zminus. rewrite <- cond_Zopp_negb. apply binary_normalize_equiv.
  Qed.

  Definition some_nan : {f : binary_float prec emax | is_nan prec emax f = true}.
  Proof.
    assert (P : nan_pl prec 1 = true) by (unfold nan_pl; cbn; lia).
    exists (B754_nan prec emax false 1 P). reflexivity.
  Defined.
  Definition pick_ref (pick : comparison -> bool) (x v : Z) : Z :=
    match SFcompare (decode mw ew x) (decode mw ew v) with
    | Some c => if pick c then x else v
    | None => match decode mw ew x with S754_nan => v | _ => x end
    end.
  Definition unit_ref (op : fop) (x : Z) : Z :=
    match op with
    | FAdd v => bits_of_binary_float mw ew (Binary.Bplus prec emax _ _ (fun _ _ => some_nan) mode_NE (of_bits x) (of_bits v))
    | FSub v => bits_of_binary_float mw ew (Binary.Bminus prec emax _ _ (fun _ _ => some_nan) mode_NE (of_bits x) (of_bits v))
    | FMax v => pick_ref (fun c => match c with Gt => true | _ => false end) x v
    | FMin v => pick_ref (fun c => match c with Lt => true | _ => false end) x v
    end.

  Lemma sf_nan_dec f : {f = S754_nan} + {f <> S754_nan}.
  Proof. destruct f; first [left; reflexivity|right; discriminate]. Defined.
  Lemma pick_ref_ok pick x v : pick_spec mw ew pick x v (pick_ref pick x v) /\ (pick_ref pick x v = x \/ pick_ref pick x v = v).
  Proof.
    unfold pick_spec, pick_ref, is_nan_bits. destruct (SFcompare _ _) as [[]|] eqn:C.
    - split; destruct (pick Eq); auto.
    - split; destruct (pick Lt); auto.
    - split; destruct (pick Gt); auto.
    - assert (N : decode mw ew x = S754_nan \/ decode mw ew v = S754_nan).
      { destruct (decode mw ew x), (decode mw ew v); cbn in C; try discriminate; auto. }
      destruct (sf_nan_dec (decode mw ew x)) as [E|E].
      + rewrite E. split; [|auto]. destruct (sf_nan_dec (decode mw ew v)); auto.
      + assert (V : decode mw ew v = S754_nan) by tauto. 
        assert (Q : match decode mw ew x with S754_nan => v | _ => x end = x) by (destruct (decode mw ew x); congruence).
        rewrite Q. split; [|auto]. right. right. left. auto.
  Qed.
  Lemma sf_nan_any f g : sf (BSN2B prec emax f g) = BinarySingleNaN.B2SF g.
  Proof. destruct g; reflexivity. Qed.

  Theorem unit_ref_ok op x : 0 <= x < 2 ^ (1 + mw + ew) ->
    (match op with FAdd v | FSub v | FMax v | FMin v => 0 <= v < 2 ^ (1 + mw + ew) end) -> fl_spec mw ew op x (unit_ref op x).
  Proof.
    intros X V. destruct op as [v|v|v|v]; cbn [unit_ref].
    - split; [apply bits_range|]. rewrite decode_bits. unfold Binary.Bplus. rewrite sf_nan_any, <- SFadd_equiv, <- !sf_B2SF, !sf_of_bits. reflexivity.
    - split; [apply bits_range|]. rewrite decode_bits. unfold Binary.Bminus. rewrite sf_nan_any, <- SFsub_equiv, <- !sf_B2SF, !sf_of_bits. reflexivity.
    - destruct (pick_ref_ok (fun c => match c with Gt => true | _ => false end) x v) as [A [B|B]]; (split; [|exact A]); rewrite B; assumption.
    - destruct (pick_ref_ok (fun c => match c with Lt => true | _ => false end) x v) as [A [B|B]]; (split; [|exact A]); rewrite B; assumption.
  Qed.

  (** What [FAdd] means in real numbers. *)
  Theorem sum_rounded x v y : 0 <= y < 2 ^ (1 + mw + ew) ->
    is_finite prec emax (of_bits x) = true -> is_finite prec emax (of_bits v) = true -> fl_spec mw ew (FAdd v) x y ->
    let exact := (B2R prec emax (of_bits x) + B2R prec emax (of_bits v))%R in
    let rounded := round radix2 (SpecFloat.fexp prec emax) ZnearestE exact in
    if Rlt_bool (Rabs rounded) (bpow radix2 emax)
    then is_finite prec emax (of_bits y) = true /\ B2R prec emax (of_bits y) = rounded
    else B2FF prec emax (of_bits y) = F754_infinity (Bsign prec emax (of_bits x)).
  Proof.
    intros Y FX FV [_ H] exact rounded. pose proof (Binary.Bplus_correct prec emax _ _ (fun _ _ => some_nan) mode_NE _ _ FX FV) as C.
    assert (E : sf (of_bits y) = sf (Binary.Bplus prec emax _ _ (fun _ _ => some_nan) mode_NE (of_bits x) (of_bits v))).
    { unfold Binary.Bplus. rewrite sf_nan_any, <- SFadd_equiv, <- !sf_B2SF, !sf_of_bits. exact H. }
    set (z := Binary.Bplus _ _ _ _ _ _ _ _) in *. cbv zeta in C. fold exact in C. unfold rounded.
    change (round_mode mode_NE) with ZnearestE in C.
    destruct (Rlt_bool _ _).
    - destruct C as (C1 & C2 & _). destruct z, (of_bits y); cbn in *; try discriminate; split; auto; injection E as -> -> ->; assumption.
    - destruct C as (C1 & _). unfold sf in E. rewrite C1 in E. cbn in E.
      destruct (of_bits y); cbn in E |- *; try discriminate. now injection E as ->.
  Qed.
End E.
