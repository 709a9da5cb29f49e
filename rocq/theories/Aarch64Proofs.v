(** aarch64: the loop bodies compute the specified values. *)
From Coq Require Import ZArith List Bool Lia ZifyBool PeanoNat.
From Verif Require Import Words Spec WideSpec WordsFacts Halves LoopModel LoopProofs AsmModel AsmProofs
  BlockModel BlockProofs AtomicImpls AtomicImplsProofs AsmMain PowerProofs Aarch64Model.
Import ListNotations.
Open Scope Z_scope.

(** ** AddWithCarry *)
Lemma adds_val a b : awc_val a b false = (a + b) mod B64.
Proof. unfold awc_val. cbn [Z.b2z]. now rewrite Z.add_0_r. Qed.
Lemma adds_carry a b : (B64 <=? a + b + Z.b2z false) = (B64 <=? a + b).
Proof. cbn [Z.b2z]. now rewrite Z.add_0_r. Qed.
Lemma subs_val a b : awc_val a (not64 b) true = (a - b) mod B64.
Proof. exact (subc_val a b). Qed.
Lemma subs_carry a b : (B64 <=? a + not64 b + Z.b2z true) = negb (a <? b).
Proof. exact (subc_carry a b). Qed.
Lemma sbc_val a b c : awc_val a (not64 b) (negb c) = (a - b - Z.b2z c) mod B64.
Proof. unfold awc_val. rewrite (Z.add_comm a). apply subfe_val. Qed.
Lemma sbc_carry a b c : (B64 <=? a + not64 b + Z.b2z (negb c)) = negb (a <? b + Z.b2z c).
Proof. unfold not64. destruct c; cbn [Z.b2z negb]; destruct (Z.ltb_spec a (b + 1)), (Z.ltb_spec a (b + 0)); lia. Qed.
Lemma awc_zero a b : is_u64 a -> is_u64 b -> (awc_val a (not64 b) true =? 0) = (a =? b).
Proof.
  intros A B. rewrite subs_val. destruct (Z.eqb_spec a b) as [->|N].
  - now rewrite Z.sub_diag.
  - apply Z.eqb_neq. intros E. apply N. b64.
    pose proof (Z.div_mod (a - b) 18446744073709551616). lia.
Qed.
Lemma s64_not b : is_u64 b -> s64 (not64 b) = - s64 b - 1.
Proof.
  unfold s64, not64. b64. change (2 ^ 63) with 9223372036854775808.
  intros. destruct (Z.leb_spec 9223372036854775808 (18446744073709551616 - 1 - b)),
    (Z.leb_spec 9223372036854775808 b); lia.
Qed.
(** N <> V after a subtraction with borrow: the exact difference is negative *)
Lemma nv_lt a b c : is_u64 a -> is_u64 b ->
  let v := awc_val a (not64 b) (negb c) in
  negb (Bool.eqb (2 ^ 63 <=? v) (negb (s64 v =? s64 a + s64 (not64 b) + Z.b2z (negb c)))) = (s64 a <? s64 b + Z.b2z c).
Proof.
  intros A B v. subst v. rewrite sbc_val, (s64_not b B).
  pose proof (s64_range a A). pose proof (s64_range b B).
  assert (D : exists q, a - b - Z.b2z c = s64 a - s64 b - Z.b2z c + B64 * q).
  { unfold s64. destruct (2 ^ 63 <=? a), (2 ^ 63 <=? b); [exists 0|exists 1|exists (-1)|exists 0]; lia. }
  destruct D as [q ->]. rewrite (Z.mul_comm B64 q), Z.mod_add by (rewrite B64_eq; lia).
  set (T := s64 a - s64 b - Z.b2z c).
  replace (s64 a + (- s64 b - 1) + Z.b2z (negb c)) with T by (subst T; destruct c; cbn [Z.b2z negb]; lia).
  assert (R : -2 ^ 64 <= T < 2 ^ 64) by (subst T; destruct c; cbn [Z.b2z]; lia).
  replace (s64 a <? s64 b + Z.b2z c) with (T <? 0) by (subst T; destruct (Z.ltb_spec (s64 a - s64 b - Z.b2z c) 0), (Z.ltb_spec (s64 a) (s64 b + Z.b2z c)); lia).
  clearbody T. unfold s64. rewrite B64_eq.
  change (2 ^ 63) with 9223372036854775808. change (2 ^ 64) with 18446744073709551616 in R.
  assert (M : T mod 18446744073709551616 = if T <? 0 then (if T =? -18446744073709551616 then 0 else T + 18446744073709551616) else T).
  { destruct (Z.ltb_spec T 0).
    - destruct (Z.eqb_spec T (-18446744073709551616)) as [->|]; [reflexivity|].
      symmetry. apply Z.mod_unique with (-1); lia.
    - apply Z.mod_small. lia. }
  rewrite M. destruct (Z.ltb_spec T 0).
  - destruct (Z.eqb_spec T (-18446744073709551616)) as [->|]; [reflexivity|].
    destruct (Z.leb_spec 9223372036854775808 (T + 18446744073709551616));
    match goal with |- context [?u =? T] => destruct (Z.eqb_spec u T) end; cbn; lia.
  - destruct (Z.leb_spec 9223372036854775808 T);
    match goal with |- context [?u =? T] => destruct (Z.eqb_spec u T) end; cbn; lia.
Qed.
Lemma lt_borrow_u v0 v1 x0 x1 : is_u64 v0 -> is_u64 x0 ->
  (v1 <? x1 + Z.b2z (v0 <? x0)) = (join64 v0 v1 <? join64 x0 x1).
Proof.
  intros A B. apply eq_true_iff_eq. rewrite !Z.ltb_lt, lt_halves by assumption.
  destruct (Z.ltb_spec v0 x0); cbn [Z.b2z]; lia.
Qed.
Lemma lt_borrow_s v0 v1 x0 x1 : is_u64 v0 -> is_u64 x0 -> is_u64 v1 -> is_u64 x1 ->
  (s64 v1 <? s64 x1 + Z.b2z (v0 <? x0)) = (of_bits i128 (join64 v0 v1) <? of_bits i128 (join64 x0 x1)).
Proof.
  intros A B C D. apply eq_true_iff_eq. rewrite !Z.ltb_lt, slt_halves_s by assumption.
  destruct (Z.ltb_spec v0 x0); cbn [Z.b2z]; lia.
Qed.

Lemma addr_halves (b : bool) v : (if b then join64 (addr_hi b v) (addr_lo b v) else join64 (addr_lo b v) (addr_hi b v)) = v.
Proof. destruct b; apply join_lo_hi. Qed.
Lemma addr_range b v : is_u128 v -> is_u64 (addr_lo b v) /\ is_u64 (addr_hi b v).
Proof. intros U. pose proof (lo64_range v). pose proof (hi64_range v U). destruct b; auto. Qed.

Lemma operand_u128 t r : wide t -> is_u128 (operand t r).
Proof. intros W. destruct r; cbn [operand]; try (now apply to_bits_u128); unfold is_u128; lia. Qed.

(** Symbolic execution *)
Ltac norm1 x := let y := eval cbv beta iota zeta delta [exec1 set1 awc rd rg fN fZ fC fV holds] in x in
  eval cbn [setr reg_eqb] in y.
Ltac runp p s := match p with
  | nil => s
  | ?i :: ?q => let s1 := norm1 (exec1 i s) in runp q s1
  end.
Ltac fin := match goal with |- context [bexec exec1 ?p ?s] =>
    let p1 := eval cbv [maxmin_ll maxmin_cas le_or_be] in p in
    let s1 := runp p1 s in change (bexec exec1 p s) with s1 end;
  cbv zeta; unfold pair, rd; cbn [rg]; cbn [setr reg_eqb].

(** What a body provides: the new value in [nl]:[nh], everything but [nl], [nh], xzr unchanged. *)
Definition done (b : bool) (nl nh : reg) (s s' : st) (new : Z) : Prop :=
  pair b nl nh s' = new /\ forall r, r <> nl -> r <> nh -> r <> Xzr -> rg s' r = rg s r.

Ltac kp := intros q N1 N2 N3; destruct q; try congruence; reflexivity.
Section Body.
  Variables (g : target) (t : ity).
  Hypothesis W : wide t.

  Section Half.
    (** [x0],[x1] / [v0],[v1]: low and high halves by significance *)
    Variables (x v x0 x1 v0 v1 : Z).
    Hypothesis X : in_range t x.
    Hypothesis L1 : is_u64 x0. Hypothesis L2 : is_u64 x1. Hypothesis L3 : is_u64 v0. Hypothesis L4 : is_u64 v1.
    Hypothesis Jx : join64 x0 x1 = to_bits t x.
    Lemma neg_halves : join64 (awc_val 0 (not64 x0) true) (awc_val 0 (not64 x1) (B64 <=? 0 + not64 x0 + Z.b2z true))
      = to_bits t (spec_rmw t Neg x).
    Proof.
      clear L3 L4. rewrite bits_neg by assumption. rewrite <- Jx, subs_val, subs_carry, sbc_val.
      replace (0 - join64 x0 x1) with (join64 0 0 - join64 x0 x1) by reflexivity.
      apply sub_halves; auto; b64; lia.
    Qed.
    Lemma not_halves_x : join64 (not64 x0) (not64 x1) = to_bits t (spec_rmw t Not x).
    Proof. rewrite not_halves, Jx. symmetry; now apply bits_not. Qed.
    Section Val.
      Hypothesis Jv : join64 v0 v1 = to_bits t v.
      Hypothesis V : in_range t v.
      Lemma add_ok : join64 (awc_val x0 v0 false) (awc_val x1 v1 (B64 <=? x0 + v0 + Z.b2z false)) = to_bits t (spec_rmw t (Add v) x).
      Proof. rewrite adds_val, adds_carry. unfold awc_val. rewrite add_halves, Jx, Jv by assumption. symmetry; now apply bits_add. Qed.
      Lemma sub_ok : join64 (awc_val x0 (not64 v0) true) (awc_val x1 (not64 v1) (B64 <=? x0 + not64 v0 + Z.b2z true))
        = to_bits t (spec_rmw t (Sub v) x).
      Proof. rewrite subs_val, subs_carry, sbc_val, sub_halves, Jx, Jv by assumption. symmetry; now apply bits_sub. Qed.
      Lemma and_ok : join64 (Z.land x0 v0) (Z.land x1 v1) = to_bits t (spec_rmw t (And v) x).
      Proof. rewrite land_halves, Jx, Jv by assumption. symmetry; now apply bits_and. Qed.
      Lemma nand_ok : join64 (not64 (Z.land x0 v0)) (not64 (Z.land x1 v1)) = to_bits t (spec_rmw t (Nand v) x).
      Proof. rewrite not_halves, land_halves, Jx, Jv by assumption. symmetry; now apply bits_nand. Qed.
      Lemma or_ok : join64 (Z.lor x0 v0) (Z.lor x1 v1) = to_bits t (spec_rmw t (Or v) x).
      Proof. rewrite lor_halves, Jx, Jv by assumption. symmetry; now apply bits_or. Qed.
      Lemma xor_ok : join64 (Z.lxor x0 v0) (Z.lxor x1 v1) = to_bits t (spec_rmw t (Xor v) x).
      Proof. rewrite lxor_halves, Jx, Jv by assumption. symmetry; now apply bits_xor. Qed.
      (** C and N, V after cmp v0, x0; sbcs xzr, v1, x1 *)
      Let c0 := B64 <=? v0 + not64 x0 + Z.b2z true.
      Let w := awc_val v1 (not64 x1) c0.
      Let cc := B64 <=? v1 + not64 x1 + Z.b2z c0.
      Let nv := Bool.eqb (2 ^ 63 <=? w) (negb (s64 w =? s64 v1 + s64 (not64 x1) + Z.b2z c0)).
      Lemma cc_lt : cc = negb (join64 v0 v1 <? join64 x0 x1).
      Proof. unfold cc, c0. rewrite subs_carry, sbc_carry, lt_borrow_u by assumption. reflexivity. Qed.
      Lemma nv_ge : nv = negb (of_bits i128 (join64 v0 v1) <? of_bits i128 (join64 x0 x1)).
      Proof.
        rewrite <- (negb_involutive nv). f_equal. unfold nv, w, c0. rewrite subs_carry, nv_lt, lt_borrow_s by assumption. reflexivity.
      Qed.
      Lemma smax_ok : isigned t = true ->
        join64 (if negb nv then x0 else v0) (if negb nv then x1 else v1) = to_bits t (spec_rmw t (Max v) x).
      Proof. intros S. rewrite bits_max by assumption. unfold lt_bits. rewrite S, nv_ge, negb_involutive, <- Jx, <- Jv. destruct (_ <? _); reflexivity. Qed.
      Lemma umax_ok : isigned t = false ->
        join64 (if negb cc then x0 else v0) (if negb cc then x1 else v1) = to_bits t (spec_rmw t (Max v) x).
      Proof. intros S. rewrite bits_max by assumption. unfold lt_bits. rewrite S, cc_lt, negb_involutive, <- Jx, <- Jv. destruct (_ <? _); reflexivity. Qed.
      Lemma smin_ok : isigned t = true ->
        join64 (if nv then x0 else v0) (if nv then x1 else v1) = to_bits t (spec_rmw t (Min v) x).
      Proof. intros S. rewrite bits_min by assumption. unfold lt_bits. rewrite S, nv_ge, <- Jx, <- Jv. destruct (_ <? _); reflexivity. Qed.
      Lemma umin_ok : isigned t = false ->
        join64 (if cc then x0 else v0) (if cc then x1 else v1) = to_bits t (spec_rmw t (Min v) x).
      Proof. intros S. rewrite bits_min by assumption. unfold lt_bits. rewrite S, cc_lt, <- Jx, <- Jv. destruct (_ <? _); reflexivity. Qed.
    End Val.
  End Half.

  Ltac close := first [now apply add_ok | now apply sub_ok | now apply and_ok | now apply nand_ok | now apply or_ok | now apply xor_ok
    | now apply not_halves_x | now apply neg_halves | now apply smax_ok | now apply umax_ok | now apply smin_ok | now apply umin_ok].
  Ltac go := fin; repeat match goal with H : ?f ?r = _ |- context [?f ?r] => rewrite H end; (split; [close|kp]).
  Ltac body_tac g t x r X P :=
    pose proof (to_bits_u128 t x W) as Ux; pose proof (operand_u128 t r W) as Uv;
    pose proof (addr_range (be g) _ Ux) as [L1 L2]; pose proof (addr_range (be g) _ Uv) as [L3 L4];
    pose proof (addr_halves (be g) (to_bits t x)) as Jx; pose proof (addr_halves (be g) (operand t r)) as Jv;
    set (x0 := addr_lo (be g) (to_bits t x)) in *; set (x1 := addr_hi (be g) (to_bits t x)) in *;
    set (v0 := addr_lo (be g) (operand t r)) in *; set (v1 := addr_hi (be g) (operand t r)) in *; clearbody x0 x1 v0 v1;
    match goal with s : st |- _ => destruct s as [fr n z c v] end; cbn [rg] in *; unfold done;
    unfold body_ll, body_cas, maxmin_ll, maxmin_cas, le_or_be in P;
    destruct (be g); destruct r; try discriminate; injection P as <-; cbn [operand rmw_typed] in *;
    try (destruct (isigned t) eqn:SG); go.

  Lemma body_ll_correct r p s x :
    rmw_typed t r -> in_range t x -> body_ll g t r = Some p ->
    rg s ValLo = addr_lo (be g) (operand t r) -> rg s ValHi = addr_hi (be g) (operand t r) ->
    rg s PrevLo = addr_lo (be g) (to_bits t x) -> rg s PrevHi = addr_hi (be g) (to_bits t x) ->
    done (be g) NewLo NewHi s (bexec exec1 p s) (to_bits t (spec_rmw t r x)).
  Proof. intros T X P HL HH H0 H1. body_tac g t x r X P. Qed.
  Lemma body_cas_correct r p s x :
    rmw_typed t r -> in_range t x -> body_cas g t r = Some p ->
    rg s ValLo = addr_lo (be g) (operand t r) -> rg s ValHi = addr_hi (be g) (operand t r) ->
    rg s X6 = addr_lo (be g) (to_bits t x) -> rg s X7 = addr_hi (be g) (to_bits t x) ->
    done (be g) X4 X5 s (bexec exec1 p s) (to_bits t (spec_rmw t r x)).
  Proof. intros T X P HL HH H0 H1. body_tac g t x r X P. Qed.
End Body.
