(** The s390x blocks refine the abstract loops. *)
From Coq Require Import ZArith List Bool Lia ZifyBool PeanoNat.
From Verif Require Import Words Spec WideSpec WordsFacts Halves LoopModel LoopProofs AsmModel AsmProofs
  BlockModel BlockProofs AtomicImpls AtomicImplsProofs AsmMain S390xModel.
Import ListNotations.
Open Scope Z_scope.

Lemma cmp_cases a b : (cc_cmp a b = 0 /\ a = b) \/ (cc_cmp a b = 1 /\ a < b) \/ (cc_cmp a b = 2 /\ b < a).
Proof. unfold cc_cmp. destruct (Z.eqb_spec a b); [auto|]. destruct (Z.ltb_spec a b); [auto|]. right; right. lia. Qed.
Lemma neg_aghi x : is_u64 x -> ((0 - x) mod B64 + -1) mod B64 = not64 x.
Proof. unfold not64. b64. intros. Z.to_euclidean_division_equations. lia. Qed.
Lemma carry_log v c s : carry (mk_st s (cc_log v c)) = c.
Proof. unfold carry, cc_log. cbn [CC]. destruct (v =? 0), c; reflexivity. Qed.

(** What a body needs and provides. *)
Definition ready (t : ity) (r : rmw) (s : st) (prev : Z) : Prop :=
  (two_arg r = false -> rg s ValLo = lo64 (operand t r) /\ rg s ValHi = hi64 (operand t r)) /\
  (two_arg r = true -> rg s Zero = 0) /\
  rg s R1 = lo64 prev /\ rg s R0 = hi64 prev.
Definition kept (s s' : st) : Prop :=
  forall r, r <> R12 -> r <> R13 -> r <> Tmp -> rg s' r = rg s r.

Lemma holds_mk c f k : holds c (mk_st f k) = match c with E => k =? 0 | L => k =? 1 | H => k =? 2 end.
Proof. reflexivity. Qed.

Lemma body_correct g pm t r p s x :
  wide t -> rmw_typed t r -> in_range t x -> body g t r = Some p -> ready t r s (to_bits t x) ->
  let s' := bexec (exec1 pm) p s in
  join64 (rg s' R13) (rg s' R12) = to_bits t (spec_rmw t r x) /\ kept s s'.
Proof.
  intros W T X P (HV & HZ & H1 & H0).
  pose proof (to_bits_u128 t x W) as Ux.
  pose proof (lo64_range (to_bits t x)) as L1. pose proof (hi64_range _ Ux) as L2.
  assert (Uv : is_u128 (operand t r)).
  { destruct r; cbn [operand]; try apply to_bits_u128; auto; unfold is_u128; lia. }
  pose proof (lo64_range (operand t r)) as L3. pose proof (hi64_range _ Uv) as L4.
  pose proof (join_lo_hi (to_bits t x)) as Jx. pose proof (join_lo_hi (operand t r)) as Jv.
  set (x0 := lo64 (to_bits t x)) in *. set (x1 := hi64 (to_bits t x)) in *.
  set (v0 := lo64 (operand t r)) in *. set (v1 := hi64 (operand t r)) in *. clearbody x0 x1 v0 v1.
  destruct r; cbn [body] in P; try discriminate;
    try (destruct (HV eq_refl) as [HL HH]); try (pose proof (HZ eq_refl) as HZ0).
  Ltac fin := cbn [bexec exec1 app distinct_op alu_sem]; unfold set1; cbn [rg CC setr reg_eqb].
  Ltac kp := intros q N1 N2 N3; destruct q; try congruence; reflexivity.
  Ltac selfin := match goal with |- _ = if ?b then _ else _ => destruct b eqn:EB end; cbn [Z.eqb Pos.eqb];
      first [reflexivity | exfalso; lia | f_equal; lia].
  Ltac selcases :=
      destruct misc3; fin; rewrite ?holds_mk; fin; (split; [|kp]);
      repeat match goal with H : rg _ _ = _ |- _ => rewrite ?H; clear H end;
      repeat match goal with |- context [cc_cmp ?a ?b] => destruct (cmp_cases a b) as [[-> ?]|[[-> ?]|[-> ?]]] end;
      try match goal with F : s64 _ = s64 _ |- _ => apply s64_inj in F; [|assumption..] end; subst; try (exfalso; lia); selfin.
  - (* add *) injection P as <-. unfold distinct_op. destruct (dops g); fin;
      rewrite ?carry_log, ?H1, ?H0, ?HL, ?HH; (split; [|kp]);
      rewrite add_halves, Jx, Jv by assumption; symmetry; now apply bits_add.
  - injection P as <-. unfold distinct_op. destruct (dops g); fin;
      rewrite ?carry_log, ?negb_involutive, ?H1, ?H0, ?HL, ?HH; (split; [|kp]);
      rewrite sub_halves, Jx, Jv by assumption; symmetry; now apply bits_sub.
  - injection P as <-. unfold distinct_op. destruct (dops g); fin;
      rewrite ?H1, ?H0, ?HL, ?HH; (split; [|kp]);
      rewrite land_halves, Jx, Jv by assumption; symmetry; now apply bits_and.
  - injection P as <-. unfold distinct_op. destruct (misc3 g); [|destruct (dops g)]; fin;
      rewrite ?H1, ?H0, ?HL, ?HH, ?neg_aghi by (apply u64_land; assumption); (split; [|kp]);
      rewrite not_halves, land_halves, Jx, Jv by assumption; symmetry; now apply bits_nand.
  - injection P as <-. unfold distinct_op. destruct (dops g); fin;
      rewrite ?H1, ?H0, ?HL, ?HH; (split; [|kp]);
      rewrite lor_halves, Jx, Jv by assumption; symmetry; now apply bits_or.
  - injection P as <-. unfold distinct_op. destruct (dops g); fin;
      rewrite ?H1, ?H0, ?HL, ?HH; (split; [|kp]);
      rewrite lxor_halves, Jx, Jv by assumption; symmetry; now apply bits_xor.
  - injection P as <-. fin. rewrite ?H1, ?H0, ?neg_aghi by assumption; (split; [|kp]).
    rewrite not_halves, Jx by assumption. symmetry; now apply bits_not.
  - injection P as <-. destruct (dops g); fin; rewrite ?carry_log, ?negb_involutive, ?H1, ?H0, ?HZ0; (split; [|kp]).
    all: rewrite bits_neg by assumption; rewrite <- Jx; change (0 mod B64) with 0;
      replace (0 - join64 x0 x1) with (join64 0 0 - join64 x0 x1) by reflexivity;
      apply sub_halves; auto; b64; lia.
  - (* max *) destruct (lsoc g); [|discriminate].
    rewrite bits_max by assumption. unfold lt_bits. change (to_bits t v) with (operand t (Max v)). rewrite <- Jx, <- Jv.
    destruct (isigned t); injection P as <-.
    + pose proof (slt_halves v0 v1 x0 x1 L3 L1 L4 L2) as SL. assert (EQ : v1 = x1 -> s64 v1 = s64 x1) by congruence. unfold sel_max, select_op. selcases.
    + pose proof (lt_halves v0 v1 x0 x1 L3 L1) as SL. assert (EQ : v1 = x1 -> s64 v1 = s64 x1) by congruence. unfold sel_umax, select_op. selcases.
  - destruct (lsoc g); [|discriminate].
    rewrite bits_min by assumption. unfold lt_bits. change (to_bits t v) with (operand t (Min v)). rewrite <- Jx, <- Jv.
    destruct (isigned t); injection P as <-.
    + pose proof (slt_halves v0 v1 x0 x1 L3 L1 L4 L2) as SL. assert (EQ : v1 = x1 -> s64 v1 = s64 x1) by congruence. unfold sel_max, select_op. selcases.
    + pose proof (lt_halves v0 v1 x0 x1 L3 L1) as SL. assert (EQ : v1 = x1 -> s64 v1 = s64 x1) by congruence. unfold sel_umax, select_op. selcases.
Qed.
