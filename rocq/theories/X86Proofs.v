(** The x86_64 loop bodies compute the specified function. *)
From Coq Require Import ZArith List Bool Lia ZifyBool.
From Verif Require Import Words Spec WideSpec WordsFacts Halves X86Model.
Import ListNotations.
Open Scope Z_scope.

(** What the machine must hold when the body starts. *)
Definition ready (r : rmw) (s : st) (val prev : Z) : Prop :=
  (two_arg r = false -> rg s r8 = lo64 val /\ rg s r9 = hi64 val) /\
  rg s rax = lo64 prev /\ rg s rdx = hi64 prev.
Definition done (s s' : st) (new : Z) : Prop :=
  new_value s' = new /\ is_u64 (rg s' rbx) /\ is_u64 (rg s' rcx) /\
  rg s' rax = rg s rax /\ rg s' rdx = rg s rdx.


Lemma body_correct t r p s x :
  wide t -> rmw_typed t r -> in_range t x -> body t r = Some p ->
  ready r s (operand t r) (to_bits t x) ->
  done s (exec p s) (to_bits t (spec_rmw t r x)).
Proof.
  intros W T X P (H89 & Ha & Hd).
  pose proof (to_bits_u128 t x W) as Ux.
  pose proof (lo64_range (to_bits t x)) as L1. pose proof (hi64_range _ Ux) as L2.
  assert (Uv : is_u128 (operand t r)).
  { destruct r; cbn [operand]; try apply to_bits_u128; auto; unfold is_u128; lia. }
  pose proof (lo64_range (operand t r)) as L3. pose proof (hi64_range _ Uv) as L4.
  pose proof (join_lo_hi (to_bits t x)) as Jx. pose proof (join_lo_hi (operand t r)) as Jv.
  set (x0 := lo64 (to_bits t x)) in *. set (x1 := hi64 (to_bits t x)) in *.
  set (v0 := lo64 (operand t r)) in *. set (v1 := hi64 (operand t r)) in *.
  assert (K : forall f a b new,
    join64 a b = new -> is_u64 a -> is_u64 b -> rg f rbx = a -> rg f rcx = b ->
    rg f rax = x0 -> rg f rdx = x1 -> done s f new).
  { intros f a b new J U1 U2 B1 B2 E3 E4. unfold done, new_value.
    rewrite B1, B2, Ha, Hd. exact (conj J (conj U1 (conj U2 (conj E3 E4)))). }
  assert (PK : two_arg r = false -> forall c lt,
     (forall q, CF q = (v1 <? x1 + Z.b2z (v0 <? x0)) ->
        SF q = sf ((v1 - x1 - Z.b2z (v0 <? x0)) mod B64) ->
        OF q = ovf (s64 v1 - s64 x1 - Z.b2z (v0 <? x0)) -> holds c q = lt) ->
     done s (exec (pick c) s) (if lt then to_bits t x else operand t r)).
  { intros TA c lt Hc. destruct (H89 TA) as [H8 H9]. unfold pick. cbn [exec].
    match goal with |- done _ (exec1 _ (exec1 _ (exec1 _ ?q))) _ => set (q1 := q) end.
    assert (Hq : holds c q1 = lt).
    { apply Hc; unfold q1; cbn [exec1]; unfold arith; cbn [rg CF ZF SF OF setr reg_eqb];
      now rewrite ?H8, ?H9, ?Ha, ?Hd. }
    assert (G : rg q1 rcx = v1 /\ rg q1 r8 = v0 /\ rg q1 r9 = v1 /\ rg q1 rax = x0 /\ rg q1 rdx = x1).
    { unfold q1; cbn [exec1]; unfold arith; cbn [rg CF ZF SF OF setr reg_eqb]. auto. }
    destruct G as (G0 & G1 & G2 & G3 & G4). clearbody q1.
    cbn [exec1]. rewrite Hq.
    destruct lt.
    - assert (Hq' : forall q2, CF q2 = CF q1 -> SF q2 = SF q1 -> OF q2 = OF q1 -> holds c q2 = true).
      { intros q2 F1 F2 F3. rewrite <- Hq. destruct c; cbn [holds]; now rewrite ?F1, ?F2, ?F3. }
      rewrite Hq' by reflexivity.
      eapply (K _ x0 x1); cbn [rg setr reg_eqb]; auto.
    - assert (Hq' : forall q2, CF q2 = CF q1 -> SF q2 = SF q1 -> OF q2 = OF q1 -> holds c q2 = false).
      { intros q2 F1 F2 F3. rewrite <- Hq. destruct c; cbn [holds]; now rewrite ?F1, ?F2, ?F3. }
      rewrite Hq' by reflexivity.
      eapply (K _ v0 v1); cbn [rg setr reg_eqb]; auto. }
  destruct r; cbn [body] in P; try discriminate; injection P as <-;
    try (destruct (H89 eq_refl) as [H8 H9]);
    try (eapply K; cbn [exec exec1]; unfold arith; cbn [rg CF ZF SF OF setr reg_eqb];
         try rewrite H8; try rewrite H9; rewrite ?Ha, ?Hd; [|..|reflexivity|reflexivity|reflexivity|reflexivity];
         auto using mod_u64, u64_land, u64_lor, u64_lxor, u64_not; []).
  - rewrite add_halves, Jx, Jv by assumption. symmetry. now apply bits_add.
  - rewrite sub_halves, Jx, Jv by assumption. symmetry. now apply bits_sub.
  - rewrite land_halves, Jx, Jv by assumption. symmetry. now apply bits_and.
  - rewrite not_halves, land_halves, Jx, Jv by assumption. symmetry. now apply bits_nand.
  - rewrite lor_halves, Jx, Jv by assumption. symmetry. now apply bits_or.
  - rewrite lxor_halves, Jx, Jv by assumption. symmetry. now apply bits_xor.
  - rewrite not_halves, Jx by assumption. symmetry. now apply bits_not.
  - rewrite bits_neg by assumption. rewrite <- Jx.
    replace (negb (x0 =? 0)) with (0 <? x0) by (revert L1; b64; lia).
    replace (0 - join64 x0 x1) with (join64 0 0 - join64 x0 x1) by reflexivity.
    apply sub_halves; auto; b64; lia.
  - rewrite bits_max by assumption. apply PK; [reflexivity|]. intros q F1 F2 F3.
    unfold lt_bits. change (to_bits t v) with (operand t (Max v)).
    destruct (isigned t); cbn [holds]; rewrite ?F1, ?F2, ?F3, ?borrow_slt, ?borrow_ult, Jx, Jv by assumption; reflexivity.
  - rewrite bits_min by assumption.
    replace (if lt_bits t (to_bits t v) (to_bits t x) then to_bits t v else to_bits t x)
      with (if negb (lt_bits t (to_bits t v) (to_bits t x)) then to_bits t x else to_bits t v)
      by now destruct lt_bits.
    apply PK; [reflexivity|]. intros q F1 F2 F3.
    unfold lt_bits. change (to_bits t v) with (operand t (Min v)).
    destruct (isigned t); cbn [holds]; rewrite ?F1, ?F2, ?F3, ?borrow_slt, ?borrow_ult, Jx, Jv by assumption; reflexivity.
Qed.
