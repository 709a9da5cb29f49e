From Coq Require Import ZArith List Bool Lia.
From Verif Require Import Words Spec WordsFacts OrderingModel LinFacts FallbackModel FallbackFacts ByteMem ByteMemFacts ByteSpec RiscvModel RiscvProofs RiscvMain IntModel IntProofs.
Import ListNotations.
Open Scope Z_scope.

(** ** The computations *)
Lemma emul_ok t o x : wf_ity t -> in_range t x -> bcallable t o = true ->
  bsem t o x = (match fst (emul t o x) with Some v => v | None => x end, snd (emul t o x)) /\
  (forall v, fst (emul t o x) = Some v -> in_range t v).
Proof.
  intros Hw Hx Hc.
  assert (RM : forall r, rmw_ok t r = true -> in_range t (spec_rmw t r x)).
  { intros r Hr. apply spec_rmw_range; auto using rmw_ok_typed. }
  assert (E : forall r ord, rmw_ok t r = true -> fst (emul t (BOp (ORmw r ord)) x) = Some (spec_rmw t r x)).
  { intros r ord Hr. rewrite <- rmw_next_spec by auto using rmw_ok_typed. destruct r; reflexivity. }
  assert (EN : forall r ord, rmw_ok t r = true -> fst (emul t (BNoFetch r ord) x) = Some (spec_rmw t r x)).
  { intros r ord Hr. rewrite <- rmw_next_spec by auto using rmw_ok_typed. destruct r; reflexivity. }
  destruct o as [[ord|v ord|r ord|cu nw su fa]|cu nw su fa|r ord]; cbn [bcallable] in Hc.
  - destruct ord; try discriminate; (split; [reflexivity | discriminate]).
  - apply andb_prop in Hc as [Hv Ho]. apply in_rangeb_iff in Hv. destruct ord; try discriminate; (split; [reflexivity|]); intros v' [= <-]; exact Hv.
  - rewrite (E r ord Hc). split; [reflexivity|]. intros v [= <-]. auto.
  - apply andb_prop in Hc as [Hc Ho]. apply andb_prop in Hc as [_ Hn]. apply in_rangeb_iff in Hn.
    destruct fa; try discriminate; cbn; destruct (x =? cu); cbn; (split; [reflexivity | intros v; try discriminate; intros [= <-]; exact Hn]).
  - apply andb_prop in Hc as [Hc Ho]. apply andb_prop in Hc as [_ Hn]. apply in_rangeb_iff in Hn.
    destruct fa; try discriminate; cbn; destruct (x =? cu); cbn; (split; [reflexivity | intros v; try discriminate; intros [= <-]; exact Hn]).
  - apply andb_prop in Hc as [_ Hc]. rewrite (EN r ord Hc). split; [reflexivity|]. intros v [= <-]. auto.
Qed.

(** Target descriptions that make sense. *)
Definition arch_ok (ar : arch) (be : bool) (vars : layout) : Prop :=
  match ar with
  | Riscv _ c => be = rv_be c /\ (xlen c = 32 \/ xlen c = 64) /\ forall a t, vars a = Some t -> 0 <= a < 2 ^ xlen c
  | _ => True
  end.

Section Native.
  Variables (be : bool) (t : ity) (a : Z) (m : memory).
  Hypothesis Hs : In (ibits t) [8; 16; 32; 64; 128].
  Hypothesis Hm : byte_mem m.
  Notation x := (ld be (nbytes t) m a).

  Lemma st_access o v r y : in_range t v -> bsem t o (value_at be m t a) = (v, r) -> y = to_bits t v ->
    access_ok be t a o m (st be (nbytes t) m a y) r.
  Proof.
    intros Hv E ->. destruct (size_cases t Hs) as (Hw & E8 & _).
    split; [|split; [apply st_bytes, Hm | intros z Hz; apply st_out; unfold inside in Hz; lia]].
    rewrite E. f_equal. unfold value_at. rewrite ld_st; [now rewrite of_to_bits | exact Hm | rewrite E8; now apply to_bits_range].
  Qed.

  Lemma rmw_access o r0 r y : rmw_ok t r0 = true -> bsem t o (value_at be m t a) = (spec_rmw t r0 (value_at be m t a), r) ->
    y = to_bits t (rmw_next t r0 (of_bits t x)) -> access_ok be t a o m (st be (nbytes t) m a y) r.
  Proof.
    intros Hr E Ey. destruct (size_cases t Hs) as (Hw & E8 & _). apply rmw_ok_typed in Hr.
    assert (R : in_range t (of_bits t x)) by (apply of_bits_range; [exact Hw | rewrite <- E8; apply ld_range, Hm]).
    rewrite rmw_next_spec in Ey by assumption.
    eapply st_access; [|exact E | exact Ey]. now apply spec_rmw_range.
  Qed.

  Lemma bits_closed y z : 0 <= y < 2 ^ ibits t -> 0 <= z < 2 ^ ibits t ->
    to_bits t (of_bits t (Z.land y z)) = Z.land y z /\ to_bits t (of_bits t (Z.lor y z)) = Z.lor y z /\ to_bits t (of_bits t (Z.lxor y z)) = Z.lxor y z.
  Proof.
    intros Hy Hz. destruct (size_cases t Hs) as (Hw & _).
    destruct (bitops_range (ibits t) y z ltac:(unfold wf_ity in Hw; lia) Hy Hz) as (A1 & A2 & A3).
    refine (conj _ (conj _ _)); now apply to_of_bits.
  Qed.

  (** the bit patterns the single-instruction forms write *)
  Lemma pattern_ok r0 : rmw_ok t r0 = true ->
    to_bits t (rmw_next t r0 (of_bits t x)) =
    match r0 with
    | Swap v => to_bits t v
    | Add v => (x + to_bits t v) mod 2 ^ ibits t
    | Sub v => (x - to_bits t v) mod 2 ^ ibits t
    | And v => Z.land x (to_bits t v)
    | Or v => Z.lor x (to_bits t v)
    | Xor v => Z.lxor x (to_bits t v)
    | Not => Z.lxor x (Z.ones (ibits t))
    | _ => to_bits t (rmw_next t r0 (of_bits t x))
    end.
  Proof.
    intros Hr. destruct (size_cases t Hs) as (Hw & E8 & _).
    assert (R : 0 <= x < 2 ^ ibits t) by (rewrite <- E8; apply ld_range, Hm).
    assert (TO : to_bits t (of_bits t x) = x) by now apply to_of_bits.
    assert (P : 0 < 2 ^ ibits t) by lia.
    destruct r0 as [v|v|v|v|v|v|v| | |v|v]; cbn [rmw_next]; try reflexivity.
    - unfold wrapping_add. rewrite to_of_bits by (auto using Z.mod_pos_bound). now rewrite TO.
    - unfold wrapping_sub. rewrite to_of_bits by (auto using Z.mod_pos_bound). now rewrite TO.
    - unfold bit_and. rewrite TO. now apply bits_closed; [|apply to_bits_range].
    - unfold bit_or. rewrite TO. now apply bits_closed; [|apply to_bits_range].
    - unfold bit_xor. rewrite TO. now apply bits_closed; [|apply to_bits_range].
    - unfold bit_not. rewrite TO. apply bits_closed; [exact R | rewrite Z.ones_equiv; lia].
  Qed.

  Lemma plain_ok o m' r : bcallable t o = true -> plain_access be t a o m = Some (m', r) -> access_ok be t a o m m' r.
  Proof.
    intros Hc H. destruct o as [[ord|v ord|r0 ord|cu nw su fa]|cu nw su fa|r0 ord]; cbn [plain_access bcallable] in *; try discriminate.
    - apply some_inj, pair_equal_spec in H as [<- <-]. destruct ord; try discriminate; (split; [reflexivity | split; [exact Hm | reflexivity]]).
    - apply andb_prop in Hc as [Hv Ho]. apply in_rangeb_iff in Hv. apply some_inj, pair_equal_spec in H as [<- <-].
      eapply st_access; [exact Hv | | reflexivity]. destruct ord; try discriminate; reflexivity.
  Qed.

  Lemma avr_ok r0 m' out : ibits t = 8 -> rmw_ok t r0 = true -> avr_access be t a r0 m = Some (m', out) ->
    out = x /\ exists y, m' = st be (nbytes t) m a y /\ y = to_bits t (rmw_next t r0 (of_bits t x)).
  Proof.
    intros E Hr H. pose proof (pattern_ok r0 Hr) as Pt. destruct (size_cases t Hs) as (Hw & E8 & _).
    assert (R : 0 <= x < 2 ^ 8) by (rewrite <- E, <- E8; apply ld_range, Hm).
    destruct r0 as [v|v|v|v|v|v|v| | |v|v]; cbn [avr_access] in H; try discriminate;
      apply some_inj, pair_equal_spec in H as [<- <-]; (split; [reflexivity|]); eexists; (split; [reflexivity|]); rewrite Pt, ?E; try reflexivity.
    pose proof (to_bits_range t v Hw) as Rv. rewrite E in Rv.
    apply Z.bits_inj'. intros k K. rewrite Z.ldiff_spec, Z.land_spec, Z.lxor_spec, Z.testbit_ones_nonneg by lia.
    destruct (Z.ltb_spec k 8) as [L|L].
    - destruct (Z.testbit x k), (Z.testbit (to_bits t v) k); reflexivity.
    - now rewrite (proj1 (in_range_unsigned_bits 8 x ltac:(lia)) R k L).
  Qed.

  Lemma msp430_ok r0 m' : rmw_ok t r0 = true -> msp430_access be t a r0 m = Some m' ->
    m' = st be (nbytes t) m a (to_bits t (rmw_next t r0 (of_bits t x))).
  Proof.
    intros Hr H. rewrite (pattern_ok r0 Hr).
    destruct r0 as [v|v|v|v|v|v|v| | |v|v]; cbn [msp430_access] in H; try discriminate; apply some_inj in H; now rewrite <- H.
  Qed.
End Native.

Theorem native_ok ar be vars t a o m m' r : arch_ok ar be vars -> layout_ok vars -> vars a = Some t -> byte_mem m ->
  bcallable t o = true -> native ar be t a o m = Some (m', r) -> access_ok be t a o m m' r.
Proof.
  intros AO LO Va Hm Hc H. pose proof (lo_size vars LO a t Va) as Hs. pose proof (lo_aligned vars LO a t Va) as Al.
  unfold native in H. destruct (all_emulated ar t) eqn:AE; [discriminate|].
  unfold all_emulated in AE. apply orb_false_iff in AE as [AE _]. apply Z.ltb_ge in AE.
  destruct ar as [|f|[] na| |sm c|]; cbn [word_bits] in AE; try (eapply plain_ok; eassumption).
  - (* Avr with RMW instructions *)
    assert (E : ibits t = 8) by (cbn [In] in Hs; lia).
    destruct o as [[ord|v ord|r0 ord|cu nw su fa]|cu nw su fa|r0 ord]; try (eapply plain_ok; eassumption).
    + destruct (avr_access be t a r0 m) as [[m1 out]|] eqn:Q; [|discriminate]. apply some_inj, pair_equal_spec in H as [<- <-].
      destruct (avr_ok be t a m Hs Hm r0 m1 out E Hc Q) as (-> & y & -> & Ey).
      eapply rmw_access; [exact Hs | exact Hm | exact Hc | reflexivity | exact Ey].
    + cbn [bcallable] in Hc. apply andb_prop in Hc as [_ Hc].
      destruct (avr_access be t a r0 m) as [[m1 out]|] eqn:Q; [|discriminate]. apply some_inj, pair_equal_spec in H as [<- <-].
      destruct (avr_ok be t a m Hs Hm r0 m1 out E Hc Q) as (-> & y & -> & Ey).
      eapply rmw_access; [exact Hs | exact Hm | exact Hc | reflexivity | exact Ey].
  - (* Msp430 *)
    destruct o as [[ord|v ord|r0 ord|cu nw su fa]|cu nw su fa|r0 ord]; try (eapply plain_ok; eassumption).
    cbn [bcallable] in Hc. apply andb_prop in Hc as [_ Hc].
    destruct (msp430_access be t a r0 m) as [m1|] eqn:Q; [|discriminate]. apply some_inj, pair_equal_spec in H as [<- <-].
    rewrite (msp430_ok be t a m Hs Hm r0 m1 Hc Q).
    eapply rmw_access; [exact Hs | exact Hm | exact Hc | reflexivity | reflexivity].
  - (* Riscv *)
    destruct AO as (-> & XL & AD). eapply rv_access_ok; eauto.
Qed.

Lemma native_total ar be t a o m m2 : native ar be t a o m <> None -> native ar be t a o m2 <> None.
Proof.
  unfold native. destruct (all_emulated ar t); [congruence|].
  assert (PL : forall o, plain_access be t a o m <> None -> plain_access be t a o m2 <> None)
    by (intros [[]| |]; cbn; congruence).
  destruct ar as [|f|[] na| |sm c|]; auto.
  - destruct o as [[ord|v ord|r0 ord|cu nw su fa]|cu nw su fa|r0 ord]; auto;
      unfold avr_access; destruct r0; congruence.
  - destruct o as [[ord|v ord|r0 ord|cu nw su fa]|cu nw su fa|r0 ord]; auto.
    unfold msp430_access; destruct r0; congruence.
  - unfold rv_access. destruct (xlen c <? ibits t); [congruence|].
    destruct o as [[ord|v ord|r0 ord|cu nw su fa]|cu nw su fa|r0 ord]; try congruence;
      try (destruct ord; cbn; congruence);
      unfold rv_rmw, word_rmw, sub_word_rmw; destruct (zaamo c); cbn [negb]; try congruence;
      destruct ((ibits t <? 32) && negb (zabha c)); destruct r0; try congruence; unfold amo_exec, sub_word_and, sub_word_or, sub_word_xor;
      destruct (create_sub_word_mask_values c (nbytes t) a) as [[? ?] ?]; cbn; congruence.
Qed.
