(** Proofs about PtrModel. *)
From Coq Require Import ZArith Lia.
From Verif Require Import Words Spec WordsFacts FrontSpec PtrModel.
Open Scope Z_scope.

Lemma usz_norm w z : 0 < w -> norm (usz w) z = z mod 2 ^ w.
Proof. intros. unfold norm. change (imin (usz w)) with 0. rewrite Z.sub_0_r, Z.add_0_l. reflexivity. Qed.
Lemma cast_usz w z : cast (usz w) z = z mod 2 ^ w.
Proof. reflexivity. Qed.
Lemma usz_range w x : in_range (usz w) x <-> 0 <= x < 2 ^ w.
Proof. unfold in_range. change (imin (usz w)) with 0. change (imax (usz w)) with (2 ^ w - 1). lia. Qed.
Lemma mod_norm_isz w z : 0 < w -> norm (isz w) z mod 2 ^ w = z mod 2 ^ w.
Proof. intros W. apply (norm_bits (isz w) z W). Qed.

Lemma norm_shift w z : 0 < w -> exists k, norm (isz w) z = z + k * 2 ^ w.
Proof.
  intros W. exists (- ((z - imin (isz w)) / 2 ^ w)). unfold norm. cbn [isz ibits].
  pose proof (Z.div_mod (z - imin (isz w)) (2 ^ w)) as D. pose proof (pow2_pos w). lia.
Qed.
Lemma with_addr_ok w pf p a : 0 < w -> 0 <= a < 2 ^ w -> with_addr w pf p a = mk_ptr (prov p) a.
Proof.
  intros W A. destruct pf; [|reflexivity]. unfold with_addr, with_addr_polyfill, wrapping_offset. cbv zeta. f_equal.
  rewrite wrapping_add_spec, usz_norm, cast_usz by exact W.
  rewrite wrapping_sub_spec, mod_norm_isz by exact W. rewrite !cast_norm by exact W.
  rewrite Zplus_mod_idemp_r.
  destruct (norm_shift w a W) as [k ->]. destruct (norm_shift w (addr p) W) as [l ->].
  replace (addr p + (a + k * 2 ^ w - (addr p + l * 2 ^ w))) with (a + (k - l) * 2 ^ w) by ring.
  rewrite Z.mod_add by (pose proof (pow2_pos w); lia). now apply Z.mod_small.
Qed.

Lemma next_ptr_ok w size pf o p : 0 < w -> 0 <= size -> 0 <= addr p < 2 ^ w ->
  match o with PtrAdd v | PtrSub v | ByteAdd v | ByteSub v | PtrOr v | PtrAnd v | PtrXor v => 0 <= v < 2 ^ w end ->
  next_ptr w size pf o p = mk_ptr (prov p) (ptr_fn w size o (addr p)) /\ 0 <= ptr_fn w size o (addr p) < 2 ^ w.
Proof.
  intros W S A V. pose proof (pow2_pos w ltac:(lia)) as P. assert (WF : wf_ity (usz w)) by exact W.
  assert (R : 0 <= ptr_fn w size o (addr p) < 2 ^ w).
  { destruct o; cbn [ptr_fn]; try (apply Z.mod_pos_bound; lia); apply usz_range.
    - apply lor_in_range; auto; now apply usz_range.
    - apply land_in_range; auto; now apply usz_range.
    - apply lxor_in_range; auto; now apply usz_range. }
  split; [|exact R]. rewrite <- (with_addr_ok w pf p _ W R).
  destruct o; cbn [next_ptr ptr_fn]; f_equal.
  - rewrite wrapping_add_spec, wrapping_mul_spec, !usz_norm by assumption. now rewrite Zplus_mod_idemp_r.
  - rewrite wrapping_sub_spec, wrapping_mul_spec, !usz_norm by assumption. now rewrite Zminus_mod_idemp_r.
  - now rewrite wrapping_add_spec, usz_norm by assumption.
  - now rewrite wrapping_sub_spec, usz_norm by assumption.
  - apply bit_or_spec; auto; now apply usz_range.
  - apply bit_and_spec; auto; now apply usz_range.
  - apply bit_xor_spec; auto; now apply usz_range.
Qed.
