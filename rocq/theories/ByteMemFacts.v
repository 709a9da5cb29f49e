From Coq Require Import ZArith List Bool Lia.
From Verif Require Import Words WordsFacts ByteMem.
Import ListNotations.
Open Scope Z_scope.

Lemma byte_of_range v i : 0 <= byte_of v i < 256.
Proof. unfold byte_of. apply Z.mod_pos_bound. lia. Qed.

Lemma byte_of_testbit v i k : 0 <= k < 8 -> Z.testbit (byte_of v i) k = Z.testbit v (8 * Z.of_nat i + k).
Proof.
  intros H. unfold byte_of. change 256 with (2 ^ 8). rewrite Z.mod_pow2_bits_low by lia.
  rewrite <- Z.shiftr_div_pow2 by lia. rewrite Z.shiftr_spec by lia. f_equal. lia.
Qed.
Lemma byte_testbit_high b k : 0 <= b < 256 -> 8 <= k -> Z.testbit b k = false.
Proof.
  intros H K. apply (proj1 (in_range_unsigned_bits 8 b ltac:(lia)) H k K).
Qed.

Lemma join_le_testbit cs : forall k, Forall (fun c => 0 <= c < 256) cs -> 0 <= k ->
  Z.testbit (join_le 8 cs) k = Z.testbit (nth (Z.to_nat (k / 8)) cs 0) (k mod 8).
Proof.
  induction cs as [|c cs IH]; intros k F K; cbn [join_le].
  - rewrite Z.testbit_0_l. destruct (Z.to_nat (k / 8)); cbn; now rewrite Z.testbit_0_l.
  - inversion F as [|? ? Hc F']; subst.
    rewrite Z.add_nocarry_lxor.
    2:{ apply Z.bits_inj'. intros n Hn. rewrite Z.land_spec, Z.testbit_0_l, (Z.mul_comm (2 ^ 8)), Z.mul_pow2_bits by lia.
        destruct (Z.ltb_spec n 8) as [L|L].
        - rewrite (Z.testbit_neg_r _ (n - 8)) by lia. apply andb_false_r.
        - now rewrite byte_testbit_high by lia. }
    rewrite Z.lxor_spec, (Z.mul_comm (2 ^ 8)), Z.mul_pow2_bits by lia.
    destruct (Z.ltb_spec k 8) as [L|L].
    + rewrite (Z.testbit_neg_r _ (k - 8)) by lia. rewrite xorb_false_r.
      rewrite Z.div_small, Z.mod_small by lia. reflexivity.
    + rewrite byte_testbit_high by lia. rewrite xorb_false_l. rewrite IH by (assumption || lia).
      replace (k / 8) with (1 + (k - 8) / 8) by (Z.to_euclidean_division_equations; lia).
      replace ((k - 8) mod 8) with (k mod 8) by (Z.to_euclidean_division_equations; lia).
      rewrite Z2Nat.inj_add by (try apply Z.div_pos; lia). reflexivity.
Qed.

Lemma nth_map_seq (f : nat -> Z) n i : nth i (map f (seq 0 n)) 0 = if (i <? n)%nat then f i else 0.
Proof.
  destruct (Nat.ltb_spec i n) as [L|L].
  - rewrite nth_indep with (d' := f 0%nat) by (now rewrite map_length, seq_length). rewrite map_nth.
    now rewrite seq_nth by exact L.
  - rewrite nth_overflow; [reflexivity | now rewrite map_length, seq_length].
Qed.

Section M.
  Variable be : bool.

  Lemma ld_forall n m a : byte_mem m -> Forall (fun c => 0 <= c < 256) (map (fun i => m (baddr be n a i)) (seq 0 n)).
  Proof. intros H. apply Forall_forall. intros x Hx. apply in_map_iff in Hx. destruct Hx as (i & <- & _). apply H. Qed.

  Lemma ld_testbit n m a k : byte_mem m -> 0 <= k ->
    Z.testbit (ld be n m a) k =
    if k <? 8 * Z.of_nat n then Z.testbit (m (baddr be n a (Z.to_nat (k / 8)))) (k mod 8) else false.
  Proof.
    intros H K. unfold ld. rewrite join_le_testbit by (try apply ld_forall; assumption).
    rewrite nth_map_seq.
    destruct (Nat.ltb_spec (Z.to_nat (k / 8)) n) as [L|L]; destruct (Z.ltb_spec k (8 * Z.of_nat n)) as [L'|L'];
      try reflexivity; try (rewrite Z.testbit_0_l; reflexivity).
    all: exfalso; Z.to_euclidean_division_equations; lia.
  Qed.

  Lemma ld_range n m a : byte_mem m -> 0 <= ld be n m a < 2 ^ (8 * Z.of_nat n).
  Proof.
    intros H. apply in_range_unsigned_bits; [lia|]. intros i Hi. rewrite ld_testbit by (assumption || lia).
    destruct (Z.ltb_spec i (8 * Z.of_nat n)); [lia | reflexivity].
  Qed.

  Lemma ld_byte n m a i : byte_mem m -> (i < n)%nat -> byte_of (ld be n m a) i = m (baddr be n a i).
  Proof.
    intros H L. apply Z.bits_inj'. intros k K. destruct (Z.ltb_spec k 8) as [K8|K8].
    - rewrite byte_of_testbit by lia. rewrite ld_testbit by (assumption || lia).
      destruct (Z.ltb_spec (8 * Z.of_nat i + k) (8 * Z.of_nat n)); [|lia].
      replace ((8 * Z.of_nat i + k) / 8) with (Z.of_nat i) by (Z.to_euclidean_division_equations; lia).
      replace ((8 * Z.of_nat i + k) mod 8) with k by (Z.to_euclidean_division_equations; lia).
      now rewrite Nat2Z.id.
    - rewrite byte_testbit_high by (try apply byte_of_range; lia). now rewrite byte_testbit_high by (try apply H; lia).
  Qed.

  (** an integer is determined by its bytes *)
  Lemma bytes_eq n v w : 0 <= v < 2 ^ (8 * Z.of_nat n) -> 0 <= w < 2 ^ (8 * Z.of_nat n) ->
    (forall i, (i < n)%nat -> byte_of v i = byte_of w i) -> v = w.
  Proof.
    intros Hv Hw E. apply Z.bits_inj'. intros k K. destruct (Z.ltb_spec k (8 * Z.of_nat n)) as [L|L].
    - specialize (E (Z.to_nat (k / 8)) ltac:(Z.to_euclidean_division_equations; lia)).
      apply (f_equal (fun z => Z.testbit z (k mod 8))) in E.
      assert (M : 0 <= k mod 8 < 8) by (apply Z.mod_pos_bound; lia).
      rewrite !byte_of_testbit in E by exact M.
      replace (8 * Z.of_nat (Z.to_nat (k / 8)) + k mod 8) with k in E; [exact E|].
      rewrite Z2Nat.id by (apply Z.div_pos; lia). Z.to_euclidean_division_equations; lia.
    - rewrite (proj1 (in_range_unsigned_bits (8 * Z.of_nat n) v ltac:(lia)) Hv k L).
      now rewrite (proj1 (in_range_unsigned_bits (8 * Z.of_nat n) w ltac:(lia)) Hw k L).
  Qed.

  Lemma ld_ext n m m' a : (forall x, a <= x < a + Z.of_nat n -> m' x = m x) -> ld be n m' a = ld be n m a.
  Proof.
    intros H. unfold ld. f_equal. apply map_ext_in. intros i Hi. apply in_seq in Hi. apply H.
    unfold baddr. destruct be; lia.
  Qed.

  Lemma st_in n m a v i : (i < n)%nat -> st be n m a v (baddr be n a i) = byte_of v i.
  Proof.
    intros L. unfold st.
    replace ((a <=? baddr be n a i) && (baddr be n a i <? a + Z.of_nat n)) with true.
    2:{ symmetry. apply andb_true_intro. split; [apply Z.leb_le | apply Z.ltb_lt]; unfold baddr; destruct be; lia. }
    f_equal. unfold baddr. destruct be; lia.
  Qed.
  Lemma st_out n m a v x : x < a \/ a + Z.of_nat n <= x -> st be n m a v x = m x.
  Proof. intros H. unfold st. destruct (Z.leb_spec a x); destruct (Z.ltb_spec x (a + Z.of_nat n)); cbn; reflexivity || lia. Qed.
  Lemma st_bytes n m a v : byte_mem m -> byte_mem (st be n m a v).
  Proof. intros H x. unfold st. destruct (_ && _); [apply byte_of_range | apply H]. Qed.

  Lemma ld_st n m a v : byte_mem m -> 0 <= v < 2 ^ (8 * Z.of_nat n) -> ld be n (st be n m a v) a = v.
  Proof.
    intros H Hv. apply (bytes_eq n); [apply ld_range, st_bytes, H | exact Hv |].
    intros i L. rewrite ld_byte by (try apply st_bytes; assumption). now apply st_in.
  Qed.
  Lemma ld_st_other n m a v n' b : b + Z.of_nat n' <= a \/ a + Z.of_nat n <= b ->
    ld be n' (st be n m a v) b = ld be n' m b.
  Proof. intros H. apply ld_ext. intros x Hx. apply st_out. lia. Qed.

  (** every address of the integer is that of one of its bytes *)
  Lemma baddr_surj n a x : a <= x < a + Z.of_nat n -> exists i, (i < n)%nat /\ x = baddr be n a i.
  Proof.
    intros H. unfold baddr. destruct be.
    - exists (Z.to_nat (a + Z.of_nat n - 1 - x)). lia.
    - exists (Z.to_nat (x - a)). lia.
  Qed.
  Lemma baddr_in n a i : (i < n)%nat -> a <= baddr be n a i < a + Z.of_nat n.
  Proof. unfold baddr. destruct be; lia. Qed.
  Lemma baddr_inj n a i j : (i < n)%nat -> (j < n)%nat -> baddr be n a i = baddr be n a j -> i = j.
  Proof. unfold baddr. destruct be; lia. Qed.
End M.
