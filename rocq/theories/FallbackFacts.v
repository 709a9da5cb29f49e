(** Basic facts about the fallback model: operations, chunks, orderings. *)
From Coq Require Import ZArith Lia Bool List PeanoNat ZifyBool.
From Verif Require Import Words Spec WordsFacts LinFacts OrderingModel FallbackModel.
Import ListNotations.
Open Scope Z_scope.

Lemma set_z_same {B} (f : Z -> B) x v : set_z f x v x = v.
Proof. unfold set_z. now rewrite Z.eqb_refl. Qed.
Lemma set_z_other {B} (f : Z -> B) x v y : y <> x -> set_z f x v y = f y.
Proof. unfold set_z. intros. now rewrite (proj2 (Z.eqb_neq y x)). Qed.
Lemma set_n_same {B} (f : nat -> B) x v : set_n f x v x = v.
Proof. unfold set_n. now rewrite Nat.eqb_refl. Qed.
Lemma set_n_other {B} (f : nat -> B) x v y : y <> x -> set_n f x v y = f y.
Proof. unfold set_n. intros. now rewrite (proj2 (Nat.eqb_neq y x)). Qed.

(** Every operation of the code computes what the specification says. *)
Lemma rmw_next_spec t r x : wf_ity t -> in_range t x -> rmw_typed t r -> rmw_next t r x = spec_rmw t r x.
Proof.
  intros H Hx Hr. destruct r; simpl in *.
  - reflexivity.
  - now apply wrapping_add_spec.
  - now apply wrapping_sub_spec.
  - now apply bit_and_spec.
  - rewrite bit_and_spec by assumption. now apply bit_not_spec.
  - now apply bit_or_spec.
  - now apply bit_xor_spec.
  - rewrite bit_not_spec by assumption. unfold Z.lnot, Z.pred. f_equal.
  - now apply wrapping_neg_spec.
  - apply cmp_max_spec.
  - apply cmp_min_spec.
Qed.

Lemma spec_rmw_range t r x : wf_ity t -> in_range t x -> rmw_typed t r -> in_range t (spec_rmw t r x).
Proof.
  intros H Hx Hr. destruct r; simpl in *; auto using norm_range, land_in_range, lor_in_range, lxor_in_range.
  - unfold in_range in *. lia.
  - unfold in_range in *. lia.
Qed.

Lemma spec_op_range t o x : wf_ity t -> in_range t x -> op_typed t o -> in_range t (fst (spec_op t o x)).
Proof.
  intros H Hx Ho. destruct o as [o|v o|r o|cu n su f]; simpl in *.
  - destruct o; simpl; auto.
  - destruct o; simpl; auto.
  - now apply spec_rmw_range.
  - destruct Ho. destruct f; simpl; auto; destruct (x =? cu); auto.
Qed.

Section Facts.
  Variable c : config.
  Hypothesis WF : wf_config c.

  Lemma chunk_bits_pos : 0 < chunk_bits c.
  Proof. unfold chunk_bits, chunk_bytes. destruct (wide c); lia. Qed.

  Lemma obj_ty_eq a t : objs c a = Some t -> obj_ty c a = t.
  Proof. unfold obj_ty. now intros ->. Qed.

  Lemma obj_len a t : objs c a = Some t -> ibits t = chunk_bits c * Z.of_nat (len c t) /\ (1 < len c t)%nat.
  Proof.
    intros H. destruct (proj1 WF a t H) as [n [Hn E]]. pose proof chunk_bits_pos.
    assert (len c t = n) as ->; [|auto].
    unfold len. rewrite E, Z.mul_comm, Z.div_mul by lia. apply Nat2Z.id.
  Qed.

  Lemma obj_wf a t : objs c a = Some t -> wf_ity t.
  Proof. intros H. destruct (obj_len a t H) as [E L]. pose proof chunk_bits_pos. unfold wf_ity. nia. Qed.

  Lemma to_chunks_length t v : length (to_chunks c t v) = len c t.
  Proof. unfold to_chunks. destruct (big c); rewrite ?rev_length; apply split_le_length. Qed.

  Lemma of_to_chunks a t v : objs c a = Some t -> in_range t v -> of_chunks c t (to_chunks c t v) = v.
  Proof.
    intros H Hv. pose proof (obj_wf _ _ H) as W. destruct (obj_len _ _ H) as [E _].
    pose proof chunk_bits_pos. unfold of_chunks, to_chunks.
    replace (if big c then rev (if big c then rev (split_le (chunk_bits c) (len c t) (to_bits t v))
               else split_le (chunk_bits c) (len c t) (to_bits t v))
             else (if big c then rev (split_le (chunk_bits c) (len c t) (to_bits t v))
               else split_le (chunk_bits c) (len c t) (to_bits t v)))
      with (split_le (chunk_bits c) (len c t) (to_bits t v)) by (destruct (big c); now rewrite ?rev_involutive).
    rewrite join_split_le; [now apply of_to_bits | lia |].
    rewrite <- E. now apply to_bits_range.
  Qed.

  Lemma to_of_chunks a t cs : objs c a = Some t -> length cs = len c t ->
    Forall (fun x => 0 <= x < 2 ^ chunk_bits c) cs ->
    to_chunks c t (of_chunks c t cs) = cs /\ in_range t (of_chunks c t cs).
  Proof.
    intros H L F. pose proof (obj_wf _ _ H) as W. destruct (obj_len _ _ H) as [E _].
    pose proof chunk_bits_pos. unfold of_chunks, to_chunks.
    set (cs' := if big c then rev cs else cs).
    assert (L' : length cs' = len c t) by (unfold cs'; destruct (big c); rewrite ?rev_length; auto).
    assert (F' : Forall (fun x => 0 <= x < 2 ^ chunk_bits c) cs').
    { unfold cs'; destruct (big c); auto. rewrite Forall_forall in *. intros x Hx. apply F.
      now apply in_rev. }
    pose proof (join_le_range _ _ (Z.lt_le_incl _ _ H0) F') as R. rewrite L', <- E in R.
    split; [|now apply of_bits_range].
    rewrite to_of_bits by assumption.
    cbv zeta. rewrite <- L'. rewrite split_join_le by (auto; lia).
    unfold cs'. destruct (big c); now rewrite ?rev_involutive.
  Qed.

  Lemma chunk_addr_inj a b ta tb i j : objs c a = Some ta -> objs c b = Some tb ->
    (i < len c ta)%nat -> (j < len c tb)%nat -> chunk_addr c a i = chunk_addr c b j -> a = b /\ i = j.
  Proof.
    intros Ha Hb Hi Hj E. assert (a = b) by (eapply (proj2 WF); eauto). subst. split; auto.
    unfold chunk_addr, chunk_bytes in E. destruct (wide c); lia.
  Qed.

  Lemma rmw_typedb_iff t r : rmw_typedb t r = true -> rmw_typed t r.
  Proof. destruct r; simpl; auto; apply in_rangeb_iff. Qed.
  Lemma op_typedb_iff t o : op_typedb t o = true -> op_typed t o.
  Proof.
    destruct o; simpl; auto.
    - apply in_rangeb_iff.
    - apply rmw_typedb_iff.
    - rewrite andb_true_iff, !in_rangeb_iff. auto.
  Qed.

  Lemma order_bad_spec t o x : order_ok o = false -> spec_op t o x = (x, RPanic).
  Proof. destruct o as [o|v o|r o|cu n su f]; try destruct o; try destruct su, f; simpl; intros; try discriminate; reflexivity. Qed.
  Lemma spec_load t o x : order_ok (OLoad o) = true -> spec_op t (OLoad o) x = (x, RVal x).
  Proof. destruct o; simpl; intros; try discriminate; reflexivity. Qed.
  Lemma spec_store t v o x : order_ok (OStore v o) = true -> spec_op t (OStore v o) x = (v, RUnit).
  Proof. destruct o; simpl; intros; try discriminate; reflexivity. Qed.
  Lemma spec_cas t cu n su f x : order_ok (OCas cu n su f) = true ->
    spec_op t (OCas cu n su f) x = if x =? cu then (n, ROk x) else (x, RErr x).
  Proof. destruct su, f; simpl; intros; try discriminate; reflexivity. Qed.

  Lemma chunks_at_length m a n : length (chunks_at c m a n) = n.
  Proof. unfold chunks_at. now rewrite map_length, seq_length. Qed.
  Lemma chunks_at_nth m a n i d : (i < n)%nat -> nth i (chunks_at c m a n) d = m (chunk_addr c a i).
  Proof.
    intros H. unfold chunks_at.
    rewrite (nth_indep _ d ((fun i => m (chunk_addr c a i)) 0%nat)) by now rewrite map_length, seq_length.
    rewrite (map_nth (fun i => m (chunk_addr c a i))). now rewrite seq_nth.
  Qed.
  Lemma chunks_at_ext m m' a n : (forall i, (i < n)%nat -> m' (chunk_addr c a i) = m (chunk_addr c a i)) ->
    chunks_at c m' a n = chunks_at c m a n.
  Proof. intros H. unfold chunks_at. apply map_ext_in. intros i Hi. apply in_seq in Hi. apply H. lia. Qed.
End Facts.

Lemma firstn_snoc {A} (l : list A) n d : (n < length l)%nat -> firstn (S n) l = firstn n l ++ [nth n l d].
Proof.
  revert n; induction l as [|x l IH]; intros [|n] H; simpl in *; try lia; auto.
  f_equal. rewrite <- IH by lia. reflexivity.
Qed.
Lemma nth_list_eq {A} (l l' : list A) d : length l = length l' ->
  (forall i, (i < length l)%nat -> nth i l d = nth i l' d) -> l = l'.
Proof. intros. eapply nth_ext; eauto. Qed.
