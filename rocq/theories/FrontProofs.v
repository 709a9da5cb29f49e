(** Proofs about FrontModel. *)
From Coq Require Import ZArith List Bool Lia ZifyBool PeanoNat.
From Verif Require Import Words Spec WordsFacts FrontSpec LoopModel LoopProofs AsmModel AsmProofs BlockProofs FallbackModel
  FallbackFacts AtomicImplsProofs FrontModel.
Import ListNotations.
Open Scope Z_scope.


(** ** Bits *)
Lemma land_low bit e : 0 <= e -> Z.land bit (2 ^ e - 1) = bit mod 2 ^ e.
Proof. intros E. rewrite <- Z.land_ones by lia. f_equal. rewrite Z.ones_equiv. lia. Qed.
Lemma of_bits_testbit t b n : wf_ity t -> 0 <= b < 2 ^ ibits t -> 0 <= n < ibits t -> Z.testbit (of_bits t b) n = Z.testbit b n.
Proof.
  intros W B N. rewrite <- (to_of_bits t b W B) at 2. unfold to_bits. rewrite mod_pow2_testbit by lia.
  destruct (Z.ltb_spec n (ibits t)); [reflexivity|lia].
Qed.
Definition bit_next (w : Z) (k : bitop) (p x : Z) : Z :=
  match k with BSet => Z.lor x (2 ^ p) | BClear => Z.land x (Z.lxor (2 ^ p) (Z.ones w)) | BToggle => Z.lxor x (2 ^ p) end.
Lemma bit_next_ok w k bit x : 0 < w -> 0 <= x < 2 ^ w ->
  0 <= bit_next w k (bit mod w) x < 2 ^ w /\ bit_changed w k bit x (bit_next w k (bit mod w) x).
Proof.
  intros W X. pose proof (Z.mod_pos_bound bit w W) as P. set (p := bit mod w) in *. split.
  - apply in_range_unsigned_bits; [lia|]. intros i Hi. pose proof (proj1 (in_range_unsigned_bits w x ltac:(lia)) X i Hi) as Q.
    assert (Z.testbit (2 ^ p) i = false) by (rewrite Z.pow2_bits_eqb by lia; apply Z.eqb_neq; lia).
    destruct k; cbn [bit_next].
    + now rewrite Z.lor_spec, Q, H.
    + now rewrite Z.land_spec, Q.
    + now rewrite Z.lxor_spec, Q, H.
  - intros n N. fold p. assert (E : Z.testbit (2 ^ p) n = (n =? p)).
    { rewrite Z.pow2_bits_eqb by lia. apply Z.eqb_sym. }
    destruct k; cbn [bit_next].
    + rewrite Z.lor_spec, E. destruct (n =? p); [apply orb_true_r|apply orb_false_r].
    + rewrite Z.land_spec, Z.lxor_spec, E, Z.ones_spec_low by lia. destruct (n =? p); [apply andb_false_r|apply andb_true_r].
    + rewrite Z.lxor_spec, E. destruct (n =? p); [apply xorb_true_r|apply xorb_false_r].
Qed.
Lemma land_pow2 x p : 0 <= p -> nz (Z.land x (2 ^ p)) = Z.testbit x p.
Proof.
  intros P. unfold nz. destruct (Z.testbit x p) eqn:T.
  - destruct (Z.eqb_spec (Z.land x (2 ^ p)) 0) as [E|]; [|reflexivity].
    assert (Z.testbit (Z.land x (2 ^ p)) p = true) as Q by (rewrite Z.land_spec, T, Z.pow2_bits_true by lia; reflexivity).
    rewrite E, Z.bits_0 in Q. discriminate.
  - destruct (Z.eqb_spec (Z.land x (2 ^ p)) 0) as [E|E]; [reflexivity|]. exfalso. apply E. apply Z.bits_inj'. intros n N.
    rewrite Z.land_spec, Z.bits_0, Z.pow2_bits_eqb by lia. destruct (Z.eqb_spec p n) as [<-|]; [now rewrite T|apply andb_false_r].
Qed.
Lemma of_bits_zero t b : wf_ity t -> 0 <= b < 2 ^ ibits t -> nz (of_bits t b) = nz b.
Proof.
  intros W B. unfold nz. f_equal. apply eq_true_iff_eq. rewrite !Z.eqb_eq. split; intros E.
  - rewrite <- (to_of_bits t b W B), E. unfold to_bits. apply Z.mod_0_l. lia.
  - subst b. unfold of_bits. destruct (isigned t && (2 ^ (ibits t - 1) <=? 0)) eqn:Q; [|reflexivity].
    apply andb_prop in Q as [_ Q]. apply Z.leb_le in Q. pose proof (pow2_pos (ibits t - 1)). unfold wf_ity in W. lia.
Qed.
Lemma wf_pow t e : 0 <= e -> ibits t = 2 ^ e -> wf_ity t.
Proof. intros E Q. unfold wf_ity. rewrite Q. apply Z.pow_pos_nonneg; lia. Qed.
Lemma pow2_lt_self w p : 0 <= p < w -> 0 <= 2 ^ p < 2 ^ w.
Proof. intros P. pose proof (pow2_pos p). split; [lia|]. apply Z.pow_lt_mono_r; lia. Qed.
Lemma mask_bits t bit e : 0 <= e -> ibits t = 2 ^ e -> to_bits t (wrapping_shl1 t bit) = 2 ^ (bit mod ibits t).
Proof.
  intros E Q. pose proof (wf_pow t e E Q) as W. assert (0 < ibits t) by exact W.
  pose proof (Z.mod_pos_bound bit (ibits t) ltac:(lia)) as P.
  unfold wrapping_shl1. rewrite to_of_bits; [|exact W|apply Z.mod_pos_bound; apply pow2_pos; lia].
  replace (Z.land bit (ibits t - 1)) with (bit mod ibits t) by (rewrite Q; symmetry; now apply land_low).
  unfold to_bits. rewrite (Z.mod_small 1); [|split; [lia|apply Z.pow_gt_1; lia]]. rewrite Z.mul_1_l. apply Z.mod_small.
  now apply pow2_lt_self.
Qed.
Lemma default_bit_access t k bit e x sp : 0 <= e -> ibits t = 2 ^ e -> 0 <= x < 2 ^ ibits t ->
  let mask := wrapping_shl1 t bit in
  b_rmw t (match k with BSet => Or mask | BClear => And (bit_not t mask) | BToggle => Xor mask end) sp x
    = (Some (bit_next (ibits t) k (bit mod ibits t) x), (x, true)) /\
  nz (bit_and t (of_bits t x) mask) = Z.testbit x (bit mod ibits t).
Proof.
  intros E Q X mask. pose proof (wf_pow t e E Q) as W. assert (W0 : 0 < ibits t) by exact W.
  pose proof (Z.mod_pos_bound bit (ibits t) W0) as P. pose proof (bit_next_ok (ibits t) k bit x W0 X) as [NB _].
  assert (M : to_bits t mask = 2 ^ (bit mod ibits t)) by now apply (mask_bits t bit e).
  split.
  - unfold b_rmw. do 2 f_equal. destruct k; cbn [rmw_next bit_next] in *; unfold bit_or, bit_and, bit_xor, bit_not.
    + rewrite !(to_of_bits t x W X), M. now apply to_of_bits.
    + rewrite !(to_of_bits t x W X), M, (to_of_bits t (Z.lxor _ _) W); [now apply to_of_bits|].
      clear NB M. apply in_range_unsigned_bits; [lia|]. intros i Hi. rewrite Z.lxor_spec, Z.ones_spec_high, Z.pow2_bits_false by lia. reflexivity.
    + rewrite !(to_of_bits t x W X), M. now apply to_of_bits.
  - unfold bit_and. rewrite (to_of_bits t x W X), M, of_bits_zero; [apply land_pow2; lia|exact W|].
    pose proof (pow2_lt_self _ _ P). apply in_range_unsigned_bits; [lia|]. intros i Hi.
    rewrite Z.land_spec, (Z.pow2_bits_false _ i) by lia. apply andb_false_r.
Qed.
Lemma bt_reg t bit e : 0 <= e -> ibits t = 2 ^ e ->
  of_bits (mk_ity (ibits t) true) (to_bits t (cast t (Z.land bit (ibits t - 1)))) = bit mod ibits t.
Proof.
  intros E Q. pose proof (wf_pow t e E Q) as W. assert (W0 : 0 < ibits t) by exact W.
  replace (Z.land bit (ibits t - 1)) with (bit mod ibits t) by (rewrite Q; symmetry; now apply land_low).
  pose proof (Z.mod_pos_bound bit (ibits t) W0) as P.
  pose proof (Z.pow_gt_lin_r 2 (ibits t) ltac:(lia) ltac:(lia)). pose proof (Z.pow_gt_lin_r 2 (ibits t - 1) ltac:(lia) ltac:(lia)).
  unfold cast. rewrite to_of_bits; [|exact W|now apply to_bits_range]. unfold to_bits. rewrite Z.mod_small by lia.
  unfold of_bits. cbn [isigned ibits andb]. destruct (Z.leb_spec (2 ^ (ibits t - 1)) (bit mod ibits t)); lia.
Qed.
Lemma bt_access_next w k p x : 0 <= p < w -> 0 <= x < 2 ^ w ->
  match k with BSet => Z.setbit x p | BClear => Z.clearbit x p | BToggle => Z.lxor x (2 ^ p) end = bit_next w k p x.
Proof.
  intros P X. destruct k; cbn [bit_next]; [now rewrite Z.setbit_spec'| |reflexivity]. rewrite Z.clearbit_spec'. apply Z.bits_inj'.
  intros n N. rewrite Z.ldiff_spec, Z.land_spec, Z.lxor_spec. destruct (Z.ltb_spec n w).
  - rewrite Z.ones_spec_low by lia. destruct (Z.testbit x n), (Z.testbit (2 ^ p) n); reflexivity.
  - rewrite (proj1 (in_range_unsigned_bits w x ltac:(lia)) X n ltac:(lia)). reflexivity.
Qed.

(** ** Float masks *)
Lemma neg_mask mw ew : 0 < mw -> 0 < ew -> NEG_MASK (fl_ity mw ew) = 2 ^ (mw + ew) /\ ABS_MASK (fl_ity mw ew) = 2 ^ (mw + ew) - 1.
Proof.
  intros M E. unfold NEG_MASK, ABS_MASK, bit_not, fl_ity, to_bits, of_bits. cbn [isigned ibits andb].
  rewrite Z.mod_0_l by (apply Z.pow_nonzero; lia). rewrite Z.lxor_0_l, Z.ones_equiv.
  replace (1 + mw + ew) with (Z.succ (mw + ew)) by lia. rewrite Z.pow_succ_r by lia. pose proof (pow2_pos (mw + ew)).
  replace (Z.pred (2 * 2 ^ (mw + ew)) / 2) with (2 ^ (mw + ew) - 1); [lia|].
  apply (Z.div_unique _ _ _ 1); lia.
Qed.
Lemma lxor_top n x : 0 <= n -> 0 <= x < 2 ^ (1 + n) -> Z.lxor x (2 ^ n) = (1 - x / 2 ^ n) * 2 ^ n + x mod 2 ^ n.
Proof.
  intros N X. pose proof (pow2_pos n N) as P. rewrite Z.pow_add_r in X by lia. pose proof (Z.div_mod x (2 ^ n) ltac:(lia)) as D.
  pose proof (Z.mod_pos_bound x (2 ^ n) P) as R. assert (S : x / 2 ^ n = 0 \/ x / 2 ^ n = 1).
  { assert (0 <= x / 2 ^ n) by (apply Z.div_pos; lia). assert (x / 2 ^ n < 2) by (apply Z.div_lt_upper_bound; lia). lia. }
  assert (A : Z.lxor (x mod 2 ^ n) (2 ^ n) = x mod 2 ^ n + 2 ^ n).
  { symmetry. apply Z.add_nocarry_lxor. apply Z.bits_inj'. intros i I. rewrite Z.land_spec, Z.bits_0, Z.pow2_bits_eqb by lia.
    destruct (Z.eqb_spec n i) as [<-|]; [|apply andb_false_r]. rewrite mod_pow2_testbit, Z.ltb_irrefl by lia. reflexivity. }
  destruct S as [S|S]; rewrite S in *.
  - replace x with (x mod 2 ^ n) at 1 by lia. lia.
  - replace x with (x mod 2 ^ n + 2 ^ n) at 1 by lia. rewrite <- A, Z.lxor_assoc, Z.lxor_nilpotent, Z.lxor_0_r. lia.
Qed.

Section P.
  Variable g : cfg.
  Variable kd : Z -> kind.
  Variable ev : Z -> fop -> list Z -> Z -> Z.
  Variable arith : Z -> fop -> Z -> Z -> Prop.
  Hypothesis kok : forall a, kind_ok (kd a).
  (** the processor's float arithmetic does what [arith] permits, and subtraction is addition of the negation *)
  Hypothesis ev_ok : forall a mw ew op hist x, kd a = KFloat mw ew -> fop_typed (1 + mw + ew) op = true ->
    0 <= x < 2 ^ (1 + mw + ew) -> arith a op x (ev a op hist x) /\ 0 <= ev a op hist x < 2 ^ (1 + mw + ew).
  Hypothesis sub_ok : forall a mw ew v x y, kd a = KFloat mw ew -> 0 <= v < 2 ^ (1 + mw + ew) -> 0 <= x < 2 ^ (1 + mw + ew) ->
    arith a (FAdd (negated (fl_ity mw ew) v)) x y -> arith a (FSub v) x y.

  Local Notation width := (fun a => kbits (kd a)).
  Local Notation ab := (fun a x => kval (kd a) x).
  Local Notation sem := (psem kd arith).
  Local Notation inr := (LoopProofs.inr width).

  Definition f_impl (c : fconf) : impl pres :=
    match c with
    | FAccess a f k => Direct (fun sp x => let '(w, r) := f sp x in (w, k r))
    | FUpdLoad a k dec f ok err => CasLoop k [0%nat] false f ok err
    | _ => Direct (fun _ _ => (None, PUnit))
    end.
  Definition conf_ok (a : Z) (o : pop) (c : fconf) : Prop :=
    match c with
    | FAccess a' f k => a' = a /\ forall sp x, inr a x ->
        match fst (f sp x) with
        | Some y => inr a y /\ sem a o (ab a x) (ab a y, k (snd (f sp x)))
        | None => sem a o (ab a x) (ab a x, k (snd (f sp x)))
        end
    | FUpdLoad a' k dec f ok err => a' = a /\ k = kbits (kd a) /\ (forall x, inr a x -> dec x = x) /\
        (forall hist x y, inr a x -> f hist x = Some y -> inr a y /\ sem a o (ab a x) (ab a y, ok x)) /\
        (forall hist x, inr a x -> f hist x = None -> sem a o (ab a x) (ab a x, err x))
    | _ => False
    end.

  Lemma wpos a : 0 < kbits (kd a).
  Proof.
    pose proof (kok a) as K. destruct (kd a) as [t| |w s|mw ew]; cbn [kind_ok kbits] in *.
    - destruct K as (e & E & Q). rewrite Q. apply Z.pow_pos_nonneg; lia.
    - lia.
    - destruct K as ((e & E & Q) & _). rewrite Q. apply Z.pow_pos_nonneg; lia.
    - lia.
  Qed.

  Lemma conf_refines a o c : conf_ok a o c -> refines fnext width a o c (f_impl c).
  Proof.
    pose proof (wpos a) as W. destruct c as [a' f k|a' k dec f ok err| |]; cbn [conf_ok f_impl]; try contradiction.
    - intros (-> & H). eapply single_refines; [constructor|reflexivity|]. intros sp x X. specialize (H sp x X).
      destruct (f sp x) as [w r]. cbn [fst snd] in *. split; [reflexivity|]. split.
      + intros y ->. apply H.
      + eexists. split; [constructor|]. reflexivity.
    - intros (-> & -> & HD & HS & HN). cbv beta in *.
      apply casloop_refines_gen with
        (AtRd := fun hist n acc c => hist = [] /\ n = 0%nat /\ acc = 0 /\ c = FUpdLoad a (kbits (kd a)) dec f ok err)
        (AtTry := fun hist x c => inr a x /\ c = FUpdTry a dec f ok err hist x).
      + lia.
      + eexists. split; [constructor|]. auto.
      + intros hist n acc c (-> & -> & -> & ->). exists 0%nat, (fun x => FUpdTry a dec f ok err [] (dec x)).
        split; [reflexivity|]. split; [reflexivity|]. intros v V. cbn [length Nat.eqb]. cbv zeta.
        rewrite Z.mul_0_r, Z.pow_0_r, Z.mul_1_r, Z.add_0_l. eexists. split; [constructor|].
        split; [exact V|]. now rewrite HD by assumption.
      + intros hist x c (X & ->). cbn [fnext]. destruct (f hist x) as [y|] eqn:EF; [|reflexivity].
        eexists _, _. split; [reflexivity|]. intros sp z Zr. cbv beta.
        destruct (Z.eqb_spec z x) as [->|N]; [destruct sp|]; cbn [andb negb fst snd].
        * right. split; [auto|]. split; [reflexivity|]. eexists. split; [constructor|]. split; [exact Zr|]. now rewrite HD by assumption.
        * left. split; [reflexivity|]. split; [reflexivity|]. split; [exact (proj1 (HS hist x y Zr EF))|].
          eexists. split; [constructor|]. cbn. now rewrite HD by assumption.
        * right. split; [auto|]. split; [reflexivity|]. eexists. split; [constructor|]. split; [exact Zr|]. now rewrite HD by assumption.
  Qed.
  Lemma conf_correct a o c : conf_ok a o c -> impl_correct width ab sem a o (f_impl c).
  Proof.
    pose proof (wpos a) as W. destruct c as [a' f k|a' k dec f ok err| |]; cbn [conf_ok f_impl]; try contradiction.
    - intros (-> & H). split; [exact I|]. intros sp x X. specialize (H sp x X).
      destruct (f sp x) as [[y|] r]; cbn [fst snd] in H; exact H.
    - intros (-> & -> & HD & HS & HN). split; [discriminate|]. split; [exact HS|].
      intros hist x E. split; [split; [reflexivity|split; [lia|exact W]]|]. intros X. now apply (HN hist).
  Qed.

  (** ** Every call *)
  Lemma u8_bool a : kd a = KBool -> forall x, inr a x -> x = 0 \/ x = 1.
  Proof. intros E x X. unfold LoopProofs.inr in X. cbv beta in X. rewrite E in X. cbn in X. lia. Qed.
  Lemma inr_k a k x : kd a = k -> inr a x <-> 0 <= x < 2 ^ kbits k.
  Proof. intros <-. reflexivity. Qed.

  Lemma bit_op_ok a t k bit ord o : (kd a = KInt t \/ exists w s, kd a = KPtr w s /\ t = usize w) -> o = BitOp k bit ord ->
    conf_ok a o (bit_op g t a k bit).
  Proof.
    intros K ->. assert (E : exists e, 0 <= e /\ ibits t = 2 ^ e).
    { pose proof (kok a) as Q. destruct K as [K|(w & s & K & ->)]; rewrite K in Q; [exact Q|exact (proj1 Q)]. }
    destruct E as (e & E & Q). pose proof (wf_pow t e E Q) as W. assert (W0 : 0 < ibits t) by exact W.
    pose proof (Z.mod_pos_bound bit (ibits t) W0) as P.
    assert (KB : kbits (kd a) = ibits t) by (destruct K as [K|(w & s & K & ->)]; rewrite K; reflexivity).
    assert (S : forall x y b, 0 <= x < 2 ^ ibits t -> y = bit_next (ibits t) k (bit mod ibits t) x ->
              b = Z.testbit x (bit mod ibits t) -> inr a y /\ sem a (BitOp k bit ord) (ab a x) (ab a y, PBool b)).
    { intros x y b X -> ->. destruct (bit_next_ok (ibits t) k bit x W0 X) as [R B]. split; [unfold LoopProofs.inr; cbv beta; now rewrite KB|].
      destruct K as [K|(w & s & K & ->)]; unfold psem; rewrite K; cbn [kval].
      - eexists. split; [now apply of_bits_range|]. split.
        + intros n N. rewrite !of_bits_testbit by auto. apply B; lia.
        + now rewrite of_bits_testbit by (auto; lia).
      - eexists. split; [exact R|]. split; [exact B|reflexivity]. }
    unfold bit_op. destruct (bt_asm g && (8 <? ibits t)).
    - unfold bt_bit. cbv zeta. rewrite (bt_reg t bit e E Q). rewrite (Z.div_small _ (ibits t) P), Z.mul_0_r, Z.add_0_r. split; [reflexivity|].
      intros sp x X. unfold LoopProofs.inr in X. cbv beta in X. rewrite KB in X.
      rewrite Z.mod_mod by lia. unfold bt_access. cbn [fst snd].
      apply S; [exact X|now apply bt_access_next|]. now destruct (Z.testbit x (bit mod ibits t)).
    - split; [reflexivity|]. intros sp x X. unfold LoopProofs.inr in X. cbv beta in X. rewrite KB in X.
      destruct (default_bit_access t k bit e x sp E Q X) as [A B]. cbv zeta in *. rewrite A. cbn [fst snd].
      apply S; [exact X|reflexivity|exact B].
  Qed.

  Lemma b_rmw_next t r x sp : wf_ity t -> rmw_typed t r -> 0 <= x < 2 ^ ibits t ->
    b_rmw t r sp x = (Some (to_bits t (spec_rmw t r (of_bits t x))), (x, true)) /\
    of_bits t (to_bits t (spec_rmw t r (of_bits t x))) = spec_rmw t r (of_bits t x).
  Proof.
    intros W T X. pose proof (of_bits_range t x W X) as R. unfold b_rmw. rewrite rmw_next_spec by auto.
    split; [reflexivity|]. apply of_to_bits; [exact W|]. now apply spec_rmw_range.
  Qed.

  Ltac bool_case K := split; [reflexivity|];
    let sp := fresh "sp" in let x := fresh "x" in let X := fresh "X" in
    intros sp x X; destruct (u8_bool _ K x X) as [-> | ->]; destruct sp; cbn;
    (try (split; [unfold LoopProofs.inr; cbv beta; rewrite K; cbn; lia|])); unfold psem; rewrite K; cbn;
    first [reflexivity | exists true; split; reflexivity | exists false; split; reflexivity
          | exists true; split; [reflexivity|]; first [left; reflexivity|right; reflexivity]
          | exists false; split; [reflexivity|]; first [left; reflexivity|right; reflexivity]].

  Lemma bool_code_ok a o c : kd a = KBool -> p_code_of ev g kd a o = Some c -> conf_ok a o c.
  Proof.
    intros K. unfold p_code_of. rewrite K.
    destruct o; try discriminate; intros H; unfold bool_rmw, bool_fetch_and, bool_fetch_or, bool_fetch_xor,
      bool_fetch_nand, bool_swap, bool_no_fetch, bool_cas_weak, bool_cas, bool_cas_word, bool_cas_u8, bool_swap in *;
      repeat match type of H with context [load_ord ?o] => destruct (load_ord o); [|discriminate] end;
      repeat match type of H with context [store_ord ?o] => destruct (store_ord o); [|discriminate] end.
    - injection H as <-. bool_case K.
    - injection H as <-. destruct b; bool_case K.
    - injection H as <-. destruct op as [[]|[]|[]|[]|[]|]; destruct (word_bool g) eqn:WB; bool_case K.
    - destruct op as [[]|[]|[]|[]|[]|]; try discriminate; injection H as <-; bool_case K.
    - injection H as <-. destruct (word_bool g) eqn:WB; destruct current, new; bool_case K.
    - injection H as <-. destruct (word_bool g) eqn:WB; destruct current, new; bool_case K.
    - injection H as <-. unfold bool_update. split; [reflexivity|]. split; [now rewrite K|]. split; [|split].
      + intros x X. destruct (u8_bool _ K x X) as [-> | ->]; reflexivity.
      + intros hist x y X E. destruct (f (map nz hist) (nz x)) as [n|] eqn:EF; [|discriminate]. injection E as <-.
        split; [unfold LoopProofs.inr; cbv beta; rewrite K; destruct n; cbn; lia|]. unfold psem. rewrite K. cbn [kval].
        exists (nz x), (map nz hist). split; [destruct (u8_bool _ K x X) as [-> | ->]; reflexivity|]. now rewrite EF.
      + intros hist x X E. destruct (f (map nz hist) (nz x)) as [n|] eqn:EF; [discriminate|]. unfold psem. rewrite K. cbn [kval].
        exists (nz x), (map nz hist). split; [destruct (u8_bool _ K x X) as [-> | ->]; reflexivity|]. now rewrite EF.
  Qed.

  Definition plain_kind (a : Z) (t : ity) : Prop := kd a = KInt t \/ exists w s, kd a = KPtr w s /\ t = usize w.
  Lemma plain_kind_facts a t : plain_kind a t -> wf_ity t /\ kbits (kd a) = ibits t /\ forall x, kval (kd a) x = of_bits t x.
  Proof.
    pose proof (wpos a) as W. intros [K|(w & s & K & ->)]; rewrite K in *; (split; [exact W|split; reflexivity]).
  Qed.
  Lemma plain_sem a t p : plain_kind a t -> forall x out, out = (fst (spec_op t p x), PPlain (snd (spec_op t p x))) -> sem a (Plain p) x out.
  Proof. intros [K|(w & s & K & ->)] x out E; unfold psem; rewrite K; exact E. Qed.
  Lemma b_cas_ok a t c n weak sp x : plain_kind a t -> in_range t c -> in_range t n -> inr a x ->
    b_cas t c n weak sp x = if (of_bits t x =? c) && negb (weak && sp) then (Some (to_bits t n), (x, true)) else (None, (x, false)).
  Proof.
    intros PK C N X. destruct (plain_kind_facts a t PK) as (W & KB & _). unfold LoopProofs.inr in X. cbv beta in X. rewrite KB in X.
    unfold b_cas. replace (x =? to_bits t c) with (of_bits t x =? c); [reflexivity|]. apply eq_true_iff_eq. rewrite !Z.eqb_eq. split; intros E.
    - rewrite <- E. now rewrite to_of_bits.
    - rewrite E. now apply of_to_bits.
  Qed.
  Lemma plain_ok a t p ptr : plain_kind a t -> plain_typed t ptr p = true -> conf_ok a (Plain p) (plain t a p).
  Proof.
    intros PK T. destruct (plain_kind_facts a t PK) as (W & KB & KV). pose proof (plain_sem a t p PK) as S.
    assert (I : forall y, inr a y <-> 0 <= y < 2 ^ ibits t) by (intros; unfold LoopProofs.inr; cbv beta; now rewrite KB).
    destruct p as [ord|v ord|r ord|c n so fo]; cbn [plain_typed plain] in *; (split; [reflexivity|]); intros sp x X; cbv beta; rewrite ?KV.
    - cbn. apply S. rewrite ?KV. destruct ord; try discriminate; reflexivity.
    - apply andb_prop in T as [T1 T2]. apply in_rangeb_iff in T2. cbn. split; [apply I; now apply to_bits_range|]. apply S. rewrite ?KV, of_to_bits by auto.
      destruct ord; try discriminate; reflexivity.
    - apply andb_prop in T as [T1 T2]. assert (RT : rmw_typed t r) by (destruct r; cbn in *; try exact Logic.I; now apply in_rangeb_iff).
      apply I in X. destruct (b_rmw_next t r x sp W RT X) as [-> B]. cbn [fst snd]. split; [apply I; now apply to_bits_range|]. apply S. rewrite ?KV, B; reflexivity.
    - apply andb_prop in T as [T T2]. apply andb_prop in T as [T0 T1]. apply in_rangeb_iff in T1, T2.
      rewrite (b_cas_ok a) by assumption. cbn [andb negb]. rewrite andb_true_r.
      destruct (of_bits t x =? c) eqn:EC; cbn [fst snd]; [split; [apply I; now apply to_bits_range|]|];
        apply S; rewrite ?KV, ?of_to_bits by auto; unfold spec_op; rewrite EC; destruct fo; try discriminate; reflexivity.
  Qed.
  Lemma plain_cas_weak_ok a t c n so fo : plain_kind a t -> in_range t c -> in_range t n ->
    conf_ok a (PlainCasWeak c n so fo) (plain_cas_weak t a c n).
  Proof.
    intros PK C N. destruct (plain_kind_facts a t PK) as (W & KB & KV).
    assert (S : forall x out, out = (if x =? c then (n, PPlain (ROk x)) else (x, PPlain (RErr x))) \/ out = (x, PPlain (RErr x)) ->
              sem a (PlainCasWeak c n so fo) x out) by (destruct PK as [K|(w & s & K & ->)]; intros; unfold psem; rewrite K; assumption).
    split; [reflexivity|]. intros sp x X. cbv beta. rewrite (b_cas_ok a) by assumption. rewrite ?KV.
    destruct (of_bits t x =? c) eqn:EC; [destruct sp|]; cbn [andb negb fst snd].
    - apply S. now right.
    - split; [unfold LoopProofs.inr; cbv beta; rewrite KB; now apply to_bits_range|]. apply S. left. rewrite ?KV, EC, of_to_bits by auto; reflexivity.
    - apply S. now right.
  Qed.

  Lemma int_code_ok t a o c : kd a = KInt t -> p_code_of ev g kd a o = Some c -> conf_ok a o c.
  Proof.
    intros K. unfold p_code_of. rewrite K. pose proof (kok a) as KO. rewrite K in KO. destruct KO as (e & E & Q).
    pose proof (wf_pow t e E Q) as W.
    destruct o; try discriminate; intros H.
    - destruct (plain_typed t false p) eqn:T; [|discriminate]. injection H as <-. eapply plain_ok; [left; exact K|exact T].
    - destruct (load_ord f); [|discriminate]. destruct (in_rangeb t current) eqn:C; [|discriminate].
      destruct (in_rangeb t new) eqn:N; [|discriminate]. injection H as <-. apply in_rangeb_iff in C, N.
      apply plain_cas_weak_ok; [left; exact K|exact C|exact N].
    - destruct ((0 <=? bit) && (bit <? 2 ^ 32)); [|discriminate]. injection H as <-. eapply bit_op_ok; [left; exact K|reflexivity].
    - destruct (nofetch_typed t r) eqn:T; [|discriminate].
      assert (RT : rmw_typed t r) by (destruct r; cbn in *; try exact I; now apply in_rangeb_iff).
      assert (HH : c = FAccess a (b_rmw t r) (fun _ => PUnit)) by (destruct r; try discriminate; cbn in H; now injection H as <-).
      subst c. split; [reflexivity|]. intros sp x X. unfold LoopProofs.inr in *. cbv beta in *. rewrite K in *. cbn [kbits] in *.
      destruct (b_rmw_next t r x sp W RT X) as [-> B]. cbn [fst snd kval]. split; [now apply to_bits_range|].
      unfold psem. rewrite K, B. reflexivity.
  Qed.

  Lemma usize_wf w : 0 < w -> wf_ity (usize w). Proof. intros; exact H. Qed.
  Lemma usize_norm w z : 0 < w -> norm (usize w) z = z mod 2 ^ w.
  Proof. intros. unfold norm. change (imin (usize w)) with 0. rewrite Z.sub_0_r, Z.add_0_l. reflexivity. Qed.
  Lemma in_bits_range w v : in_bits w v = true -> in_range (usize w) v.
  Proof. unfold in_bits, in_range. change (imin (usize w)) with 0. change (imax (usize w)) with (2 ^ w - 1). lia. Qed.

  Lemma ptr_code_ok w size a o c : kd a = KPtr w size -> p_code_of ev g kd a o = Some c -> conf_ok a o c.
  Proof.
    intros K. unfold p_code_of. rewrite K. pose proof (wpos a) as W. rewrite K in W. cbn [kbits] in W.
    assert (PK : plain_kind a (usize w)) by (right; eauto).
    destruct o; try discriminate; intros H.
    - destruct (plain_typed (usize w) true p) eqn:T; [|discriminate]. injection H as <-. eapply plain_ok; [exact PK|exact T].
    - destruct (load_ord f); [|discriminate]. destruct (in_rangeb (usize w) current) eqn:C; [|discriminate].
      destruct (in_rangeb (usize w) new) eqn:N; [|discriminate]. injection H as <-. apply in_rangeb_iff in C, N.
      apply plain_cas_weak_ok; [exact PK|exact C|exact N].
    - destruct ((0 <=? bit) && (bit <? 2 ^ 32)); [|discriminate]. injection H as <-.
      eapply bit_op_ok; [right; exists w, size; split; [exact K|reflexivity]|reflexivity].
    - destruct (ptr_typed w op) eqn:T; [|discriminate]. injection H as <-.
      assert (G : forall r, rmw_typed (usize w) r -> (forall x, 0 <= x < 2 ^ w -> spec_rmw (usize w) r x = ptr_fn w size op x) ->
                conf_ok a (PtrRmw op o) (FAccess a (b_rmw (usize w) r) (fun o => PVal (of_bits (usize w) (fst o))))).
      { intros r RT S. split; [reflexivity|]. intros sp x X. unfold LoopProofs.inr in *. cbv beta in *. rewrite K in *. cbn [kbits] in *.
        destruct (b_rmw_next (usize w) r x sp (usize_wf w W) RT X) as [-> B]. cbn [fst snd kval].
        split; [apply to_bits_range; exact W|]. unfold psem. rewrite K.
        change (of_bits (usize w)) with (fun b : Z => b) in *. cbv beta in *. now rewrite B, S. }
      pose proof (wrapping_mul_spec (usize w)) as WM. unfold ptr_rmw. cbv zeta.
      destruct op; cbn [ptr_typed] in T; pose proof (in_bits_range _ _ T) as V; apply G; cbn [rmw_typed spec_rmw ptr_fn]; try exact V;
        try (rewrite WM by exact W; now apply norm_range); intros x X;
        rewrite ?usize_norm, ?WM, ?usize_norm by exact W; try reflexivity.
      + now rewrite Zplus_mod_idemp_r.
      + now rewrite Zminus_mod_idemp_r.
  Qed.

  Lemma fl_code_ok mw ew a o c : kd a = KFloat mw ew -> p_code_of ev g kd a o = Some c -> conf_ok a o c.
  Proof.
    intros K. unfold p_code_of. rewrite K. pose proof (kok a) as KO. rewrite K in KO. destruct KO as (M & E).
    set (w := 1 + mw + ew) in *. assert (W : 0 < w) by (unfold w; lia).
    assert (I : forall x, inr a x <-> 0 <= x < 2 ^ w) by (intros x; unfold LoopProofs.inr; cbv beta; rewrite K; reflexivity).
    assert (IB : forall v, in_bits w v = true -> 0 <= v < 2 ^ w) by (intros v; unfold in_bits; lia).
    assert (SM : forall oo x z, psem kd arith a oo (kval (kd a) x) z <-> psem kd arith a oo x z) by (intros; rewrite K; reflexivity).
    assert (G : forall oo r, rmw_typed (fl_ity mw ew) r -> (forall x, 0 <= x < 2 ^ w -> sem a oo x (spec_rmw (fl_ity mw ew) r x, PVal x)) ->
                conf_ok a oo (FAccess a (b_rmw (fl_ity mw ew) r) (fun o => PVal (fst o)))).
    { intros oo r RT S. split; [reflexivity|]. intros sp x X. apply I in X.
      destruct (b_rmw_next (fl_ity mw ew) r x sp W RT X) as [-> B]. cbn [fst snd].
      split; [apply I; apply (to_bits_range (fl_ity mw ew)); exact W|]. rewrite K. cbn [kval].
      change (of_bits (fl_ity mw ew)) with (fun b : Z => b) in *. cbv beta in *. rewrite B. now apply S. }
    destruct (neg_mask mw ew M E) as [NM AM].
    assert (TM : 2 ^ w = 2 * 2 ^ (mw + ew)) by (unfold w; rewrite <- Z.add_assoc, Z.pow_add_r by lia; reflexivity).
    pose proof (pow2_pos (mw + ew)) as P0.
    destruct o; try discriminate; intros H;
      repeat match type of H with context [load_ord ?o] => destruct (load_ord o); [|discriminate] end;
      repeat match type of H with context [store_ord ?o] => destruct (store_ord o); [|discriminate] end;
      cbn [andb] in H.
    - injection H as <-. split; [reflexivity|]. intros sp x X. cbn. rewrite K. cbn [kval]. unfold psem. now rewrite K.
    - destruct (in_bits w v) eqn:T; [|discriminate]. injection H as <-. apply IB in T. split; [reflexivity|]. intros sp x X. cbn [b_store fst snd].
      replace (to_bits (fl_ity mw ew) v) with v by (symmetry; apply Z.mod_small; exact T).
      split; [now apply I|]. rewrite K. cbn [kval]. unfold psem. now rewrite K.
    - destruct (in_bits w v) eqn:T; [|discriminate]. injection H as <-. apply G.
      + cbn. apply in_bits_range in T. exact T.
      + intros x X. unfold psem. now rewrite K.
    - destruct (in_bits w current) eqn:T1; [|discriminate]. destruct (in_bits w new) eqn:T2; [|discriminate]. injection H as <-.
      apply IB in T1, T2. split; [reflexivity|]. intros sp x X. unfold b_cas. cbn [andb negb]. rewrite andb_true_r.
      replace (to_bits (fl_ity mw ew) current) with current by (symmetry; apply Z.mod_small; exact T1).
      replace (to_bits (fl_ity mw ew) new) with new by (symmetry; apply Z.mod_small; exact T2).
      destruct (x =? current) eqn:EC; cbn [fst snd]; [split; [now apply I|]|]; rewrite K; cbn [kval]; unfold psem; now rewrite K, EC.
    - destruct (in_bits w current) eqn:T1; [|discriminate]. destruct (in_bits w new) eqn:T2; [|discriminate]. injection H as <-.
      apply IB in T1, T2. split; [reflexivity|]. intros sp x X. unfold b_cas. cbn [andb].
      replace (to_bits (fl_ity mw ew) current) with current by (symmetry; apply Z.mod_small; exact T1).
      replace (to_bits (fl_ity mw ew) new) with new by (symmetry; apply Z.mod_small; exact T2).
      destruct (x =? current) eqn:EC; cbn [andb]; [destruct sp|]; cbn [negb fst snd]; [|split; [now apply I|]|];
        rewrite K; cbn [kval]; unfold psem; rewrite K, EC; auto.
    - injection H as <-. apply G.
      + rewrite NM. cbn. unfold in_range. change (imin (fl_ity mw ew)) with 0. change (imax (fl_ity mw ew)) with (2 ^ w - 1). lia.
      + intros x X. unfold psem. rewrite K. cbn [spec_rmw]. rewrite NM. unfold fl_sign, fl_rest. rewrite lxor_top; [reflexivity|lia|].
        unfold w in X. now rewrite <- Z.add_assoc in X.
    - injection H as <-. apply G.
      + rewrite AM. cbn. unfold in_range. change (imin (fl_ity mw ew)) with 0. change (imax (fl_ity mw ew)) with (2 ^ w - 1). lia.
      + intros x X. unfold psem. rewrite K. cbn [spec_rmw]. rewrite AM. unfold fl_rest. rewrite land_low by lia. reflexivity.
    - destruct (fop_typed w op) eqn:T; [|discriminate]. injection H as <-. unfold fl_rmw. fold w.
      destruct (lsfe g && (w <=? 64)).
      + split; [reflexivity|]. intros sp x X. apply I in X. cbn [fst snd].
        assert (TL : fop_typed w (lsfe_op (fl_ity mw ew) op) = true).
        { destruct op; cbn [lsfe_op fop_typed] in *; auto. unfold negated. rewrite NM. unfold bit_xor.
          change (of_bits (fl_ity mw ew)) with (fun b : Z => b). cbv beta. apply IB in T. unfold to_bits. cbn [fl_ity ibits]. fold w.
          rewrite !Z.mod_small by lia. rewrite lxor_top; [|lia|unfold w in T; now rewrite <- Z.add_assoc in T].
          unfold in_bits. pose proof (Z.mod_pos_bound v (2 ^ (mw + ew)) ltac:(lia)).
          assert (0 <= v / 2 ^ (mw + ew)) by (apply Z.div_pos; lia).
          assert (v / 2 ^ (mw + ew) < 2) by (apply Z.div_lt_upper_bound; lia). nia. }
        destruct (ev_ok a mw ew (lsfe_op (fl_ity mw ew) op) [] x K TL X) as [A R].
        split; [now apply I|]. rewrite K. cbn [kval]. unfold psem. rewrite K. eexists. split; [|reflexivity].
        destruct op; cbn [lsfe_op] in *; try exact A. apply (sub_ok a mw ew); auto.
      + split; [reflexivity|]. split; [now rewrite K|]. split; [auto|]. split.
        * intros hist x y X Q. injection Q as <-. apply I in X. destruct (ev_ok a mw ew op hist x K T X) as [A R].
          split; [now apply I|]. rewrite K. cbn [kval]. unfold psem. rewrite K. eauto.
        * discriminate.
    - injection H as <-. split; [reflexivity|]. split; [now rewrite K|]. split; [auto|]. split.
      + intros hist x y X Q. destruct (f hist x) as [z|] eqn:EF; [|discriminate]. injection Q as <-.
        split; [apply I; apply Z.mod_pos_bound; lia|]. rewrite K. cbn [kval]. unfold psem. rewrite K. exists hist. now rewrite EF.
      + intros hist x X Q. destruct (f hist x) as [z|] eqn:EF; [discriminate|]. rewrite K. cbn [kval]. unfold psem. rewrite K. exists hist. now rewrite EF.
  Qed.

  Lemma p_code_ok a o c : p_code_of ev g kd a o = Some c -> conf_ok a o c.
  Proof.
    destruct (kd a) as [t| |w size|mw ew] eqn:K.
    - now apply (int_code_ok t).
    - now apply bool_code_ok.
    - now apply (ptr_code_ok w size).
    - now apply (fl_code_ok mw ew).
  Qed.
End P.
