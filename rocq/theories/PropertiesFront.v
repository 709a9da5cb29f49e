(** * Properties C18, C19, C22, C23, C24, C25, C26: AtomicBool, bit operations, AtomicPtr, floats

    One machine runs any number of threads calling any of these operations, mixed with plain loads, stores,
    read-modify-writes and compare_exchange, on any variables.  [kd] says what lives at each address; [psem]
    (FrontSpec.v) says what each operation does; [ieee] (FloatSpec.v) what float arithmetic is. *)
From Coq Require Import ZArith List Bool Lia Floats.SpecFloat.
From Verif Require Import Words Spec WordsFacts FrontSpec FloatSpec LoopModel AsmModel FrontModel FrontMain FloatProofs PtrModel.
From Verif Require PtrProofs.
Import ListNotations.
Open Scope Z_scope.

(** ** Every history is one of atomic variables *)
Theorem C18_bool_atomic : forall g kd ev m ls s h, (forall a, kind_ok (kd a)) -> float_unit kd ev -> pmem_ok kd m ->
  asm_run fnext (p_code_of ev g kd) (asm_init m) ls = Some (s, h) -> atomic_history_p kd (ieee kd) m h (amem s).
Proof. intros g kd ev m ls s h K U M H. exact (proj1 (front_atomic g kd ev K U m ls s h M H)). Qed.
(** The byte of an AtomicBool is 0 or 1 in every reachable state. *)
Theorem C18_bool_byte : forall g kd ev m ls s h a, (forall a, kind_ok (kd a)) -> float_unit kd ev -> pmem_ok kd m ->
  asm_run fnext (p_code_of ev g kd) (asm_init m) ls = Some (s, h) -> kd a = KBool -> amem s a = 0 \/ amem s a = 1.
Proof.
  intros g kd ev m ls s h a K U M H B. pose proof (proj2 (front_atomic g kd ev K U m ls s h M H) a) as R.
  rewrite B in R. cbn in R. lia.
Qed.
(** Every boolean call that does not panic runs; so do the following ones for the other types. *)
Theorem C18_bool_total : forall g kd ev a, kd a = KBool ->
  (forall op o, exists c, p_code_of ev g kd a (BoolRmw op o) = Some c) /\
  (forall o, ~ load_panics o -> exists c, p_code_of ev g kd a (BoolLoad o) = Some c) /\
  (forall b o, ~ store_panics o -> exists c, p_code_of ev g kd a (BoolStore b o) = Some c) /\
  (forall c n s f, ~ cas_panics s f -> (exists x, p_code_of ev g kd a (BoolCas c n s f) = Some x) /\
                                        (exists x, p_code_of ev g kd a (BoolCasWeak c n s f) = Some x)) /\
  (forall f s o, ~ load_panics o -> exists c, p_code_of ev g kd a (BoolUpdate f s o) = Some c).
Proof.
  intros g kd ev a K. unfold p_code_of, load_panics, store_panics, cas_panics. rewrite K.
  split; [eauto|]. split; [|split; [|split]]; intros.
  - destruct o; cbn; eauto; exfalso; auto.
  - destruct o; cbn; eauto; exfalso; auto.
  - destruct f; cbn; eauto; exfalso; auto.
  - destruct o; cbn; eauto; exfalso; auto.
Qed.
(** No operation ever gets stuck. *)
Theorem C18_never_stuck : forall g kd ev m ls s h t c, (forall a, kind_ok (kd a)) -> float_unit kd ev -> pmem_ok kd m ->
  asm_run fnext (p_code_of ev g kd) (asm_init m) ls = Some (s, h) -> athr s t = Some c ->
  forall sp, exists s' e, asm_step fnext (p_code_of ev g kd) s (mk_label t None sp) = Some (s', e).
Proof. intros g kd ev m ls s h t c K U M. exact (front_never_stuck g kd ev K U m ls s h t c M). Qed.

(** ** C19: the same on targets where swap and compare_exchange are made of and/or/xor of the word *)
Theorem C19_word_bool_atomic : forall bt lsfe kd ev m ls s h, (forall a, kind_ok (kd a)) -> float_unit kd ev -> pmem_ok kd m ->
  asm_run fnext (p_code_of ev (mk_cfg true bt lsfe) kd) (asm_init m) ls = Some (s, h) ->
  atomic_history_p kd (ieee kd) m h (amem s).
Proof. intros bt lsfe. exact (C18_bool_atomic (mk_cfg true bt lsfe)). Qed.
(** In that history, a compare_exchange returns Ok iff the old value was the expected one, stores the new
    one in that case and nothing otherwise. *)
Theorem C19_cas_meaning : forall kd arith a c n s f x y r, kd a = KBool -> psem kd arith a (BoolCas c n s f) x (y, r) ->
  exists old, x = Z.b2z old /\ ((old = c /\ r = POkB old /\ y = Z.b2z n) \/ (old <> c /\ r = PErrB old /\ y = x)).
Proof.
  intros kd arith a c n s f x y r K H. unfold psem in H. rewrite K in H. destruct H as (old & -> & E). exists old. split; [reflexivity|].
  destruct old, c; cbn in E; injection E as -> ->; (left + right); repeat split; congruence.
Qed.
(** On those targets the byte compare-and-swap is never used. *)
Theorem C19_word_bool_no_cas : forall kd ev bt lsfe a c n s f x, kd a = KBool ->
  p_code_of ev (mk_cfg true bt lsfe) kd a (BoolCas c n s f) = Some x \/ p_code_of ev (mk_cfg true bt lsfe) kd a (BoolCasWeak c n s f) = Some x ->
  exists r k, x = FAccess a (b_rmw u8 r) k /\ (r = Or 0 \/ r = Or 1 \/ r = And 0).
Proof.
  intros kd ev bt lsfe a c n s f x K [H|H]; unfold p_code_of in H; rewrite K in H; destruct (load_ord f); try discriminate;
    injection H as <-; destruct c, n; eexists _, _; (split; [reflexivity|]); auto.
Qed.

(** ** C22: negation and absolute value *)
Theorem C22_neg_abs_atomic : forall g kd ev m ls s h, (forall a, kind_ok (kd a)) -> float_unit kd ev -> pmem_ok kd m ->
  asm_run fnext (p_code_of ev g kd) (asm_init m) ls = Some (s, h) -> atomic_history_p kd (ieee kd) m h (amem s).
Proof. exact C18_bool_atomic. Qed.
(** The stored value is the IEEE negation, only the sign bit differs (so NaN payloads stay), and the
    previous bits are returned. *)
Theorem C22_neg_meaning : forall kd mw ew a o x y r, kind_ok (kd a) -> kd a = KFloat mw ew -> 0 <= x < 2 ^ (1 + mw + ew) ->
  psem kd (ieee kd) a (FlNeg o) x (y, r) ->
  r = PVal x /\ decode mw ew y = SFopp (decode mw ew x) /\ fsign mw ew y = negb (fsign mw ew x) /\
  fexpo mw ew y = fexpo mw ew x /\ fmant mw y = fmant mw x.
Proof.
  intros kd mw ew a o x y r KO K X H. rewrite K in KO. destruct KO as [M E]. unfold psem in H. rewrite K in H. apply pair_equal_spec in H as [-> ->].
  split; [reflexivity|]. split; [now apply decode_neg|].
  destruct (split_top mw ew M E x X) as (_ & _ & _ & R & S & Q).
  assert (S' : 1 - x / 2 ^ (mw + ew) = 0 \/ 1 - x / 2 ^ (mw + ew) = 1) by lia.
  destruct (fields mw ew M E _ _ S' R) as (F1 & F2 & F3). destruct (fields mw ew M E _ _ S R) as (G1 & G2 & G3).
  unfold fl_sign, fl_rest. rewrite F1, F2, F3.
  rewrite (Z.mul_comm (x / 2 ^ (mw + ew))) in G1, G2, G3. rewrite <- Q in G1, G2, G3. rewrite G1, G2, G3.
  split; [destruct S as [-> | ->]; reflexivity|]. split; reflexivity.
Qed.
Theorem C22_abs_meaning : forall kd mw ew a o x y r, kind_ok (kd a) -> kd a = KFloat mw ew -> 0 <= x < 2 ^ (1 + mw + ew) ->
  psem kd (ieee kd) a (FlAbs o) x (y, r) ->
  r = PVal x /\ decode mw ew y = SFabs (decode mw ew x) /\ fsign mw ew y = false /\
  fexpo mw ew y = fexpo mw ew x /\ fmant mw y = fmant mw x.
Proof.
  intros kd mw ew a o x y r KO K X H. rewrite K in KO. destruct KO as [M E]. unfold psem in H. rewrite K in H. apply pair_equal_spec in H as [-> ->].
  split; [reflexivity|]. split; [now apply decode_abs|].
  destruct (split_top mw ew M E x X) as (_ & _ & _ & R & S & Q).
  destruct (fields mw ew M E 0 (x mod 2 ^ (mw + ew)) ltac:(auto) R) as (F1 & F2 & F3).
  destruct (fields mw ew M E _ _ S R) as (G1 & G2 & G3).
  rewrite (Z.mul_comm (x / 2 ^ (mw + ew))) in G1, G2, G3. rewrite <- Q in G1, G2, G3. rewrite Z.mul_0_l, Z.add_0_l in F1, F2, F3.
  unfold fl_rest. rewrite F1, G2, G3. repeat split; reflexivity.
Qed.

(** ** C23 *)
Theorem C23_float_atomic : forall g kd ev m ls s h, (forall a, kind_ok (kd a)) -> float_unit kd ev -> pmem_ok kd m ->
  asm_run fnext (p_code_of ev g kd) (asm_init m) ls = Some (s, h) -> atomic_history_p kd (ieee kd) m h (amem s).
Proof. exact C18_bool_atomic. Qed.
Theorem C23_float_total : forall g kd ev mw ew a, kd a = KFloat mw ew ->
  (forall op o, (match op with FAdd v | FSub v | FMax v | FMin v => 0 <= v < 2 ^ (1 + mw + ew) end) ->
     exists c, p_code_of ev g kd a (FlRmw op o) = Some c) /\
  (forall o, (exists c, p_code_of ev g kd a (FlNeg o) = Some c) /\ (exists c, p_code_of ev g kd a (FlAbs o) = Some c)) /\
  (forall c n s f, ~ cas_panics s f -> 0 <= c < 2 ^ (1 + mw + ew) -> 0 <= n < 2 ^ (1 + mw + ew) ->
     exists x, p_code_of ev g kd a (FlCas c n s f) = Some x).
Proof.
  intros g kd ev mw ew a K. unfold p_code_of, cas_panics. rewrite K. split; [|split]; intros.
  - assert (T : fop_typed (1 + mw + ew) op = true).
    { destruct op; cbn [fop_typed]; unfold in_bits; apply andb_true_intro; split; [apply Z.leb_le|apply Z.ltb_lt|apply Z.leb_le|apply Z.ltb_lt|apply Z.leb_le|apply Z.ltb_lt|apply Z.leb_le|apply Z.ltb_lt]; lia. }
    rewrite T. eauto.
  - eauto.
  - assert (T : forall v, 0 <= v < 2 ^ (1 + mw + ew) -> in_bits (1 + mw + ew) v = true).
    { intros v V. unfold in_bits. apply andb_true_intro; split; [apply Z.leb_le|apply Z.ltb_lt]; lia. }
    rewrite (T c), (T n) by assumption. destruct f; cbn; eauto; exfalso; auto.
Qed.
(** compare_exchange compares bit patterns: it can succeed on a NaN and tells -0 from +0. *)
Theorem C23_cas_bits : forall kd arith a mw ew c n s f x y r, kd a = KFloat mw ew -> psem kd arith a (FlCas c n s f) x (y, r) ->
  (x = c /\ y = n /\ r = POk x) \/ (x <> c /\ y = x /\ r = PErr x).
Proof.
  intros kd arith a mw ew c n s f x y r K H. unfold psem in H. rewrite K in H.
  destruct (Z.eqb_spec x c); injection H as -> ->; auto.
Qed.

(** ** C24 *)
Theorem C24_bits_atomic : forall g kd ev m ls s h, (forall a, kind_ok (kd a)) -> float_unit kd ev -> pmem_ok kd m ->
  asm_run fnext (p_code_of ev g kd) (asm_init m) ls = Some (s, h) -> atomic_history_p kd (ieee kd) m h (amem s).
Proof. exact C18_bool_atomic. Qed.
(** [bit_changed] leaves no choice for the new value. *)
Theorem C24_bits_determined : forall t k bit x y y', 0 < ibits t -> in_range t y -> in_range t y' ->
  bit_changed (ibits t) k bit x y -> bit_changed (ibits t) k bit x y' -> y = y'.
Proof.
  intros t k bit x y y' W R R' B B'. apply (to_bits_inj t); auto. unfold to_bits. apply Z.bits_inj'. intros n N.
  rewrite !mod_pow2_testbit by lia. destruct (Z.ltb_spec n (ibits t)); [|reflexivity]. cbn [andb]. rewrite B, B' by lia. reflexivity.
Qed.
Theorem C24_bits_total : forall g kd ev a k bit o, (exists t, kd a = KInt t) \/ (exists w s, kd a = KPtr w s) -> 0 <= bit < 2 ^ 32 ->
  exists c, p_code_of ev g kd a (BitOp k bit o) = Some c.
Proof.
  intros g kd ev a k bit o K B. assert (T : (0 <=? bit) && (bit <? 2 ^ 32) = true) by (apply andb_true_intro; split; [apply Z.leb_le|apply Z.ltb_lt]; lia).
  unfold p_code_of. destruct K as [(t & ->)|(w & s & ->)]; rewrite T; eauto.
Qed.

(** ** C25 *)
Theorem C25_ptr_atomic : forall g kd ev m ls s h, (forall a, kind_ok (kd a)) -> float_unit kd ev -> pmem_ok kd m ->
  asm_run fnext (p_code_of ev g kd) (asm_init m) ls = Some (s, h) -> atomic_history_p kd (ieee kd) m h (amem s).
Proof. exact C18_bool_atomic. Qed.
(** Where the operation is done on pointers (Miri, single-core targets), the stored pointer keeps the
    provenance of the previous one and has the right address, with core's with_addr and the polyfill. *)
Theorem C25_provenance : forall w size polyfill o p, 0 < w -> 0 <= size -> 0 <= addr p < 2 ^ w ->
  match o with PtrAdd v | PtrSub v | ByteAdd v | ByteSub v | PtrOr v | PtrAnd v | PtrXor v => 0 <= v < 2 ^ w end ->
  prov (next_ptr w size polyfill o p) = prov p /\ addr (next_ptr w size polyfill o p) = ptr_fn w size o (addr p).
Proof. intros w size polyfill o p W S A V. destruct (PtrProofs.next_ptr_ok w size polyfill o p W S A V) as [-> _]. split; reflexivity. Qed.
Example C25_provenance_case : next_ptr 64 8 true (PtrSub 3) (mk_ptr 7 16) = mk_ptr 7 (2 ^ 64 - 8).
Proof. reflexivity. Qed.

(** ** C26: operations without a result *)
Theorem C26_no_fetch_atomic : forall g kd ev m ls s h, (forall a, kind_ok (kd a)) -> float_unit kd ev -> pmem_ok kd m ->
  asm_run fnext (p_code_of ev g kd) (asm_init m) ls = Some (s, h) -> atomic_history_p kd (ieee kd) m h (amem s).
Proof. exact C18_bool_atomic. Qed.
Theorem C26_no_fetch_same : forall kd arith a t r o x y r' z, kd a = KInt t -> psem kd arith a (NoFetch r o) x (y, r') ->
  psem kd arith a (Plain (ORmw r o)) x (z, PPlain (RVal x)) -> r' = PUnit /\ y = z.
Proof.
  intros kd arith a t r o x y r' z K H G. unfold psem in *. rewrite K in *. injection H as -> ->. cbn in G. injection G as ->. auto.
Qed.

(** ** Progress *)
Theorem C13_front_lock_free : forall g kd ev T m ls s h, (forall a, kind_ok (kd a)) -> float_unit kd ev -> NoDup T -> pmem_ok kd m ->
  asm_run fnext (p_code_of ev g kd) (asm_init m) ls = Some (s, h) ->
  exists n, forall ts s' h', Forall (fun t => In t T) ts -> (n <= length ts)%nat ->
    asm_run fnext (p_code_of ev g kd) s (map (fun t => mk_label t None false) ts) = Some (s', h') -> h' <> [].
Proof. intros g kd ev T m ls s h K U. exact (front_lock_free g kd ev K U T m ls s h). Qed.
Theorem C13_front_solo : forall g kd ev m ls s h t c, (forall a, kind_ok (kd a)) -> float_unit kd ev -> pmem_ok kd m ->
  asm_run fnext (p_code_of ev g kd) (asm_init m) ls = Some (s, h) -> athr s t = Some c ->
  exists j s' r, asm_run fnext (p_code_of ev g kd) s (repeat (mk_label t None false) j) = Some (s', [Return t r]).
Proof. intros g kd ev m ls s h t c K U. exact (front_solo g kd ev K U m ls s h t c). Qed.

(** ** The hypotheses are met *)
Definition kd0 (a : Z) : kind :=
  if a =? 0 then KBool else if a =? 8 then KInt i32 else if a =? 16 then KPtr 64 8 else KFloat 23 8.
Example kinds_ok : forall a, kind_ok (kd0 a).
Proof.
  intros a. unfold kd0. repeat match goal with |- context [if ?b then _ else _] => destruct b end; cbn; try exact I; try lia.
  - exists 5. lia.
  - split; [exists 6; lia|lia].
Qed.
Definition tick t : label pop := mk_label t None false.
Definition call t a o : label pop := mk_label t (Some (a, o)) false.
(** Two threads; thread 0's fetch_update of a bool is overtaken between its load and its compare_exchange. *)
Definition ex_ls : list (label pop) :=
  [call 0 0 (BoolUpdate (fun hist b => if (length hist <? 1)%nat then Some (negb b) else None) SeqCst Acquire); tick 0;
   call 1 0 (BoolCas false true SeqCst Relaxed); tick 1; tick 1; tick 0; tick 0;
   call 1 8 (BitOp BToggle 63 SeqCst); tick 1; tick 1;
   call 1 16 (PtrRmw (PtrSub 2) AcqRel); tick 1; tick 1;
   call 1 24 (FlNeg Relaxed); tick 1; tick 1]%nat.
Example front_run : forall word, match asm_run fnext (p_code_of (fun _ _ _ x => x) (mk_cfg word true false) kd0)
    (asm_init (fun a => if a =? 16 then 8 else 0)) ex_ls with
  | Some (s, h) => h = [Call 0 0 (BoolUpdate (fun hist b => if (length hist <? 1)%nat then Some (negb b) else None) SeqCst Acquire);
        Call 1 0 (BoolCas false true SeqCst Relaxed); Return 1 (POkB false); Return 0 (PErrB true);
        Call 1 8 (BitOp BToggle 63 SeqCst); Return 1 (PBool false);
        Call 1 16 (PtrRmw (PtrSub 2) AcqRel); Return 1 (PVal 8); Call 1 24 (FlNeg Relaxed); Return 1 (PVal 0)]%nat /\
      amem s 0 = 1 /\ amem s 8 = 2 ^ 31 /\ amem s 16 = 2 ^ 64 - 8 /\ amem s 24 = 2 ^ 31
  | None => False end.
Proof. intros []; vm_compute; repeat split; reflexivity. Qed.

Print Assumptions C18_bool_atomic.
Print Assumptions C18_bool_byte.
Print Assumptions C18_bool_total.
Print Assumptions C18_never_stuck.
Print Assumptions C19_word_bool_atomic.
Print Assumptions C19_cas_meaning.
Print Assumptions C19_word_bool_no_cas.
Print Assumptions C22_neg_meaning.
Print Assumptions C22_abs_meaning.
Print Assumptions C23_float_total.
Print Assumptions C23_cas_bits.
Print Assumptions C24_bits_determined.
Print Assumptions C24_bits_total.
Print Assumptions C25_provenance.
Print Assumptions C26_no_fetch_same.
Print Assumptions C13_front_lock_free.
Print Assumptions C13_front_solo.
