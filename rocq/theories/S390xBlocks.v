(** The s390x blocks refine the abstract loops. *)
From Coq Require Import ZArith List Bool Lia ZifyBool PeanoNat.
From Verif Require Import Words Spec WideSpec WordsFacts Halves LoopModel LoopProofs AsmModel AsmProofs
  BlockModel BlockProofs AtomicImpls AtomicImplsProofs AsmMain S390xModel S390xProofs.
Import ListNotations.
Open Scope Z_scope.

Section S390x.
  Variables (g : target) (pm : Z) (ty : Z -> ity) (junk : Z -> wop -> st).
  Hypothesis pm_ok : 0 <= pm < 16.
  Hypothesis cc_ok : cc_reg g <> R0 /\ cc_reg g <> R1.
  Local Notation nx := (bnext (exec1 pm) test access).
  Local Notation width := (fun a => ibits (ty a)).

  Section One.
    Variables (a : Z) (o : wop).
    Let t := ty a.
    Hypothesis W : ibits t = 128.
    Lemma inr_u128 x : LoopProofs.inr width a x <-> is_u128 x.
    Proof. unfold LoopProofs.inr, is_u128. fold t. now rewrite W. Qed.
    Lemma wide_t : wide t.
    Proof. exact W. Qed.

    (** registers other than r0, r1, r12, r13 and the temporary *)
    Definition same (s s' : st) : Prop :=
      forall r, r <> R0 -> r <> R1 -> r <> R12 -> r <> R13 -> r <> Tmp -> rg s' r = rg s r.

    Section Loop.
      Variables (p : list instr) (nh nl : reg) (s0 : st) (nxt : Z -> Z).
      Hypothesis Ha : rg s0 Dst = a.
      Variable F : st -> Prop.      (* what the body needs besides r0:r1 *)
      Hypothesis F0 : F s0.
      Hypothesis FR : forall s s', F s -> (forall r, r <> R0 -> r <> R1 -> rg s' r = rg s r) -> F s'.
      Hypothesis Hbody : forall s x, F s -> is_u128 x -> rg s R1 = lo64 x -> rg s R0 = hi64 x ->
        let s' := bexec (exec1 pm) p s in
        F s' /\ join64 (rg s' nl) (rg s' nh) = nxt x /\ rg s' R1 = lo64 x /\ rg s' R0 = hi64 x /\ rg s' Dst = rg s Dst.
      Hypothesis Hnxt : forall x, is_u128 x -> is_u128 (nxt x).
      Let P := loop_block p nh nl.
      Let rt := fun s => RVal (prev t s).
      Lemma loop_refines :
        refines (Op := wop) nx width a o (mk_bconf P 0 s0 rt)
          (CasLoop 64 [0%nat; 1%nat] false (fun _ x => Some (nxt x)) (fin_val t) (fin_val t)).
      Proof.
        assert (PE : P = [BM (LG R1 8 Dst); BM (LG R0 0 Dst)] ++ map BI p ++ [BM (CDSG R0 R1 nh nl Dst); BJ JL 2]) by reflexivity.
        apply (casloop_refines nx width a o _ 64 [0%nat; 1%nat] ltac:(lia) nxt (fin_val t)
          (fun n acc c => exists s, F s /\ rg s Dst = a /\ c = mk_bconf P n s rt /\
             ((n = 0%nat /\ acc = 0) \/ (n = 1%nat /\ is_u64 acc /\ rg s R1 = acc)))
          (fun x c => exists s, F s /\ rg s Dst = a /\ is_u128 x /\
             c = mk_bconf P (2 + length p) s rt /\ join64 (rg s nl) (rg s nh) = nxt x /\
             rg s R1 = lo64 x /\ rg s R0 = hi64 x)).
        - exists (mk_bconf P 0 s0 rt). split; [constructor|]. exists s0. auto 6.
        - intros n acc c (s & Fs & As & -> & [[-> ->]|(-> & Ua & E)]).
          + exists 0%nat. eexists. split; [reflexivity|]. split.
            { unfold bnext. cbn [bprog bpos bst bret P loop_block app nth_error access Z.eqb]. unfold addr. rewrite As. reflexivity. }
            intros v Hv. cbn [length Nat.eqb]. eexists. split; [constructor|].
            eexists. split; [|split; [|split; [reflexivity|]]].
            * apply FR with s; auto. intros r N0 N1. cbn. unfold setr. destruct r; try congruence; reflexivity.
            * exact As.
            * right. cbn. split; [reflexivity|]. rewrite Z.mul_1_r. split; [exact Hv|reflexivity].
          + exists 1%nat. eexists. split; [reflexivity|]. split.
            { unfold bnext. cbn [bprog bpos bst bret P loop_block app nth_error access Z.eqb]. unfold addr. rewrite As. reflexivity. }
            intros v Hv. cbn [length Nat.eqb Nat.add].
            replace (acc + v * 2 ^ (64 * Z.of_nat 1)) with (join64 acc v)
              by (unfold join64; rewrite B64_eq; change (2 ^ (64 * Z.of_nat 1)) with 18446744073709551616; lia).
            pose proof (join_range acc v Ua Hv) as Uj.
            set (s2 := set1 s R0 v).
            assert (F2 : F s2).
            { apply FR with s; auto. intros r N0 N1. cbn. unfold setr. destruct r; try congruence; reflexivity. }
            assert (E1 : rg s2 R1 = lo64 (join64 acc v)) by (rewrite lo_join by assumption; exact E).
            assert (E0 : rg s2 R0 = hi64 (join64 acc v)) by (rewrite hi_join by assumption; reflexivity).
            destruct (Hbody s2 _ F2 Uj E1 E0) as (F3 & J & L1 & L0 & D).
            exists (mk_bconf P (2 + length p) (bexec (exec1 pm) p s2) rt). split.
            { unfold bgoto. cbn [bprog bret bpos]. rewrite PE. exact (run_body (exec1 pm) test access [BM (LG R1 8 Dst); BM (LG R0 0 Dst)] p [BM (CDSG R0 R1 nh nl Dst); BJ JL 2] s2 rt 2 (2 + length p) eq_refl eq_refl). }
            exists (bexec (exec1 pm) p s2). split; [exact F3|]. split; [rewrite D; exact As|].
            split; [exact Uj|]. auto.
        - intros x c (s & Fs & As & Ux & -> & J & E1 & E0).
          assert (N0 : nth_error P (2 + length p) = Some (BM (CDSG R0 R1 nh nl Dst))).
          { rewrite PE, <- (Nat.add_0_r (2 + length p)). exact (nth_pre [BM (LG R1 8 Dst); BM (LG R0 0 Dst)] p _ (2 + length p) 0 eq_refl). }
          assert (N1 : nth_error P (1 + (2 + length p)) = Some (BJ JL 2)).
          { rewrite PE, Nat.add_comm. exact (nth_pre [BM (LG R1 8 Dst); BM (LG R0 0 Dst)] p _ (2 + length p) 1 eq_refl). }
          assert (N2 : nth_error P (2 + (2 + length p)) = None).
          { rewrite PE, Nat.add_comm. exact (nth_pre [BM (LG R1 8 Dst); BM (LG R0 0 Dst)] p _ (2 + length p) 2 eq_refl). }
          eexists. eexists. split.
          { unfold bnext. cbn [bprog bpos bst bret]. rewrite N0. cbn [access addr]. rewrite As, J, E1, E0, join_lo_hi. reflexivity. }
          intros sp y Hy. apply inr_u128 in Hy. cbv beta. destruct (Z.eqb_spec y x) as [->|Nx]; cbn [fst snd].
          + left. split; auto. split; auto. split; [now apply inr_u128, Hnxt|].
            unfold bgoto. cbn [bprog bret bpos].
            eexists. split.
            { eapply ls_step; [unfold bnext; cbn [bprog bpos bst bret]; rewrite N1; cbn [test]; unfold holds; cbn [CC Z.eqb]; reflexivity|constructor]. }
            unfold bnext, bgoto. cbn [bprog bpos bst bret]. cbn [Nat.add] in N2 |- *. rewrite N2.
            unfold rt, prev. cbn [rg]. rewrite E1, E0, join_lo_hi. reflexivity.
          + right. split; auto. split; auto. unfold bgoto. cbn [bprog bret bpos].
            set (s2 := mk_st (setr (setr (rg s) R0 (hi64 y)) R1 (lo64 y)) 1).
            assert (F2 : F s2).
            { apply FR with s; auto. intros r M0 M1. cbn. unfold setr. destruct r; try congruence; reflexivity. }
            destruct (Hbody s2 y F2 Hy eq_refl eq_refl) as (F3 & J3 & L1 & L0 & D).
            exists (mk_bconf P (2 + length p) (bexec (exec1 pm) p s2) rt). split.
            { eapply ls_step; [unfold bnext; cbn [bprog bpos bst bret]; rewrite N1; cbn [test]; unfold holds; cbn [CC s2 Z.eqb]; reflexivity|].
              unfold bgoto. cbn [bprog bret bpos]. rewrite PE. exact (run_body (exec1 pm) test access [BM (LG R1 8 Dst); BM (LG R0 0 Dst)] p [BM (CDSG R0 R1 nh nl Dst); BJ JL 2] s2 rt 2 (2 + length p) eq_refl eq_refl). }
            exists (bexec (exec1 pm) p s2). split; [exact F3|]. split; [rewrite D; exact As|]. auto.
      Qed.
    End Loop.

    (** ** compare-and-branch version of max/min *)
    Section Cmp.
      Variables (j1 j2 j3 : reg -> reg -> jump) (vh vl : reg) (s0 : st) (v : Z) (nxt : Z -> Z).
      Hypothesis Hv : (vh = R12 /\ vl = R13) \/ (vh = R4 /\ vl = R5).
      Hypothesis Uv : is_u128 v.
      Hypothesis Ha : rg s0 Dst = a.
      Hypothesis V0 : rg s0 vh = hi64 v /\ rg s0 vl = lo64 v.
      (** the three branches decide between the operand and the old value *)
      Hypothesis Hj : forall s x, is_u128 x -> rg s R1 = lo64 x -> rg s R0 = hi64 x -> rg s vh = hi64 v -> rg s vl = lo64 v ->
        nxt x = if test (j1 vh R0) s then v else if test (j2 vh R0) s then x else if test (j3 vl R1) s then v else x.
      Let P := cmp_block j1 j2 j3 vh vl.
      Let rt := fun s => RVal (prev t s).
      Lemma cmp_refines :
        refines (Op := wop) nx width a o (mk_bconf P 0 s0 rt)
          (CasLoop 64 [0%nat; 1%nat] false (fun _ x => Some (nxt x)) (fin_val t) (fin_val t)).
      Proof.
        set (F := fun s => rg s vh = hi64 v /\ rg s vl = lo64 v /\ rg s Dst = a).
        assert (F0 : F s0) by (unfold F; tauto).
        assert (FR : forall s s', F s -> (forall r, r <> R0 -> r <> R1 -> rg s' r = rg s r) -> F s').
        { unfold F. intros s s' (A & B & D) HH.
          destruct Hv as [[-> ->]|[-> ->]]; rewrite !HH by discriminate; auto. }
        (* the decision *)
        assert (DEC : forall s x, F s -> is_u128 x -> rg s R1 = lo64 x -> rg s R0 = hi64 x ->
          exists n, ((n = 5%nat /\ nxt x = x) \/ (n = 8%nat /\ nxt x = v)) /\ lstar nx (mk_bconf P 2 s rt) (mk_bconf P n s rt)).
        { intros s x (A & B & D) Ux E1 E0. rewrite (Hj s x Ux E1 E0 A B).
          destruct (test (j1 vh R0) s) eqn:T1; [|destruct (test (j2 vh R0) s) eqn:T2; [|destruct (test (j3 vl R1) s) eqn:T3]].
          - exists 8%nat. split; auto. eapply ls_step; [cbn; rewrite T1; reflexivity|]. constructor.
          - exists 5%nat. split; auto. eapply ls_step; [cbn; rewrite T1; reflexivity|]. eapply ls_step; [cbn; rewrite T2; reflexivity|]. constructor.
          - exists 8%nat. split; auto. eapply ls_step; [cbn; rewrite T1; reflexivity|]. eapply ls_step; [cbn; rewrite T2; reflexivity|].
            eapply ls_step; [cbn; rewrite T3; reflexivity|]. constructor.
          - exists 5%nat. split; auto. eapply ls_step; [cbn; rewrite T1; reflexivity|]. eapply ls_step; [cbn; rewrite T2; reflexivity|].
            eapply ls_step; [cbn; rewrite T3; reflexivity|]. constructor. }
        apply (casloop_refines nx width a o _ 64 [0%nat; 1%nat] ltac:(lia) nxt (fin_val t)
          (fun n acc c => exists s, F s /\ c = mk_bconf P n s rt /\
             ((n = 0%nat /\ acc = 0) \/ (n = 1%nat /\ is_u64 acc /\ rg s R1 = acc)))
          (fun x c => exists s n, F s /\ is_u128 x /\ ((n = 5%nat /\ nxt x = x) \/ (n = 8%nat /\ nxt x = v)) /\
             c = mk_bconf P n s rt /\ rg s R1 = lo64 x /\ rg s R0 = hi64 x)).
        - exists (mk_bconf P 0 s0 rt). split; [constructor|]. exists s0. auto 6.
        - intros n acc c (s & Fs & -> & [[-> ->]|(-> & Ua & E)]).
          + exists 0%nat. eexists. split; [reflexivity|]. split.
            { cbn. unfold addr. rewrite (proj2 (proj2 Fs)). reflexivity. }
            intros w Hw. cbn [length Nat.eqb]. eexists. split; [constructor|].
            eexists. split; [|split; [reflexivity|]].
            * apply FR with s; auto. intros r N0 N1. cbn. unfold setr. destruct r; try congruence; reflexivity.
            * right. cbn. split; [reflexivity|]. rewrite Z.mul_1_r. split; [exact Hw|reflexivity].
          + exists 1%nat. eexists. split; [reflexivity|]. split.
            { cbn. unfold addr. rewrite (proj2 (proj2 Fs)). reflexivity. }
            intros w Hw. cbn [length Nat.eqb Nat.add].
            replace (acc + w * 2 ^ (64 * Z.of_nat 1)) with (join64 acc w)
              by (unfold join64; rewrite B64_eq; change (2 ^ (64 * Z.of_nat 1)) with 18446744073709551616; lia).
            pose proof (join_range acc w Ua Hw) as Uj.
            set (s2 := set1 s R0 w).
            assert (F2 : F s2).
            { apply FR with s; auto. intros r N0 N1. cbn. unfold setr. destruct r; try congruence; reflexivity. }
            assert (E1 : rg s2 R1 = lo64 (join64 acc w)) by (rewrite lo_join by assumption; exact E).
            assert (E0 : rg s2 R0 = hi64 (join64 acc w)) by (rewrite hi_join by assumption; reflexivity).
            destruct (DEC s2 _ F2 Uj E1 E0) as (m & Hm & L).
            exists (mk_bconf P m s2 rt). split; [exact L|]. exists s2, m. auto 9.
        - intros x c (s & n & Fs & Ux & Hn & -> & E1 & E0).
          assert (Q : exists nh nl, nth_error P n = Some (BM (CDSG R0 R1 nh nl Dst)) /\ nth_error P (S n) = Some (BJ JL 2) /\
                      join64 (rg s nl) (rg s nh) = nxt x /\
                      (nth_error P (S (S n)) = None \/ (nth_error P (S (S n)) = Some (BJ JMP 10)))).
          { destruct Hn as [[-> ->]|[-> ->]].
            - exists R0, R1. cbn. rewrite E1, E0, join_lo_hi. auto.
            - exists vh, vl. cbn. destruct Fs as (-> & -> & _). rewrite join_lo_hi. auto. }
          destruct Q as (nh & nl & N0 & N1 & J & N2).
          eexists. eexists. split.
          { unfold bnext. cbn [bprog bpos bst bret]. rewrite N0. cbn [access addr]. rewrite (proj2 (proj2 Fs)), J, E1, E0, join_lo_hi. reflexivity. }
          intros sp y Hy. apply inr_u128 in Hy. cbv beta. destruct (Z.eqb_spec y x) as [->|Nx]; cbn [fst snd].
          + left. split; auto. split; auto. split.
            { apply inr_u128. destruct Hn as [[_ ->]|[_ ->]]; assumption. }
            unfold bgoto. cbn [bprog bret bpos]. cbn [Nat.add].
            assert (DONE : reaches nx (mk_bconf P (S (S n)) (mk_st (rg s) 0) rt) (fun c => nx c = ADone (fin_val t x))).
            { assert (RT : rt (mk_st (rg s) 0) = fin_val t x) by (unfold rt, prev, fin_val; cbn [rg]; now rewrite E1, E0, join_lo_hi).
              destruct N2 as [N2|N2].
              - eexists. split; [constructor|]. unfold bnext. cbn [bprog bpos bst bret]. now rewrite N2, RT.
              - exists (mk_bconf P 10 (mk_st (rg s) 0) rt). split.
                + eapply ls_step; [unfold bnext; cbn [bprog bpos bst bret]; rewrite N2; cbn [test]; reflexivity|constructor].
                + cbn. now rewrite RT. }
            destruct DONE as (c2 & L2 & D2). exists c2. split; [|exact D2].
            eapply ls_step; [unfold bnext; cbn [bprog bpos bst bret]; rewrite N1; cbn [test]; unfold holds; cbn [CC Z.eqb]; reflexivity|exact L2].
          + right. split; auto. split; auto. unfold bgoto. cbn [bprog bret bpos]. cbn [Nat.add].
            set (s2 := mk_st (setr (setr (rg s) R0 (hi64 y)) R1 (lo64 y)) 1).
            assert (F2 : F s2).
            { apply FR with s; auto. intros r M0 M1. cbn. unfold setr. destruct r; try congruence; reflexivity. }
            destruct (DEC s2 y F2 Hy eq_refl eq_refl) as (m & Hm & L).
            exists (mk_bconf P m s2 rt). split.
            { eapply ls_step; [unfold bnext; cbn [bprog bpos bst bret]; rewrite N1; cbn [test]; unfold holds; cbn [CC s2 Z.eqb]; reflexivity|exact L]. }
            exists s2, m. auto 9.
      Qed.
    End Cmp.

    Lemma ipm_cc r cc : cc = 0 \/ cc = 1 ->
      extract_cc (r / 2 ^ 32 * 2 ^ 32 + cc * 2 ^ 28 + pm * 2 ^ 24 + r mod 2 ^ 24) = (cc =? 0).
    Proof.
      intros Hc. unfold extract_cc.
      set (z := r / 2 ^ 32 * 2 ^ 32 + cc * 2 ^ 28 + pm * 2 ^ 24 + r mod 2 ^ 24).
      assert (T : Z.land ((z - 268435456) mod B64) (2 ^ 31) = if Z.testbit (z - 268435456) 31 then 2 ^ 31 else 0).
      { apply Z.bits_inj'. intros n Hn. rewrite Z.land_spec.
        destruct (Z.eq_dec n 31) as [->|Nn].
        - unfold B64. rewrite Z.mod_pow2_bits_low by lia. rewrite Z.pow2_bits_true by lia.
          destruct (Z.testbit (z - 268435456) 31); [now rewrite Z.pow2_bits_true|now rewrite Z.bits_0].
        - rewrite Z.pow2_bits_false, andb_false_r by lia.
          destruct (Z.testbit (z - 268435456) 31); [now rewrite Z.pow2_bits_false by lia|now rewrite Z.bits_0]. }
      rewrite T. assert (Q : Z.testbit (z - 268435456) 31 = (cc =? 0)).
      { apply eq_trans with (Z.odd ((z - 268435456) / 2 ^ 31)).
        { rewrite <- Z.bit0_odd, <- Z.shiftr_div_pow2 by lia. rewrite Z.shiftr_spec by lia. f_equal. }
        pose proof (Z.mod_pos_bound r (2 ^ 24) ltac:(lia)) as M.
        assert (D : (z - 268435456) / 2 ^ 31 = 2 * (r / 2 ^ 32) + (if cc =? 0 then -1 else 0)).
        { symmetry. destruct Hc as [->| ->]; cbn [Z.eqb].
          - apply Z.div_unique with (z - 268435456 - 2 ^ 31 * (2 * (r / 2 ^ 32) + -1)); unfold z; lia.
          - apply Z.div_unique with (z - 268435456 - 2 ^ 31 * (2 * (r / 2 ^ 32) + 0)); unfold z; lia. }
        rewrite D. destruct Hc as [->| ->]; cbn [Z.eqb]; rewrite Z.odd_add, Z.odd_mul; reflexivity. }
      rewrite Q. now destruct (cc =? 0).
    Qed.

    Lemma setr_other f r v q : q <> r -> setr f r v q = f q.
    Proof. unfold setr. intros. replace (reg_eqb q r) with false; auto. destruct q, r; try reflexivity; congruence. Qed.
    Lemma setr_same f r v : setr f r v r = v.
    Proof. unfold setr. now destruct r. Qed.

    Lemma load_refines s : rg s Dst = a ->
      refines (Op := wop) nx width a o (mk_bconf [BM (LPQ R0 R1 Dst)] 0 s (fun s => RVal (prev t s))) (d_load t).
    Proof.
      intros Ha. eapply single_refines; [constructor| |].
      - cbn. rewrite Ha. reflexivity.
      - intros sp x Hx. cbn [fst snd]. split; [reflexivity|]. split; [discriminate|].
        eexists. split; [constructor|]. cbn. unfold prev, fin_val. cbn. now rewrite join_lo_hi.
    Qed.
    Lemma store_refines s v ord : rg s Dst = a -> rg s R1 = lo64 (to_bits t v) -> rg s R0 = hi64 (to_bits t v) ->
      refines (Op := wop) nx width a o (mk_bconf (store_block ord) 0 s (fun _ => RUnit)) (d_store t v).
    Proof.
      intros Ha E1 E0. unfold store_block. eapply single_refines; [constructor| |].
      - cbn. rewrite Ha, E1, E0, join_lo_hi. reflexivity.
      - intros sp x Hx. cbn [fst snd]. split; [reflexivity|]. split.
        + intros y E. injection E as <-. apply inr_u128. apply to_bits_u128. exact W.
        + destruct ord; eexists; (split; [first [eapply ls_step; [reflexivity|constructor] | constructor]|]; reflexivity).
    Qed.
    Lemma cas_refines s c n nh nl : rg s Dst = a -> rg s R1 = lo64 (to_bits t c) -> rg s R0 = hi64 (to_bits t c) ->
      rg s nl = lo64 (to_bits t n) -> rg s nh = hi64 (to_bits t n) ->
      refines (Op := wop) nx width a o
        (mk_bconf [BM (CDSG R0 R1 nh nl Dst); BI (IPM (cc_reg g))] 0 s
           (fun s => if extract_cc (rg s (cc_reg g)) then ROk (prev t s) else RErr (prev t s))) (d_cas t c n).
    Proof.
      intros Ha E1 E0 El Eh. eapply single_refines; [constructor| |].
      - cbn. rewrite Ha, E1, E0, El, Eh, !join_lo_hi. reflexivity.
      - intros sp x Hx. apply inr_u128 in Hx. cbv beta. destruct (Z.eqb_spec x (to_bits t c)) as [->|Nx]; cbn [fst snd].
        + split; [reflexivity|]. split.
          * intros y E. injection E as <-. apply inr_u128. apply to_bits_u128. exact W.
          * eexists. split; [eapply ls_step; [reflexivity|constructor]|]. cbn [bnext bprog bpos bst bret bgoto Nat.add nth_error exec1 set1 rg CC].
            rewrite setr_same, ipm_cc by auto. cbn [Z.eqb]. unfold prev, set1. cbn [rg].
            rewrite !setr_other by (intros Q; destruct cc_ok; congruence). now rewrite E1, E0, join_lo_hi.
        + split; [reflexivity|]. split; [discriminate|].
          eexists. split; [eapply ls_step; [reflexivity|constructor]|]. cbn [bnext bprog bpos bst bret bgoto Nat.add nth_error exec1 set1 rg CC].
          rewrite setr_same, ipm_cc by auto. cbn [Z.eqb]. unfold prev, set1. cbn [rg].
          rewrite !(setr_other _ (cc_reg g)) by (intros Q; destruct cc_ok; congruence). cbn [setr reg_eqb]. now rewrite join_lo_hi.
    Qed.
  End One.

  Definition z_impl (a : Z) (o : wop) : option (impl res) :=
    let t := ty a in
    if negb ((ibits t =? 128) && callable t o && (0 <=? a) && (a <? 2 ^ 64)) then None else
    match o with
    | WOp (OLoad _) => Some (d_load t)
    | WOp (OStore v _) => Some (d_store t v)
    | WOp (OCas c n _ _) | WCasWeak c n _ _ => Some (d_cas t c n)
    | WOp (ORmw r _) => Some (c_rmw t 64 [0%nat; 1%nat] false r)
    end.

  Lemma cmp_of_ok t r vh vl v x s : wide t -> (r = Max v \/ r = Min v) -> in_range t v -> is_u128 x ->
    rg s R1 = lo64 x -> rg s R0 = hi64 x -> rg s vh = hi64 (operand t r) -> rg s vl = lo64 (operand t r) ->
    exists j1 j2 j3, cmp_of t r vh vl = cmp_block j1 j2 j3 vh vl /\
      next_bits t r x = if test (j1 vh R0) s then operand t r else if test (j2 vh R0) s then x
                        else if test (j3 vl R1) s then operand t r else x.
  Proof.
    intros W Hr V Ux E1 E0 Vh Vl.
    assert (Uv : is_u128 (to_bits t v)) by now apply to_bits_u128.
    assert (X : in_range t (of_bits t x)) by (apply of_bits_range; [now apply wide_wf|]; unfold is_u128 in Ux; now rewrite W).
    assert (XB : to_bits t (of_bits t x) = x) by (apply to_of_bits; [now apply wide_wf|]; unfold is_u128 in Ux; now rewrite W).
    pose proof (lo64_range x) as L1. pose proof (hi64_range x Ux) as L2.
    pose proof (lo64_range (to_bits t v)) as L3. pose proof (hi64_range _ Uv) as L4.
    pose proof (lt_halves (lo64 (to_bits t v)) (hi64 (to_bits t v)) (lo64 x) (hi64 x) L3 L1) as LT.
    pose proof (slt_halves (lo64 (to_bits t v)) (hi64 (to_bits t v)) (lo64 x) (hi64 x) L3 L1 L4 L2) as SLT.
    rewrite !join_lo_hi in LT, SLT.
    assert (EQ : hi64 (to_bits t v) = hi64 x -> lo64 (to_bits t v) = lo64 x -> to_bits t v = x).
    { intros A B. rewrite <- (join_lo_hi x), <- A, <- B. symmetry. apply join_lo_hi. }
    pose proof (s64_inj (hi64 (to_bits t v)) (hi64 x) L4 L2) as SI.
    assert (SI' : hi64 (to_bits t v) = hi64 x -> s64 (hi64 (to_bits t v)) = s64 (hi64 x)) by congruence.
    unfold next_bits, cmp_of.
    destruct Hr as [->| ->]; cbn [operand] in *; [rewrite bits_max by assumption|rewrite bits_min by assumption];
      rewrite XB; unfold lt_bits; destruct (isigned t); eexists; eexists; eexists; (split; [reflexivity|]);
      cbn [test]; unfold cmp_is; rewrite E1, E0, Vh, Vl.
    all: clear E1 E0 Vh Vl XB X.
    all: set (v1 := hi64 (to_bits t v)) in *; set (v0 := lo64 (to_bits t v)) in *; set (x1 := hi64 x) in *; set (x0 := lo64 x) in *.
    all: clearbody v1 v0 x1 x0; clear V Ux Uv L1 L2 L3 L4.
    all: repeat match goal with |- context [if ?b then _ else _] => destruct b eqn:? end; try reflexivity.
    all: first [exfalso; lia | apply EQ; lia | symmetry; apply EQ; lia | idtac].
  Qed.

  Theorem z_refines a o c : code_of g ty junk a o = Some c -> exists i, z_impl a o = Some i /\
    refines nx width a o c i.
  Proof.
    unfold code_of, z_impl. set (t := ty a).
    destruct ((ibits t =? 128) && callable t o && (0 <=? a) && (a <? 2 ^ 64)) eqn:EC; cbn [negb]; [|discriminate].
    apply andb_true_iff in EC as [EC A2]. apply andb_true_iff in EC as [EC A1]. apply andb_true_iff in EC as [W C].
    apply Z.eqb_eq in W.
    assert (PR : (pair_hi g = R12 /\ pair_lo g = R13) \/ (pair_hi g = R4 /\ pair_lo g = R5)).
    { unfold pair_hi, pair_lo. destruct (zos g); auto. }
    destruct o as [[ord|v ord|r ord|cu nw sc fl]|cu nw sc fl].
    - intros E. injection E as <-. eexists. split; [reflexivity|]. now apply load_refines.
    - intros E. injection E as <-. eexists. split; [reflexivity|]. now apply store_refines.
    - intros E.
      assert (HC : exists p, body g t r = Some p \/ (body g t r = None /\ (exists v, r = Swap v \/ r = Max v \/ r = Min v))).
      { destruct (body g t r) eqn:B; [eauto|]. exists []. right. split; auto.
        destruct r; cbn in B; try discriminate; eauto. }
      eexists. split; [reflexivity|]. cbn [callable] in C. apply rmw_typedb_ok in C.
      assert (FB : forall p s, body g t r = Some p -> rg s Dst = a ->
        (two_arg r = false -> rg s ValLo = lo64 (operand t r) /\ rg s ValHi = hi64 (operand t r)) ->
        (two_arg r = true -> rg s Zero = 0) ->
        refines (Op := wop) nx width a (WOp (ORmw r ord)) (mk_bconf (loop_block p R12 R13) 0 s (fun s => RVal (prev t s)))
          (c_rmw t 64 [0%nat; 1%nat] false r)).
      { intros p s B Ha HV HZ.
        apply (loop_refines a (WOp (ORmw r ord)) W p R12 R13 s (next_bits t r) Ha
          (fun s => (two_arg r = false -> rg s ValLo = lo64 (operand t r) /\ rg s ValHi = hi64 (operand t r)) /\
                    (two_arg r = true -> rg s Zero = 0))).
        - split; auto.
        - intros s1 s2 [A B0] K. rewrite !K by discriminate. auto.
        - intros s1 x [A B0] Ux E1 E0.
          assert (X : in_range t (of_bits t x)) by (apply of_bits_range; [now apply wide_wf|]; unfold is_u128 in Ux; now rewrite W).
          assert (XB : to_bits t (of_bits t x) = x) by (apply to_of_bits; [now apply wide_wf|]; unfold is_u128 in Ux; now rewrite W).
          destruct (body_correct g pm t r p s1 (of_bits t x) W C X B) as [J K].
          { rewrite XB. split; auto. }
          cbn zeta. rewrite (K ValLo), (K ValHi), (K Zero), (K R1), (K R0), (K Dst) by discriminate. auto 7.
        - intros x Ux. apply to_bits_u128. exact W. }
      destruct (body g t r) as [p|] eqn:B.
      + assert (NS : forall v, r <> Swap v) by (intros v ->; discriminate).
        assert (E' : c = mk_bconf (loop_block p R12 R13) 0
                    (if two_arg r then set1 (set1 (junk a (WOp (ORmw r ord))) Dst a) Zero 0
                     else in_pair ValHi ValLo (operand t r) (set1 (junk a (WOp (ORmw r ord))) Dst a))
                    (fun s => RVal (prev t s))).
        { destruct r; try (injection E as <-; reflexivity). now destruct (NS v). }
        subst c. apply FB; auto.
        * now destruct (two_arg r).
        * intros ->. cbn. auto.
        * intros ->. reflexivity.
      + destruct HC as (p & [HC|(_ & v & HC)]); [discriminate|].
        assert (HC' : r = Swap v \/ (r = Max v \/ r = Min v)) by tauto. clear HC. destruct HC' as [->|HM].
        * injection E as <-.
          apply (loop_refines a (WOp (ORmw (Swap v) ord)) W [] (pair_hi g) (pair_lo g) _ (next_bits t (Swap v))) with
            (F := fun s => rg s (pair_hi g) = hi64 (to_bits t v) /\ rg s (pair_lo g) = lo64 (to_bits t v)).
          -- destruct PR as [[-> ->]|[-> ->]]; reflexivity.
          -- destruct PR as [[-> ->]|[-> ->]]; split; reflexivity.
          -- intros s1 s2 [A B0] K. destruct PR as [[P1 P2]|[P1 P2]]; rewrite P1, P2 in *; rewrite !K by discriminate; auto.
          -- intros s1 x [A B0] Ux E1 E0. cbn. rewrite A, B0, join_lo_hi. auto 6.
          -- intros x Ux. apply to_bits_u128. exact W.
        * assert (E' : c = mk_bconf (cmp_of t r (pair_hi g) (pair_lo g)) 0
                 (in_pair (pair_hi g) (pair_lo g) (operand t r) (set1 (junk a (WOp (ORmw r ord))) Dst a)) (fun s => RVal (prev t s))).
          { destruct HM as [->| ->]; injection E as <-; reflexivity. }
          subst c. clear E.
          assert (V : in_range t v) by (destruct HM as [->| ->]; exact C).
          assert (CM : exists j1 j2 j3, cmp_of t r (pair_hi g) (pair_lo g) = cmp_block j1 j2 j3 (pair_hi g) (pair_lo g) /\
            forall s x, is_u128 x -> rg s R1 = lo64 x -> rg s R0 = hi64 x ->
              rg s (pair_hi g) = hi64 (operand t r) -> rg s (pair_lo g) = lo64 (operand t r) ->
              next_bits t r x = if test (j1 (pair_hi g) R0) s then operand t r else if test (j2 (pair_hi g) R0) s then x
                        else if test (j3 (pair_lo g) R1) s then operand t r else x).
          { pose proof (cmp_of_ok t r (pair_hi g) (pair_lo g) v) as K.
            unfold cmp_of in *. destruct HM as [->| ->]; destruct (isigned t); eexists; eexists; eexists; (split; [reflexivity|]);
              intros s x Ux E1 E0 Vh Vl; destruct (K x s W ltac:(auto) V Ux E1 E0 Vh Vl) as (j1 & j2 & j3 & Q1 & Q2);
              rewrite Q2; unfold cmp_block in Q1; injection Q1; intros Q3 Q4 Q5; now rewrite Q3, Q4, Q5. }
          destruct CM as (j1 & j2 & j3 & -> & CM).
          apply (cmp_refines a _ W j1 j2 j3 (pair_hi g) (pair_lo g) _ (operand t r) (next_bits t r) PR).
          -- destruct HM as [->| ->]; apply to_bits_u128; exact W.
          -- destruct PR as [[-> ->]|[-> ->]]; reflexivity.
          -- destruct PR as [[-> ->]|[-> ->]]; split; reflexivity.
          -- exact CM.
    - intros E. injection E as <-. eexists. split; [reflexivity|].
      apply cas_refines; auto; destruct PR as [[-> ->]|[-> ->]]; reflexivity.
    - intros E. injection E as <-. eexists. split; [reflexivity|].
      apply cas_refines; auto; destruct PR as [[-> ->]|[-> ->]]; reflexivity.
  Qed.
End S390x.
