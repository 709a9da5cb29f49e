(** The powerpc64 blocks refine the abstract loops. *)
From Coq Require Import ZArith List Bool Lia ZifyBool PeanoNat.
From Verif Require Import Words Spec WideSpec WordsFacts Halves LoopModel LoopProofs AsmModel AsmProofs
  BlockModel BlockProofs AtomicImpls AtomicImplsProofs AsmMain OrderingModel PowerModel PowerProofs.
Import ListNotations.
Open Scope Z_scope.

Definition fences (p : list instr) : Prop := forall s, bexec exec1 p s = s.
Lemma rmw_fences_ok ord : fences (fst (rmw_fences ord)) /\ fences (snd (rmw_fences ord)).
Proof. destruct ord; split; intros s; reflexivity. Qed.
Lemma cas_fences_ok sc fl al su re : cas_fences sc fl = Some (al, su, re) -> fences al /\ fences su /\ fences re.
Proof.
  destruct sc, fl; cbn; intros E; try discriminate; injection E as <- <- <-; (split; [|split]); intros s; reflexivity.
Qed.
Lemma bexec_app p q s : bexec exec1 (p ++ q) s = bexec exec1 q (bexec exec1 p s).
Proof. revert s. induction p; intros s; cbn; auto. Qed.

Section Power.
  Variables (g : target) (ty : Z -> ity) (junk : Z -> wop -> st).
  Local Notation nx := (bnext exec1 test access).
  Local Notation width := (fun a => ibits (ty a)).
  Local Notation BIm := (map (@BI instr jump minstr)).

  Lemma rb pre p post s rt n m c :
    n = length pre -> m = (n + length p)%nat -> c = pre ++ BIm p ++ post ->
    lstar (Res := res) nx (mk_bconf c n s rt) (mk_bconf c m (bexec exec1 p s) rt).
  Proof. intros E1 E2 ->. exact (run_body exec1 test access pre p post s rt n m E1 E2). Qed.
  Lemma nth_at (pre : list (binstr instr jump minstr)) i post c n : c = pre ++ i :: post -> n = length pre -> nth_error c n = Some i.
  Proof. intros -> ->. now rewrite nth_error_app2, Nat.sub_diag. Qed.

  Section One.
    Variables (a : Z) (o : wop).
    Let t := ty a.
    Hypothesis W : ibits t = 128.
    Lemma inr_u128 x : LoopProofs.inr width a x <-> is_u128 x.
    Proof. unfold LoopProofs.inr, is_u128. fold t. now rewrite W. Qed.

    Ltac assoc := repeat rewrite <- app_assoc; cbn [app]; reflexivity.
    Ltac len := repeat (rewrite ?app_length, ?map_length; cbn [length]); change (length cas_cmp) with 3%nat; lia.

    Section Loop.
      Variables (rel acq p : list instr) (s0 : st) (nxt : Z -> Z).
      Hypothesis Frel : fences rel.
      Hypothesis Facq : fences acq.
      Hypothesis Ha : rg s0 Dst = a.
      Variable F : st -> Prop.
      Hypothesis F0 : F s0.
      Hypothesis FR : forall s s', F s -> (forall r, r <> R6 -> r <> R7 -> rg s' r = rg s r) -> F s'.
      Hypothesis Hbody : forall s x, F s -> is_u128 x -> rg s R7 = lo64 x -> rg s R6 = hi64 x ->
        let s' := bexec exec1 p s in
        F s' /\ join64 (rg s' R9) (rg s' R8) = nxt x /\ rg s' R7 = lo64 x /\ rg s' R6 = hi64 x /\ rg s' Dst = rg s Dst.
      Hypothesis Hnxt : forall x, is_u128 x -> is_u128 (nxt x).
      Let P : list (binstr instr jump minstr) :=
        BIm rel ++ [BM (LQARX R6 R7 Dst)] ++ BIm p ++ [BM (STQCX R8 R9 Dst); BJ BNE (length rel)] ++ BIm acq.
      Let rt := fun s => RVal (of_bits t (join64 (rg s R7) (rg s R6))).
      Lemma loop_refines :
        refines (Op := wop) nx width a o (mk_bconf P 0 s0 rt)
          (LlSc 128 [0%nat] (fun x => Some (nxt x)) (fin_val t) (fin_val t) None).
      Proof.
        set (nr := length rel) in *. set (np := length p).
        apply (llsc_refines nx width a o _ 128 [0%nat] ltac:(lia) _ (fin_val t) (fin_val t) None
          (fun n acc c => exists s, F s /\ rg s Dst = a /\ n = 0%nat /\ acc = 0 /\ c = mk_bconf P nr s rt)
          (fun x c => exists s, F s /\ rg s Dst = a /\ is_u128 x /\ c = mk_bconf P (nr + 1 + np) s rt /\
             join64 (rg s R9) (rg s R8) = nxt x /\ rg s R7 = lo64 x /\ rg s R6 = hi64 x)).
        - exists (mk_bconf P nr s0 rt). split.
          + rewrite <- (Frel s0) at 2. exact (rb [] rel _ s0 rt 0 nr P eq_refl eq_refl eq_refl).
          + exists s0. auto.
        - intros n acc c (s & Fs & As & -> & -> & ->). exists 0%nat. eexists. split; [reflexivity|].
          assert (N0 : nth_error P nr = Some (BM (LQARX R6 R7 Dst))).
          { apply (nth_at (BIm rel) _ (BIm p ++ [BM (STQCX R8 R9 Dst); BJ BNE nr] ++ BIm acq)); [reflexivity|subst nr; len]. }
          split.
          { unfold bnext. cbn [bprog bpos bst bret]. rewrite N0. cbn [access Nat.eqb]. rewrite As. reflexivity. }
          intros v Hv. cbn [length Nat.eqb]. replace (0 + v * 2 ^ (128 * Z.of_nat 0)) with v by lia.
          unfold bgoto. cbn [bprog bret bpos].
          set (s1 := set1 (set1 s R6 (hi64 v)) R7 (lo64 v)).
          assert (F1 : F s1). { apply FR with s; auto. intros r N1 N2. cbn. unfold setr. destruct r; try congruence; reflexivity. }
          destruct (Hbody s1 v F1 Hv eq_refl eq_refl) as (F2 & J & L1 & L0 & D).
          exists (mk_bconf P (nr + 1 + np) (bexec exec1 p s1) rt). split.
          { apply (rb (BIm rel ++ [BM (LQARX R6 R7 Dst)]) p ([BM (STQCX R8 R9 Dst); BJ BNE nr] ++ BIm acq)); [subst nr; len|subst np; lia|].
            unfold P. assoc. }
          exists (bexec exec1 p s1). split; [exact F2|]. split; [rewrite D; exact As|]. auto 6.
        - intros x c (s & Fs & As & Ux & -> & J & E1 & E0).
          assert (N0 : nth_error P (nr + 1 + np) = Some (BM (STQCX R8 R9 Dst))).
          { apply (nth_at (BIm rel ++ [BM (LQARX R6 R7 Dst)] ++ BIm p) _ ([BJ BNE nr] ++ BIm acq)); [unfold P; assoc|subst nr np; len]. }
          assert (N1 : nth_error P (1 + (nr + 1 + np)) = Some (BJ BNE nr)).
          { apply (nth_at (BIm rel ++ [BM (LQARX R6 R7 Dst)] ++ BIm p ++ [BM (STQCX R8 R9 Dst)]) _ (BIm acq)); [unfold P; assoc|subst nr np; len]. }
          assert (N2 : nth_error P (2 + (nr + 1 + np) + length acq) = None).
          { apply nth_error_None. unfold P. subst nr np. len. }
          eexists. split.
          { unfold bnext. cbn [bprog bpos bst bret]. rewrite N0. cbn [access]. rewrite As, J. reflexivity. }
          split; [now apply inr_u128, Hnxt|]. unfold bgoto. cbn [bprog bret bpos]. split.
          + set (s1 := set_cr0 s (mk_crf false false true)).
            exists (mk_bconf P (2 + (nr + 1 + np) + length acq) s1 rt). split.
            * eapply ls_step; [unfold bnext; cbn [bprog bpos bst bret]; rewrite N1; cbn [test cr0 EQ negb set_cr0 s1]; reflexivity|].
              unfold bgoto. cbn [bprog bret bpos]. rewrite <- (Facq s1) at 2.
              apply (rb (BIm rel ++ [BM (LQARX R6 R7 Dst)] ++ BIm p ++ [BM (STQCX R8 R9 Dst); BJ BNE nr]) acq []); [subst nr np; len|lia|].
              unfold P. rewrite app_nil_r. assoc.
            * unfold bnext. cbn [bprog bpos bst bret]. rewrite N2. unfold rt. cbn [rg s1 set_cr0]. rewrite E1, E0, join_lo_hi. reflexivity.
          + set (s1 := set_cr0 s (mk_crf false false false)).
            exists (mk_bconf P nr s1 rt). split.
            * eapply ls_step; [unfold bnext; cbn [bprog bpos bst bret]; rewrite N1; cbn [test cr0 EQ negb set_cr0 s1]; reflexivity|constructor].
            * exists s1. split; [apply FR with s; auto|]. auto.
      Qed.
    End Loop.

    Section Cas.
      Variables (al su re : list instr) (s0 : st) (cur new : Z) (weak : bool).
      Hypothesis Fal : fences al.
      Hypothesis Fsu : fences su.
      Hypothesis Fre : fences re.
      Hypothesis Ha : rg s0 Dst = a.
      Hypothesis Uc : is_u128 cur.
      Hypothesis Un : is_u128 new.
      Hypothesis Hc : rg s0 ValLo = lo64 cur /\ rg s0 ValHi = hi64 cur.
      Hypothesis Hn : rg s0 R7 = lo64 new /\ rg s0 R6 = hi64 new.
      Let P : list (binstr instr jump minstr) := if weak then cas_weak_block al su re else cas_block al su re.
      Let rt s := let p := of_bits t (join64 (rg s R9) (rg s R8)) in
                   if test_cr0_eq (rg s TmpLo) then ROk p else RErr p.
      Let wj : list (binstr instr jump minstr) := if weak then [] else [BJ BNE (length re)].
      Let kw := if weak then 6%nat else 7%nat.
      Lemma P_eq : P = BIm re ++ [BM (LQARX R8 R9 Dst)] ++ BIm cas_cmp ++
        [BJ BNE (length re + kw + length su); BM (STQCX R6 R7 Dst)] ++ wj ++ BIm su ++ BIm al ++ [BI (MFCR TmpLo)].
      Proof. unfold P, wj, kw. destruct weak; reflexivity. Qed.
      Definition cinv (s : st) : Prop :=
        rg s Dst = a /\ rg s ValLo = lo64 cur /\ rg s ValHi = hi64 cur /\ rg s R7 = lo64 new /\ rg s R6 = hi64 new.

      Lemma cas_end s fs : fences fs -> bexec exec1 (fs ++ [MFCR TmpLo]) s = exec1 (MFCR TmpLo) s.
      Proof. intros H. rewrite bexec_app, H. reflexivity. Qed.
      Lemma rt_end s x : rg s R9 = lo64 x -> rg s R8 = hi64 x ->
        rt (exec1 (MFCR TmpLo) s) = if EQ (cr0 s) then ROk (of_bits t x) else RErr (of_bits t x).
      Proof.
        intros E1 E0. unfold rt. cbn [exec1]. unfold set1. cbn [rg setr reg_eqb]. rewrite E1, E0, join_lo_hi.
        unfold setr. cbn [reg_eqb]. now rewrite test_cr0_eq_mfcr.
      Qed.

      Lemma cas_cmp_ok s x : is_u128 x -> rg s ValLo = lo64 cur -> rg s ValHi = hi64 cur ->
        rg s R9 = lo64 x -> rg s R8 = hi64 x ->
        EQ (cr0 (bexec exec1 cas_cmp s)) = (x =? cur).
      Proof.
        intros Ux V0 V1 E1 E0. cbn [cas_cmp bexec exec1]. unfold set1, set_cr0, cmp. cbn [rg cr0 EQ setr reg_eqb].
        unfold setr. cbn [reg_eqb]. rewrite V0, V1, E1, E0.
        pose proof (lo64_range x). pose proof (lo64_range cur). pose proof (hi64_range x Ux). pose proof (hi64_range cur Uc).
        assert (EX : x = cur <-> Z.lor (Z.lxor (lo64 x) (lo64 cur)) (Z.lxor (hi64 x) (hi64 cur)) = 0).
        { rewrite Z.lor_eq_0_iff, !Z.lxor_eq_0_iff. split; [intros ->; auto|]. intros [A B].
          rewrite <- (join_lo_hi x), <- (join_lo_hi cur), A, B. reflexivity. }
        assert (UL : is_u64 (Z.lor (Z.lxor (lo64 x) (lo64 cur)) (Z.lxor (hi64 x) (hi64 cur)))) by (apply u64_lor; apply u64_lxor; assumption).
        set (z := Z.lor _ _) in *.
        assert (S0 : s64 z = 0 <-> z = 0).
        { split; [|intros ->; reflexivity]. intros E. apply s64_inj; auto. b64; lia. }
        destruct (Z.eqb_spec (s64 z) 0), (Z.eqb_spec x cur); tauto.
      Qed.

      Lemma cas_refines :
        refines (Op := wop) nx width a o (mk_bconf P 0 s0 rt)
          (LlSc 128 [0%nat] (fun x => if x =? cur then Some new else None)
             (fun x => ROk (of_bits t x)) (fun x => RErr (of_bits t x))
             (if weak then Some (fun x => RErr (of_bits t x)) else None)).
      Proof.
        set (nr := length re) in *. set (NB := (nr + 4)%nat).
        assert (LP : length P = (nr + kw + length su + length al + 1)%nat).
        { rewrite P_eq. unfold wj, kw, nr. destruct weak; len. }
        assert (NBJ : nth_error P NB = Some (BJ BNE (nr + kw + length su))).
        { rewrite P_eq. apply (nth_at (BIm re ++ [BM (LQARX R8 R9 Dst)] ++ BIm cas_cmp) _ (BM (STQCX R6 R7 Dst) :: wj ++ BIm su ++ BIm al ++ [BI (MFCR TmpLo)]));
          [assoc|subst NB nr; len]. }
        assert (NST : nth_error P (S NB) = Some (BM (STQCX R6 R7 Dst))).
        { rewrite P_eq. apply (nth_at (BIm re ++ [BM (LQARX R8 R9 Dst)] ++ BIm cas_cmp ++ [BJ BNE (nr + kw + length su)]) _ (wj ++ BIm su ++ BIm al ++ [BI (MFCR TmpLo)]));
          [assoc|subst NB nr; len]. }
        assert (NJ : weak = false -> nth_error P (S (S NB)) = Some (BJ BNE nr)).
        { intros EW. rewrite P_eq. apply (nth_at (BIm re ++ [BM (LQARX R8 R9 Dst)] ++ BIm cas_cmp ++ [BJ BNE (nr + kw + length su); BM (STQCX R6 R7 Dst)]) _ (BIm su ++ BIm al ++ [BI (MFCR TmpLo)]));
          [unfold wj; rewrite EW; assoc|subst NB nr; len]. }
        (* the tail *)
        assert (TAIL : forall s x n, rg s R9 = lo64 x -> rg s R8 = hi64 x ->
            n = (nr + kw + length su)%nat \/ n = (nr + kw)%nat ->
            reaches nx (mk_bconf P n s rt) (fun c => nx c = ADone (if EQ (cr0 s) then ROk (of_bits t x) else RErr (of_bits t x)))).
        { intros s x n E1 E0 Hn'. exists (mk_bconf P (length P) (exec1 (MFCR TmpLo) s) rt). split.
          - destruct Hn' as [-> | ->].
            + rewrite <- (cas_end s al Fal).
              apply (rb (BIm re ++ [BM (LQARX R8 R9 Dst)] ++ BIm cas_cmp ++ [BJ BNE (nr + kw + length su); BM (STQCX R6 R7 Dst)] ++ wj ++ BIm su)
                      (al ++ [MFCR TmpLo]) []).
              * unfold wj, kw, nr. destruct weak; len.
              * rewrite LP. len.
              * rewrite P_eq, map_app, app_nil_r. assoc.
            + assert (FA : fences (su ++ al)) by (intros s1; rewrite bexec_app, Fsu; apply Fal).
              rewrite <- (cas_end s (su ++ al) FA).
              apply (rb (BIm re ++ [BM (LQARX R8 R9 Dst)] ++ BIm cas_cmp ++ [BJ BNE (nr + kw + length su); BM (STQCX R6 R7 Dst)] ++ wj)
                      ((su ++ al) ++ [MFCR TmpLo]) []).
              * unfold wj, kw, nr. destruct weak; len.
              * rewrite LP. len.
              * rewrite P_eq, !map_app, app_nil_r. assoc.
          - unfold bnext. cbn [bprog bpos bst bret]. rewrite (proj2 (nth_error_None P (length P)) (le_n _)).
            now rewrite (rt_end s x E1 E0). }
        apply (llsc_refines nx width a o _ 128 [0%nat] ltac:(lia) _ (fun x => ROk (of_bits t x)) (fun x => RErr (of_bits t x)) _
          (fun n acc c => exists s, cinv s /\ n = 0%nat /\ acc = 0 /\ c = mk_bconf P nr s rt)
          (fun x c => if x =? cur then exists s, cinv s /\ c = mk_bconf P (S NB) s rt /\ rg s R9 = lo64 x /\ rg s R8 = hi64 x
                      else nx c = ADone (RErr (of_bits t x)))).
        - exists (mk_bconf P nr s0 rt). split.
          + rewrite <- (Fre s0) at 2. exact (rb [] re _ s0 rt 0 nr P eq_refl eq_refl P_eq).
          + exists s0. unfold cinv. tauto.
        - intros n acc c (s & (As & V0 & V1 & M0 & M1) & -> & -> & ->). exists 0%nat. eexists. split; [reflexivity|].
          assert (N0 : nth_error P nr = Some (BM (LQARX R8 R9 Dst))).
          { rewrite P_eq. apply (nth_at (BIm re) _ (BIm cas_cmp ++ [BJ BNE (nr + kw + length su); BM (STQCX R6 R7 Dst)] ++ wj ++ BIm su ++ BIm al ++ [BI (MFCR TmpLo)]));
            [reflexivity|subst nr; len]. }
          split.
          { unfold bnext. cbn [bprog bpos bst bret]. rewrite N0. cbn [access Nat.eqb]. rewrite As. reflexivity. }
          intros v Hv. cbn [length Nat.eqb]. replace (0 + v * 2 ^ (128 * Z.of_nat 0)) with v by lia.
          unfold bgoto. cbn [bprog bret bpos].
          set (s1 := set1 (set1 s R8 (hi64 v)) R9 (lo64 v)).
          set (s2 := bexec exec1 cas_cmp s1).
          assert (L1 : lstar (Res := res) nx (mk_bconf P (1 + nr) s1 rt) (mk_bconf P NB s2 rt)).
          { apply (rb (BIm re ++ [BM (LQARX R8 R9 Dst)]) cas_cmp ([BJ BNE (nr + kw + length su); BM (STQCX R6 R7 Dst)] ++ wj ++ BIm su ++ BIm al ++ [BI (MFCR TmpLo)]));
            [subst nr; len|subst NB; cbn; lia|]. rewrite P_eq. assoc. }
          pose proof (cas_cmp_ok s1 v Hv V0 V1 eq_refl eq_refl) as EC. fold s2 in EC.
          destruct (v =? cur) eqn:EV.
          + exists (mk_bconf P (S NB) s2 rt). split.
            * eapply ls_trans; [exact L1|]. eapply ls_step; [|constructor]. unfold bnext. cbn [bprog bpos bst bret].
              rewrite NBJ. cbn [test]. unfold test. rewrite EC. reflexivity.
            * exists s2. split; [|auto]. unfold cinv. auto.
          + destruct (TAIL s2 v _ eq_refl eq_refl (or_introl eq_refl)) as (c2 & L2 & D2).
            exists c2. split.
            * eapply ls_trans; [exact L1|]. eapply ls_step; [|exact L2]. unfold bnext. cbn [bprog bpos bst bret].
              rewrite NBJ. unfold test. rewrite EC. reflexivity.
            * rewrite D2, EC. reflexivity.
        - intros x c. destruct (x =? cur) eqn:EX; [|auto].
          intros (s & (As & V0 & V1 & M0 & M1) & -> & E1 & E0).
          eexists. split.
          { unfold bnext. cbn [bprog bpos bst bret]. rewrite NST. cbn [access]. rewrite As, M0, M1, join_lo_hi. reflexivity. }
          split; [now apply inr_u128|]. unfold bgoto. cbn [bprog bret bpos].
          set (sT := set_cr0 s (mk_crf false false true)). set (sF := set_cr0 s (mk_crf false false false)).
          destruct weak eqn:EW.
          + split.
            * apply (TAIL sT x). { exact E1. } { exact E0. } right. subst NB. unfold kw. lia.
            * apply (TAIL sF x). { exact E1. } { exact E0. } right. subst NB. unfold kw. lia.
          + specialize (NJ eq_refl).
            split.
            * destruct (TAIL sT x (nr + kw)%nat E1 E0 (or_intror eq_refl)) as (c2 & L2 & D2). exists c2. split; [|exact D2].
              replace (nr + kw)%nat with (S (S (S NB))) in L2 by (subst NB; unfold kw; lia).
              eapply ls_step; [|exact L2]. unfold bnext. cbn [bprog bpos bst bret Nat.add]. rewrite NJ. reflexivity.
            * exists (mk_bconf P nr sF rt). split.
              -- eapply ls_step; [|constructor]. unfold bnext. cbn [bprog bpos bst bret Nat.add]. rewrite NJ. reflexivity.
              -- exists sF. unfold cinv. auto 8.
      Qed.
    End Cas.

    Lemma load_refines ord s0 : rg s0 Dst = a ->
      refines (Op := wop) nx width a o (mk_bconf (load_block ord) 0 s0 (fun s => RVal (of_bits t (join64 (rg s R5) (rg s R4)))))
        (d_load t).
    Proof.
      intros Ha. set (rt := fun s => RVal (of_bits t (join64 (rg s R5) (rg s R4)))).
      set (sx := fun x => set1 (set1 s0 R4 (hi64 x)) R5 (lo64 x)).
      assert (D : forall x, rt (sx x) = fin_val t x).
      { intros x. unfold rt, sx. cbn. now rewrite join_lo_hi. }
      assert (D' : forall x, rt (exec1 (CMPW R4 R4) (sx x)) = fin_val t x) by exact D.
      assert (TEST : forall s, test BNE (exec1 (CMPW R4 R4) s) = false).
      { intros s. unfold test. cbn [exec1]. unfold set_cr0, cmp. cbn [cr0 EQ]. now rewrite Z.eqb_refl. }
      assert (PLAIN : refines (Op := wop) nx width a o (mk_bconf [BM (LQ R4 R5 Dst)] 0 s0 rt) (d_load t)).
      { eapply (single_refines _ _ _ _ _ _ _ _ _ (ls_refl _ _)).
        - cbn. rewrite Ha. reflexivity.
        - intros sp x Hx. split; [reflexivity|]. split; [discriminate|]. eexists. split; [constructor|].
          cbn. exact (f_equal ADone (D x)). }
      assert (TAIL : forall P n x, nth_error P n = Some (BI (CMPW R4 R4)) -> nth_error P (S n) = Some (BJ BNE (S (S n))) ->
                nth_error P (S (S n)) = Some (BI (FENCE Isync)) -> nth_error P (S (S (S n))) = None ->
                exists c2, lstar nx (mk_bconf P n (sx x) rt) c2 /\ nx c2 = ADone (fin_val t x)).
      { intros P n x A B C E. exists (mk_bconf P (S (S (S n))) (exec1 (CMPW R4 R4) (sx x)) rt). split.
        - eapply ls_step; [unfold bnext; cbn [bprog bpos bst bret]; rewrite A; reflexivity|].
          eapply ls_step; [unfold bnext, bgoto; cbn [bprog bpos bst bret Nat.add]; rewrite B, TEST; reflexivity|].
          eapply ls_step; [unfold bnext, bgoto; cbn [bprog bpos bst bret Nat.add]; rewrite C; reflexivity|].
          constructor.
        - unfold bnext. cbn [bprog bpos bst bret]. now rewrite E, D'. }
      destruct ord; try exact PLAIN.
      - eapply (single_refines _ _ _ _ _ _ _ _ _ (ls_refl _ _)).
        + cbn [bnext nth_error load_block bprog bpos bst bret access]. rewrite Ha. reflexivity.
        + intros sp x Hx. split; [reflexivity|]. split; [discriminate|]. cbn [fst snd].
          unfold bgoto. cbn [bprog bpos bst bret Nat.add]. now apply (TAIL _ 1%nat x).
      - eapply (single_refines _ _ _ _ _ (mk_bconf (load_block SeqCst) 1 s0 rt)).
        + eapply ls_step; [reflexivity|constructor].
        + cbn [bnext nth_error load_block bprog bpos bst bret access]. rewrite Ha. reflexivity.
        + intros sp x Hx. split; [reflexivity|]. split; [discriminate|]. cbn [fst snd].
          unfold bgoto. cbn [bprog bpos bst bret Nat.add]. now apply (TAIL _ 2%nat x).
    Qed.
    Lemma store_refines ord s0 v : rg s0 Dst = a -> rg s0 R4 = hi64 (to_bits t v) -> rg s0 R5 = lo64 (to_bits t v) ->
      refines (Op := wop) nx width a o (mk_bconf (store_block ord) 0 s0 (fun _ => RUnit)) (d_store t v).
    Proof.
      intros Ha H4 H5.
      assert (X : forall P n, nth_error P n = Some (BM (STQ R4 R5 Dst)) -> nth_error P (S n) = None ->
         lstar nx (mk_bconf P 0 s0 (fun _ => RUnit)) (mk_bconf P n s0 (fun _ => RUnit)) ->
         refines (Op := wop) nx width a o (mk_bconf P 0 s0 (fun _ => RUnit)) (d_store t v)).
      { intros P n A B L. eapply (single_refines _ _ _ _ _ _ _ _ _ L).
        - unfold bnext. cbn [bprog bpos bst bret]. rewrite A. cbn [access]. rewrite Ha, H4, H5, join_lo_hi. reflexivity.
        - intros sp x Hx. split; [reflexivity|]. split.
          + intros y E. injection E as <-. apply inr_u128. now apply to_bits_u128.
          + eexists. split; [constructor|]. unfold bnext, bgoto. cbn [bprog bpos bst bret Nat.add]. rewrite B. reflexivity. }
      destruct ord; first [apply X with (n := 0%nat); [reflexivity|reflexivity|constructor]
        | apply X with (n := 1%nat); [reflexivity|reflexivity|eapply ls_step; [reflexivity|constructor]]].
    Qed.
  End One.

  Definition p_impl (a : Z) (o : wop) : option (impl res) :=
    let t := ty a in
    if negb ((ibits t =? 128) && callable t o && (0 <=? a) && (a <? 2 ^ 64)) then None else
    match o with
    | WOp (OLoad _) => Some (d_load t)
    | WOp (OStore v _) => Some (d_store t v)
    | WOp (OCas c n _ _) => Some (l_cas t 128 [0%nat] c n false)
    | WCasWeak c n _ _ => Some (l_cas t 128 [0%nat] c n (static g))
    | WOp (ORmw r _) => Some (l_rmw t 128 [0%nat] r)
    end.

  Theorem p_refines a o c : code_of g ty junk a o = Some c -> exists i, p_impl a o = Some i /\
    refines nx width a o c i.
  Proof.
    unfold code_of, p_impl. set (t := ty a).
    destruct ((ibits t =? 128) && callable t o && (0 <=? a) && (a <? 2 ^ 64)) eqn:EC; cbn [negb]; [|discriminate].
    apply andb_true_iff in EC as [EC _]. apply andb_true_iff in EC as [EC _]. apply andb_true_iff in EC as [W C].
    apply Z.eqb_eq in W.
    destruct o as [[ord|v ord|r ord|cu nw sc fl]|cu nw sc fl].
    - intros E. injection E as <-. eexists. split; [reflexivity|]. now apply load_refines.
    - intros E. injection E as <-. eexists. split; [reflexivity|]. now apply store_refines.
    - intros E. eexists. split; [reflexivity|]. cbn [callable] in C. apply rmw_typedb_ok in C. fold t in C.
      destruct (rmw_fences_ok ord) as [FA FB].
      assert (LB : forall p, loop_block ord p = BIm (snd (rmw_fences ord)) ++ [BM (LQARX R6 R7 Dst)] ++ BIm p ++
                 [BM (STQCX R8 R9 Dst); BJ BNE (length (snd (rmw_fences ord)))] ++ BIm (fst (rmw_fences ord))).
      { intros p. unfold loop_block. destruct (rmw_fences ord). reflexivity. }
      destruct (body (old_llvm g) t r) as [p|] eqn:B.
      + assert (NS : forall v, r <> Swap v) by (intros v ->; discriminate).
        assert (E' : c = mk_bconf (loop_block ord p) 0 (set1 (in_pair ValHi ValLo (val_of t r) (set1 (junk a (WOp (ORmw r ord))) Dst a)) Zero 0)
                    (fun s => RVal (of_bits t (join64 (rg s R7) (rg s R6))))).
        { destruct r; try (injection E as <-; reflexivity). now destruct (NS v). }
        rewrite E', LB.
        apply (loop_refines a (WOp (ORmw r ord)) W _ _ p _ (next_bits t r) FB FA) with (F := ready t r).
        * reflexivity.
        * split; [|split]; reflexivity.
        * intros s1 s2 (A & B0 & Z0) K. unfold ready. rewrite (K ValLo), (K ValHi), (K Zero) by discriminate. auto.
        * intros s1 x R Ux E1 E0.
          assert (X : in_range t (of_bits t x)) by (apply of_bits_range; [now apply wide_wf|]; unfold is_u128 in Ux; now rewrite W).
          assert (XB : to_bits t (of_bits t x) = x) by (apply to_of_bits; [now apply wide_wf|]; unfold is_u128 in Ux; now rewrite W).
          destruct (body_correct (old_llvm g) t r p s1 (of_bits t x) W C X B R) as [J K]; [now rewrite XB|now rewrite XB|].
          cbn zeta. unfold ready in *. rewrite (K ValLo), (K ValHi), (K Zero), (K R7), (K R6), (K Dst) by discriminate. auto 9.
        * intros x Ux. apply to_bits_u128. exact W.
      + destruct r; try discriminate. injection E as <-. rewrite LB.
        apply (loop_refines a (WOp (ORmw (Swap v) ord)) W _ _ [] _ (next_bits t (Swap v)) FB FA) with
          (F := fun s => rg s R9 = lo64 (to_bits t v) /\ rg s R8 = hi64 (to_bits t v)).
        * reflexivity.
        * split; reflexivity.
        * intros s1 s2 (A & B0) K. rewrite !K by discriminate. auto.
        * intros s1 x (A & B0) Ux E1 E0. cbn. rewrite A, B0, join_lo_hi. auto 6.
        * intros x Ux. apply to_bits_u128. exact W.
    - destruct (cas_fences sc fl) as [[[al su] re]|] eqn:CF; [|discriminate]. intros E. injection E as <-.
      eexists. split; [reflexivity|]. destruct (cas_fences_ok sc fl al su re CF) as (A1 & A2 & A3).
      cbn [callable] in C.
      apply (cas_refines a (WOp (OCas cu nw sc fl)) W al su re _ (to_bits t cu) (to_bits t nw) false A1 A2 A3);
        first [reflexivity | now apply to_bits_u128 | split; reflexivity].
    - destruct (cas_fences sc fl) as [[[al su] re]|] eqn:CF; [|discriminate]. intros E. injection E as <-.
      eexists. split; [reflexivity|]. destruct (cas_fences_ok sc fl al su re CF) as (A1 & A2 & A3).
      pose proof (cas_refines a (WCasWeak cu nw sc fl) W al su re
         (in_pair R6 R7 (to_bits t nw) (in_pair ValHi ValLo (to_bits t cu) (set1 (junk a (WCasWeak cu nw sc fl)) Dst a)))
         (to_bits t cu) (to_bits t nw) (static g) A1 A2 A3) as K.
      destruct (static g); apply K; first [reflexivity | now apply to_bits_u128 | split; reflexivity].
  Qed.
End Power.
