(** The aarch64 blocks refine the abstract loops. *)
From Coq Require Import ZArith List Bool Lia ZifyBool PeanoNat.
From Verif Require Import Words Spec WideSpec WordsFacts Halves LoopModel LoopProofs AsmModel AsmProofs
  BlockModel BlockProofs AtomicImpls AtomicImplsProofs AsmMain OrderingModel Aarch64Model Aarch64Proofs.
Import ListNotations.
Open Scope Z_scope.

Definition fences (p : list instr) : Prop := forall s, bexec exec1 p s = s.
Lemma rmw_sfx_fences g o w : fences (snd (rmw_sfx g o w)).
Proof. destruct o; try (intros s; reflexivity). unfold rmw_sfx. destruct (msvc g), w; intros s; reflexivity. Qed.

Lemma pair_lo b lo hi s x : is_u128 x -> lo <> Xzr -> hi <> Xzr -> rg s lo = addr_lo b x -> rg s hi = addr_hi b x -> pair b lo hi s = x.
Proof.
  intros U A B E1 E2. unfold pair. replace (rd s lo) with (rg s lo) by (destruct lo; try reflexivity; congruence).
  replace (rd s hi) with (rg s hi) by (destruct hi; try reflexivity; congruence). rewrite E1, E2. apply addr_halves.
Qed.
Lemma setr_same f r v : setr f r v r = v.
Proof. unfold setr. destruct r; reflexivity. Qed.
Lemma setr_other f r v q : q <> r -> setr f r v q = f q.
Proof. intros N. unfold setr. destruct q, r; try reflexivity; congruence. Qed.
Lemma reg_dec (a b : reg) : {a = b} + {a <> b}.
Proof. decide equality. Qed.
Lemma put_lo b lo hi v s : lo <> hi -> rg (put b lo hi v s) lo = addr_lo b v.
Proof. intros N. unfold put, set1. cbn [rg]. rewrite setr_other by congruence. apply setr_same. Qed.
Lemma put_hi b lo hi v s : rg (put b lo hi v s) hi = addr_hi b v.
Proof. unfold put, set1. cbn [rg]. apply setr_same. Qed.
Lemma put_other b lo hi v s q : q <> lo -> q <> hi -> rg (put b lo hi v s) q = rg s q.
Proof. intros. unfold put, set1. cbn [rg]. now rewrite !setr_other. Qed.
Lemma set1_rg s r v q : rg (set1 s r v) q = if reg_eqb q r then v else rg s q.
Proof. reflexivity. Qed.
Lemma rd_rg s r : r <> Xzr -> rd s r = rg s r.
Proof. destruct r; try reflexivity; congruence. Qed.

(** the two halves of the variable, in the order in which they are read *)
Definition half_order (b up : bool) : list nat := if up then [piece b true; piece b false] else [piece b false; piece b true].
Lemma acc_lo b vl vh : is_u64 vl -> is_u64 vh ->
  let x := vl * 2 ^ (64 * Z.of_nat (piece b false)) + vh * 2 ^ (64 * Z.of_nat (piece b true)) in
  is_u128 x /\ addr_lo b x = vl /\ addr_hi b x = vh.
Proof.
  intros A B. cbv zeta. unfold piece, addr_lo, addr_hi. destruct b; cbn [xorb].
  - change (64 * Z.of_nat 1) with 64. change (64 * Z.of_nat 0) with 0. rewrite Z.pow_0_r, Z.mul_1_r.
    replace (vl * 2 ^ 64 + vh) with (join64 vh vl) by (unfold join64, B64; lia).
    split; [now apply join_range|]. now rewrite hi_join, lo_join.
  - change (64 * Z.of_nat 1) with 64. change (64 * Z.of_nat 0) with 0. rewrite Z.pow_0_r, Z.mul_1_r.
    replace (vl + vh * 2 ^ 64) with (join64 vl vh) by (unfold join64, B64; lia).
    split; [now apply join_range|]. now rewrite hi_join, lo_join.
Qed.

Section Arm.
  Variables (g : target) (h : hw) (ty : Z -> ity) (junk : Z -> wop -> st).
  Local Notation nx := (bnext exec1 test (access (be g) h)).
  Local Notation width := (fun a => ibits (ty a)).
  Local Notation BIm := (map (@BI instr jump minstr)).

  Lemma rb pre p post s rt n m c :
    n = length pre -> m = (n + length p)%nat -> c = pre ++ BIm p ++ post ->
    lstar (Res := res) nx (mk_bconf c n s rt) (mk_bconf c m (bexec exec1 p s) rt).
  Proof. intros E1 E2 ->. exact (run_body exec1 test (access (be g) h) pre p post s rt n m E1 E2). Qed.
  Lemma nth_at (pre : list (binstr instr jump minstr)) i post c n : c = pre ++ i :: post -> n = length pre -> nth_error c n = Some i.
  Proof. intros -> ->. now rewrite nth_error_app2, Nat.sub_diag. Qed.

  Definition xk : Z := if h_xp_single h then 128 else 64.
  Definition xrs : list nat := if h_xp_single h then [0%nat] else half_order (be g) (h_up_first h).
  Definition pk : Z := if h_lse2 h then 128 else 64.
  Definition prs : list nat := if h_lse2 h then [0%nat] else half_order (be g) (h_up_first h).

  Section One.
    Variables (a : Z) (o : wop).
    Let t := ty a.
    Hypothesis W : ibits t = 128.
    Lemma inr_u128 x : LoopProofs.inr width a x <-> is_u128 x.
    Proof. unfold LoopProofs.inr, is_u128. fold t. now rewrite W. Qed.

    Ltac assoc := repeat rewrite <- app_assoc; cbn [app]; reflexivity.
    Ltac len := repeat (rewrite ?app_length, ?map_length; cbn [length]); lia.

    (** *** exclusive-pair loops *)
    Section LL.
      Variables (acq rel : bool) (lo hi r nl nh : reg) (p fence : list instr) (s0 : st) (rt : st -> res)
        (nxt : Z -> Z) (ok err : Z -> res) (F : st -> Prop).
      Hypothesis Ff : fences fence.
      Hypothesis Nlh : lo <> hi.
      Hypothesis Nr : r <> Xzr.
      Hypothesis F0 : F s0.
      Hypothesis FD : forall s, F s -> rd s Dst = a.
      Hypothesis FR : forall s q v, q = lo \/ q = hi -> F s -> F (set1 s q v).
      Hypothesis Hbody : forall s x, F s -> is_u128 x -> rg s lo = addr_lo (be g) x -> rg s hi = addr_hi (be g) x ->
        let s' := bexec exec1 p s in
        pair (be g) nl nh s' = nxt x /\ rd s' Dst = a /\ (forall v, F (set1 s' r v)) /\ rt (set1 s' r 0) = ok x.
      Hypothesis Hnxt : forall x, is_u128 x -> is_u128 (nxt x).
      Let nr := length (ldxp h acq lo hi).
      Let np := length p.
      Let P : list (binstr instr jump minstr) :=
        ldxp h acq lo hi ++ BIm p ++ [BM (STXP rel r nl nh Dst); BJ (CBNZ r) 0] ++ BIm fence.
      Let AtTry (x : Z) (c : bconf instr jump minstr st res) : Prop :=
        exists s, c = mk_bconf P (nr + np) s rt /\ is_u128 x /\ pair (be g) nl nh s = nxt x /\ rd s Dst = a /\
          (forall v, F (set1 s r v)) /\ rt (set1 s r 0) = ok x.
      Lemma ll_loaded s x : F s -> is_u128 x -> rg s lo = addr_lo (be g) x -> rg s hi = addr_hi (be g) x ->
        reaches nx (mk_bconf P nr s rt) (AtTry x).
      Proof.
        intros Fs U E1 E2. exists (mk_bconf P (nr + np) (bexec exec1 p s) rt). split.
        - now apply (rb (ldxp h acq lo hi) p ([BM (STXP rel r nl nh Dst); BJ (CBNZ r) 0] ++ BIm fence)).
        - exists (bexec exec1 p s). destruct (Hbody s x Fs U E1 E2) as (J & D & K & R). auto 8.
      Qed.
      Lemma ll_refines :
        refines (Op := wop) nx width a o (mk_bconf P 0 s0 rt)
          (LlSc xk xrs (fun x => Some (nxt x)) ok err None).
      Proof.
        set (S1 := fun n acc (c : bconf instr jump minstr st res) => n = 0%nat /\ acc = 0 /\ exists s, F s /\ c = mk_bconf P 0 s rt).
        set (S2 := fun n acc (c : bconf instr jump minstr st res) => h_xp_single h = false /\ n = 1%nat /\ exists s v,
              F s /\ is_u64 v /\ c = mk_bconf P 1 s rt /\
              rg s (if h_up_first h then hi else lo) = v /\
              acc = v * 2 ^ (64 * Z.of_nat (piece (be g) (h_up_first h)))).
        apply (llsc_refines nx width a o _ xk xrs ltac:(unfold xk; destruct (h_xp_single h); lia) _ ok err None
          (fun n acc c => S1 n acc c \/ S2 n acc c) AtTry).
        - exists (mk_bconf P 0 s0 rt). split; [constructor|]. left. split; auto. split; auto. eauto.
        - intros n acc c [(-> & -> & s & Fs & ->)|(HS & -> & s & v & Fs & Uv & -> & E & ->)].
          + destruct (h_xp_single h) eqn:HX.
            * exists 0%nat. eexists. split; [unfold xrs; rewrite HX; reflexivity|]. split.
              { instantiate (1 := fun v => mk_bconf P 1 (put (be g) lo hi v s) rt).
                unfold bnext, P, ldxp, xk. rewrite HX. cbn [bprog bpos bst bret nth_error app access Nat.eqb].
                rewrite HX, (FD s Fs). reflexivity. }
              intros v Hv. cbv zeta. unfold xrs, xk in *. rewrite HX in *. cbn [length Nat.eqb].
              replace (0 + v * 2 ^ (128 * Z.of_nat 0)) with v by lia.
              unfold bgoto. cbn [bprog bret bpos Nat.add].
              assert (NR : nr = 1%nat) by (unfold nr, ldxp; rewrite HX; reflexivity). rewrite <- NR.
              apply ll_loaded; [|exact Hv|now apply put_lo|apply put_hi].
              unfold put. apply FR; auto.
            * exists (piece (be g) (h_up_first h)). eexists.
              split; [unfold xrs, half_order; rewrite HX; destruct (h_up_first h); reflexivity|]. split.
              { unfold bnext, P, ldxp. rewrite HX. instantiate (1 := fun v => mk_bconf P 1 (set1 s (if h_up_first h then hi else lo) v) rt).
                unfold xk, P, ldxp. rewrite HX.
                destruct (h_up_first h); cbn [bprog bpos bst bret nth_error app access Nat.eqb]; rewrite (FD s Fs); reflexivity. }
              intros v Hv. cbv zeta. unfold xrs, xk in *. rewrite HX in *.
              assert (LN : Nat.eqb 1 (length (half_order (be g) (h_up_first h))) = false) by (unfold half_order; destruct (h_up_first h); reflexivity).
              rewrite LN. eexists. split; [constructor|]. right. unfold S2. split; [auto|]. split; [auto|].
              eexists. exists v. split; [|split; [exact Hv|split; [reflexivity|split; [|lia]]]].
              { apply FR; auto. destruct (h_up_first h); auto. }
              { rewrite set1_rg. destruct (h_up_first h); [destruct hi|destruct lo]; reflexivity. }
          + exists (piece (be g) (negb (h_up_first h))). eexists.
            split; [unfold xrs, half_order; rewrite HS; destruct (h_up_first h); reflexivity|]. split.
            { unfold bnext, P, ldxp. rewrite HS. instantiate (1 := fun v => mk_bconf P 2 (set1 s (if h_up_first h then lo else hi) v) rt).
              unfold xk, P, ldxp. rewrite HS.
              destruct (h_up_first h); cbn [bprog bpos bst bret nth_error app access Nat.eqb negb]; rewrite (FD s Fs); reflexivity. }
            intros w Hw. cbv zeta. unfold xrs, xk in *. rewrite HS in *.
            assert (LN : Nat.eqb 2 (length (half_order (be g) (h_up_first h))) = true) by (unfold half_order; destruct (h_up_first h); reflexivity).
            rewrite LN.
            assert (NR : nr = 2%nat) by (unfold nr, ldxp; rewrite HS; destruct (h_up_first h); reflexivity). rewrite <- NR.
            destruct (h_up_first h); cbn [negb].
            * destruct (acc_lo (be g) w v Hw Uv) as (U & A1 & A2).
              rewrite Z.add_comm. apply ll_loaded; auto.
              -- rewrite A1, set1_rg. destruct lo; reflexivity.
              -- rewrite A2. cbn [set1 rg]. rewrite setr_other by congruence. exact E.
            * destruct (acc_lo (be g) v w Uv Hw) as (U & A1 & A2).
              apply ll_loaded; auto.
              -- rewrite A1. cbn [set1 rg]. rewrite setr_other by congruence. exact E.
              -- rewrite A2, set1_rg. destruct hi; reflexivity.
        - intros x c (s & -> & U & J & D & K & R).
          assert (N0 : nth_error P (nr + np) = Some (BM (STXP rel r nl nh Dst))).
          { apply (nth_at (ldxp h acq lo hi ++ BIm p) _ ([BJ (CBNZ r) 0%nat] ++ BIm fence)); [unfold P; assoc|subst nr np; len]. }
          assert (N1 : nth_error P (1 + (nr + np)) = Some (BJ (CBNZ r) 0)).
          { apply (nth_at (ldxp h acq lo hi ++ BIm p ++ [BM (STXP rel r nl nh Dst)]) _ (BIm fence)); [unfold P; assoc|subst nr np; len]. }
          eexists. split.
          { unfold bnext. cbn [bprog bpos bst bret]. rewrite N0. cbn [access]. rewrite D, J. reflexivity. }
          split; [apply inr_u128; auto|]. unfold bgoto. cbn [bprog bret bpos].
          assert (RR : forall v, rd (set1 s r v) r = v) by (intros v; rewrite rd_rg by exact Nr; cbn [set1 rg]; apply setr_same).
          split.
          + exists (mk_bconf P (2 + (nr + np) + length fence) (set1 s r 0) rt). split.
            * eapply ls_step.
              { unfold bnext. cbn [bprog bpos bst bret]. rewrite N1. cbn [test]. rewrite RR. reflexivity. }
              unfold bgoto. cbn [bprog bret bpos]. change (negb (0 mod 2 ^ 32 =? 0)) with false. cbv iota.
              match goal with |- lstar _ ?x _ => replace (set1 s r 0) with (bexec exec1 fence (set1 s r 0)) at 2 by apply Ff end.
              apply (rb (ldxp h acq lo hi ++ BIm p ++ [BM (STXP rel r nl nh Dst); BJ (CBNZ r) 0%nat]) fence []).
              { subst nr np; len. } { lia. } { unfold P. rewrite app_nil_r. assoc. }
            * unfold bnext. cbn [bprog bpos bst bret].
              rewrite (proj2 (nth_error_None P _)) by (unfold P; subst nr np; len). now rewrite R.
          + exists (mk_bconf P 0 (set1 s r 1) rt). split.
            * eapply ls_one. unfold bnext. cbn [bprog bpos bst bret]. rewrite N1. cbn [test]. rewrite RR. reflexivity.
            * left. split; auto. split; auto. eauto.
      Qed.
    End LL.

    (** *** compare-and-swap-pair loops *)
    Section Casp.
      Variables (acq rel : bool) (lo hi nl nh : reg) (p : list instr) (s0 : st) (rt : st -> res)
        (nxt : Z -> Z) (ok : Z -> res) (F : st -> Prop).
      Hypothesis HL : h_lse h = true.
      Hypothesis Nlh : lo <> hi.
      Hypothesis Nx : lo <> Xzr /\ hi <> Xzr /\ lo <> TmpLo /\ lo <> TmpHi /\ hi <> TmpLo /\ hi <> TmpHi.
      Hypothesis F0 : F s0.
      Hypothesis FD : forall s, F s -> rd s Dst = a.
      Hypothesis FR : forall s q v, q = lo \/ q = hi -> F s -> F (set1 s q v).
      Hypothesis FC : forall s s', F s -> (forall q, q <> Xzr -> rg s' q = rg s q) -> F s'.
      Hypothesis Hbody : forall s x, F s -> is_u128 x -> rg s lo = addr_lo (be g) x -> rg s hi = addr_hi (be g) x ->
        let s' := bexec exec1 ([MOV TmpLo lo; MOV TmpHi hi] ++ p) s in
        F s' /\ pair (be g) nl nh s' = nxt x /\ rg s' lo = rg s lo /\ rg s' hi = rg s hi /\
        rg s' TmpLo = rg s lo /\ rg s' TmpHi = rg s hi.
      Hypothesis Hrt : forall s x, is_u128 x -> rg s lo = addr_lo (be g) x -> rg s hi = addr_hi (be g) x -> rt s = ok x.
      Hypothesis Hnxt : forall x, is_u128 x -> is_u128 (nxt x).
      Let nr := length (ldp h lo hi).
      Let bd := [MOV TmpLo lo; MOV TmpHi hi] ++ p.
      Let np := length bd.
      Let P : list (binstr instr jump minstr) :=
        ldp h lo hi ++ BIm bd ++ [BM (CASP acq rel lo hi nl nh Dst)] ++
        BIm [CMP TmpHi hi; CCMP0 TmpLo lo Eq] ++ [BJ BNE nr].
      Let AtTry (x : Z) (c : bconf instr jump minstr st res) : Prop :=
        exists s, c = mk_bconf P (nr + np) s rt /\ is_u128 x /\ F s /\ pair (be g) nl nh s = nxt x /\
          rg s lo = addr_lo (be g) x /\ rg s hi = addr_hi (be g) x /\ rg s TmpLo = addr_lo (be g) x /\ rg s TmpHi = addr_hi (be g) x.
      Lemma casp_loaded s x : F s -> is_u128 x -> rg s lo = addr_lo (be g) x -> rg s hi = addr_hi (be g) x ->
        reaches nx (mk_bconf P nr s rt) (AtTry x).
      Proof.
        intros Fs U E1 E2. exists (mk_bconf P (nr + np) (bexec exec1 bd s) rt). split.
        - now apply (rb (ldp h lo hi) bd ([BM (CASP acq rel lo hi nl nh Dst)] ++ BIm [CMP TmpHi hi; CCMP0 TmpLo lo Eq] ++ [BJ BNE nr])).
        - exists (bexec exec1 bd s). destruct (Hbody s x Fs U E1 E2) as (K & J & A & B & C & D).
          unfold bd. rewrite A, B, C, D. auto 9.
      Qed.
      (** the comparison after casp *)
      Lemma casp_cmp s x y : is_u128 x -> is_u128 y -> rg s TmpLo = addr_lo (be g) x -> rg s TmpHi = addr_hi (be g) x ->
        rg s lo = addr_lo (be g) y -> rg s hi = addr_hi (be g) y ->
        let s' := bexec exec1 [CMP TmpHi hi; CCMP0 TmpLo lo Eq] s in
        fZ s' = (x =? y) /\ forall q, q <> Xzr -> rg s' q = rg s q.
      Proof.
        intros Ux Uy E1 E2 E3 E4. destruct Nx as (N1 & N2 & _).
        pose proof (addr_range (be g) _ Ux) as [L1 L2]. pose proof (addr_range (be g) _ Uy) as [L3 L4].
        pose proof (addr_halves (be g) x) as Jx. pose proof (addr_halves (be g) y) as Jy.
        cbv zeta. cbn [bexec exec1]. rewrite (rd_rg s hi), (rd_rg s TmpHi), E2, E4 by (auto; discriminate).
        assert (EQ : (x =? y) = (addr_hi (be g) x =? addr_hi (be g) y) && (addr_lo (be g) x =? addr_lo (be g) y)).
        { apply eq_true_iff_eq. rewrite andb_true_iff, !Z.eqb_eq. split; [intros ->; auto|].
          intros [Q1 Q2]. rewrite <- Jx, <- Jy, Q1, Q2. reflexivity. }
        rewrite EQ. set (sc := awc s Xzr _ _ _ _).
        assert (R0 : holds Eq sc = (addr_hi (be g) x =? addr_hi (be g) y)) by (apply awc_zero; assumption).
        assert (R3 : forall q, q <> Xzr -> rg sc q = rg s q).
        { intros q Nq. unfold sc, awc. cbn [rg]. now rewrite setr_other. }
        assert (R1 : rd sc lo = addr_lo (be g) y) by (rewrite rd_rg, R3 by auto; exact E3).
        assert (R2 : rd sc TmpLo = addr_lo (be g) x) by (rewrite rd_rg, R3 by discriminate; exact E1).
        rewrite R0, R1, R2. destruct (addr_hi (be g) x =? addr_hi (be g) y).
        - split; [apply awc_zero; assumption|].
          intros q Nq. unfold awc. cbn [rg]. rewrite setr_other by exact Nq. auto.
        - split; [reflexivity|]. intros q Nq. cbn [rg]. auto.
      Qed.
      Lemma casp_refines :
        refines (Op := wop) nx width a o (mk_bconf P 0 s0 rt) (CasLoop pk prs false (fun _ x => Some (nxt x)) ok ok).
      Proof.
        set (S1 := fun n acc (c : bconf instr jump minstr st res) => n = 0%nat /\ acc = 0 /\ exists s, F s /\ c = mk_bconf P 0 s rt).
        set (S2 := fun n acc (c : bconf instr jump minstr st res) => h_lse2 h = false /\ n = 1%nat /\ exists s v,
              F s /\ is_u64 v /\ c = mk_bconf P 1 s rt /\
              rg s (if h_up_first h then hi else lo) = v /\
              acc = v * 2 ^ (64 * Z.of_nat (piece (be g) (h_up_first h)))).
        destruct Nx as (NX1 & NX2 & N1 & N2 & N3 & N4).
        apply (casloop_refines nx width a o _ pk prs ltac:(unfold pk; destruct (h_lse2 h); lia) nxt ok
          (fun n acc c => S1 n acc c \/ S2 n acc c) AtTry).
        - exists (mk_bconf P 0 s0 rt). split; [constructor|]. left. split; auto. split; auto. eauto.
        - intros n acc c [(-> & -> & s & Fs & ->)|(HS & -> & s & v & Fs & Uv & -> & E & ->)].
          + destruct (h_lse2 h) eqn:HX.
            * exists 0%nat. eexists. split; [unfold prs; rewrite HX; reflexivity|]. split.
              { instantiate (1 := fun v => mk_bconf P 1 (put (be g) lo hi v s) rt).
                unfold bnext, P, ldp, pk. rewrite HX. cbn [bprog bpos bst bret nth_error app access].
                rewrite HX, (FD s Fs). reflexivity. }
              intros v Hv. cbv zeta. unfold prs, pk in *. rewrite HX in *. cbn [length Nat.eqb].
              replace (0 + v * 2 ^ (128 * Z.of_nat 0)) with v by lia.
              unfold bgoto. cbn [bprog bret bpos Nat.add].
              assert (NR : nr = 1%nat) by (unfold nr, ldp; rewrite HX; reflexivity). rewrite <- NR.
              apply casp_loaded; [|exact Hv|now apply put_lo|apply put_hi].
              unfold put. apply FR; auto.
            * exists (piece (be g) (h_up_first h)). eexists.
              split; [unfold prs, half_order; rewrite HX; destruct (h_up_first h); reflexivity|]. split.
              { unfold bnext, P, ldp. rewrite HX. instantiate (1 := fun v => mk_bconf P 1 (set1 s (if h_up_first h then hi else lo) v) rt).
                unfold pk, P, ldp. rewrite HX.
                destruct (h_up_first h); cbn [bprog bpos bst bret nth_error app access]; rewrite (FD s Fs); reflexivity. }
              intros v Hv. cbv zeta. unfold prs, pk in *. rewrite HX in *.
              assert (LN : Nat.eqb 1 (length (half_order (be g) (h_up_first h))) = false) by (unfold half_order; destruct (h_up_first h); reflexivity).
              rewrite LN. eexists. split; [constructor|]. right. unfold S2. split; [auto|]. split; [auto|].
              eexists. exists v. split; [|split; [exact Hv|split; [reflexivity|split; [|lia]]]].
              { apply FR; auto. destruct (h_up_first h); auto. }
              { rewrite set1_rg. destruct (h_up_first h); [destruct hi|destruct lo]; reflexivity. }
          + exists (piece (be g) (negb (h_up_first h))). eexists.
            split; [unfold prs, half_order; rewrite HS; destruct (h_up_first h); reflexivity|]. split.
            { unfold bnext, P, ldp. rewrite HS. instantiate (1 := fun v => mk_bconf P 2 (set1 s (if h_up_first h then lo else hi) v) rt).
              unfold pk, P, ldp. rewrite HS.
              destruct (h_up_first h); cbn [bprog bpos bst bret nth_error app access negb]; rewrite (FD s Fs); reflexivity. }
            intros w Hw. cbv zeta. unfold prs, pk in *. rewrite HS in *.
            assert (LN : Nat.eqb 2 (length (half_order (be g) (h_up_first h))) = true) by (unfold half_order; destruct (h_up_first h); reflexivity).
            rewrite LN.
            assert (NR : nr = 2%nat) by (unfold nr, ldp; rewrite HS; destruct (h_up_first h); reflexivity). rewrite <- NR.
            destruct (h_up_first h); cbn [negb].
            * destruct (acc_lo (be g) w v Hw Uv) as (U & A1 & A2).
              rewrite Z.add_comm. apply casp_loaded; auto.
              -- rewrite A1, set1_rg. destruct lo; reflexivity.
              -- rewrite A2. cbn [set1 rg]. rewrite setr_other by congruence. exact E.
            * destruct (acc_lo (be g) v w Uv Hw) as (U & A1 & A2).
              apply casp_loaded; auto.
              -- rewrite A1. cbn [set1 rg]. rewrite setr_other by congruence. exact E.
              -- rewrite A2, set1_rg. destruct hi; reflexivity.
        - intros x c (s & -> & Ux & Fs & J & E1 & E2 & E3 & E4).
          assert (N0 : nth_error P (nr + np) = Some (BM (CASP acq rel lo hi nl nh Dst))).
          { apply (nth_at (ldp h lo hi ++ BIm bd) _ (BIm [CMP TmpHi hi; CCMP0 TmpLo lo Eq] ++ [BJ BNE nr])); [unfold P; assoc|subst nr np; len]. }
          assert (NJ : nth_error P (3 + (nr + np)) = Some (BJ BNE nr)).
          { apply (nth_at (ldp h lo hi ++ BIm bd ++ [BM (CASP acq rel lo hi nl nh Dst)] ++ BIm [CMP TmpHi hi; CCMP0 TmpLo lo Eq]) _ []); [unfold P; assoc|subst nr np; len]. }
          do 2 eexists. split.
          { unfold bnext. cbn [bprog bpos bst bret]. rewrite N0. cbn [access]. rewrite HL.
            rewrite (pair_lo (be g) lo hi s x Ux NX1 NX2 E1 E2), J, (FD s Fs). reflexivity. }
          intros sp y Hy. apply inr_u128 in Hy. unfold bgoto. cbn [fst snd bprog bret bpos].
          set (s1 := put (be g) lo hi y s).
          assert (G1 : rg s1 lo = addr_lo (be g) y) by now apply put_lo.
          assert (G2 : rg s1 hi = addr_hi (be g) y) by apply put_hi.
          assert (G3 : rg s1 TmpLo = addr_lo (be g) x) by (unfold s1; rewrite put_other by auto; exact E3).
          assert (G4 : rg s1 TmpHi = addr_hi (be g) x) by (unfold s1; rewrite put_other by auto; exact E4).
          destruct (casp_cmp s1 x y Ux Hy G3 G4 G1 G2) as [GZ GK]. cbv zeta in GZ, GK.
          set (s2 := bexec exec1 [CMP TmpHi hi; CCMP0 TmpLo lo Eq] s1) in *.
          assert (F2 : F s2). { apply FC with s1; auto. unfold s1, put. apply FR; auto. }
          assert (LS : lstar nx (mk_bconf P (1 + (nr + np)) s1 rt) (mk_bconf P (3 + (nr + np)) s2 rt)).
          { apply (rb (ldp h lo hi ++ BIm bd ++ [BM (CASP acq rel lo hi nl nh Dst)]) [CMP TmpHi hi; CCMP0 TmpLo lo Eq] [BJ BNE nr]).
            { subst nr np; len. } { cbn [length]. lia. } { unfold P. assoc. } }
          destruct (Z.eqb_spec y x) as [->|NE].
          + left. split; [reflexivity|]. split; [reflexivity|]. split; [apply inr_u128; auto|].
            exists (mk_bconf P (4 + (nr + np)) s2 rt). split.
            * eapply ls_trans; [exact LS|]. eapply ls_one. unfold bnext. cbn [bprog bpos bst bret]. rewrite NJ. cbn [test].
              rewrite GZ, Z.eqb_refl. reflexivity.
            * unfold bnext. cbn [bprog bpos bst bret]. rewrite (proj2 (nth_error_None P _)) by (unfold P; subst nr np; len).
              f_equal. apply Hrt; auto; now rewrite GK.
          + right. split; [auto|]. split; [reflexivity|].
            assert (GZ' : fZ s2 = false) by (rewrite GZ; apply Z.eqb_neq; congruence).
            destruct (casp_loaded s2 y F2 Hy) as (c2 & L2 & T2); [now rewrite GK|now rewrite GK|].
            exists c2. split; [|exact T2]. eapply ls_trans; [exact LS|]. eapply ls_step; [|exact L2].
            unfold bnext. cbn [bprog bpos bst bret]. rewrite NJ. cbn [test]. rewrite GZ'. reflexivity.
      Qed.
    End Casp.
  End One.
End Arm.
