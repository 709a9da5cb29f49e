(** aarch64 blocks on real registers. *)
From Coq Require Import ZArith List Bool Lia PeanoNat.
From Verif Require Import Words Spec WideSpec Halves LoopModel AsmModel BlockModel BlockClobber OrderingModel RegModel RegProofs Aarch64Model RegAarch64Model.
Import ListNotations.
Open Scope Z_scope.

Definition ri (i : instr) : list reg :=
  match i with
  | ADDS _ a b | ADC _ a b | SUBS _ a b | SBC _ a b | SBCS _ a b | CMP a b | CCMP0 a b _ | AND _ a b | ORR _ a b | EOR _ a b
  | CSEL _ a b _ => [a; b]
  | NEGS _ a | NGC _ a | MVN _ a | MOV _ a => [a]
  | DMB _ => []
  end.
Definition rj (j : jump) : list reg := match j with CBNZ r => [r] | BNE => [] end.
Definition rm (m : minstr) : list reg :=
  match m with
  | LDP _ _ b | LDP64 _ _ b | LDIAPP _ _ b | LDAR _ b | LDXP _ _ _ b | LDXP64 _ _ _ _ b => [b]
  | STP lo hi b | STILP lo hi b | STXP _ _ lo hi b | SWPP _ _ lo hi b | LDCLRP _ _ lo hi b | LDSETP _ _ lo hi b => [lo; hi; b]
  | CASP _ _ slo shi tlo thi b => [slo; shi; tlo; thi; b]
  end.
Definition real (r : reg) : Prop := r <> Xzr.
Definition realb (r : reg) : bool := negb (reg_eqb r Xzr).

Lemma reg_eqb_eq a b : reg_eqb a b = true <-> a = b.
Proof. split; [|intros ->; now destruct b]. destruct a, b; try discriminate; reflexivity. Qed.
Lemma realb_real r : realb r = true <-> real r.
Proof. unfold realb, real. rewrite negb_true_iff. destruct r; split; try discriminate; try reflexivity; intros H; now destruct H. Qed.
Lemma setr_same f r v : setr f r v r = v.
Proof. unfold setr. now rewrite (proj2 (reg_eqb_eq r r) eq_refl). Qed.
Lemma setr_other f r v q : q <> r -> setr f r v q = f q.
Proof. intros N. unfold setr. destruct (reg_eqb q r) eqn:E; [apply reg_eqb_eq in E; contradiction|reflexivity]. Qed.
Lemma setr_cong f f' r v v' q : v = v' -> (q <> r -> f q = f' q) -> setr f r v q = setr f' r v' q.
Proof. intros -> H. unfold setr. destruct (reg_eqb q r) eqn:E; [reflexivity|]. apply H. intros ->. rewrite (proj2 (reg_eqb_eq r r) eq_refl) in E. discriminate. Qed.
Lemma in_regs r l : In r (regs l) -> In r l.
Proof. intros H. now apply filter_In in H. Qed.
Lemma not_in_regs r l : real r -> ~ In r (regs l) -> ~ In r l.
Proof. intros R H X. apply H, filter_In. split; [exact X|]. now apply realb_real. Qed.

Lemma some_inj {T} (x y : T) : Some x = Some y -> x = y.
Proof. congruence. Qed.

Section Isa.
  Variables (big : bool) (h : hw).
  Local Notation A := (aarch64_isa big h).
  Lemma flags_inv s1 s2 : flags_eq A s1 s2 -> fN s1 = fN s2 /\ fZ s1 = fZ s2 /\ fC s1 = fC s2 /\ fV s1 = fV s2.
  Proof. intros H. specialize (H (fun _ => 0)). cbn in H. injection H. auto. Qed.
  Lemma flags_mk s1 s2 : fN s1 = fN s2 -> fZ s1 = fZ s2 -> fC s1 = fC s2 -> fV s1 = fV s2 -> flags_eq A s1 s2.
  Proof. intros H0 H1 H2 H3 f. cbn. congruence. Qed.
  Lemma post_set s1 s2 d v w n z c o : v = w ->
    post A (regs [d]) (mk_st (setr (rg s1) d v) n z c o) (mk_st (setr (rg s2) d w) n z c o).
  Proof.
    intros ->. split; [now apply flags_mk|]. intros r Hr. apply in_regs in Hr as [<-|[]].
    change (setr (rg s1) d w d = setr (rg s2) d w d). now rewrite !setr_same.
  Qed.
  Lemma post_put lo hi v s1 s2 : flags_eq A s1 s2 -> post A (regs [lo; hi]) (put big lo hi v s1) (put big lo hi v s2).
  Proof.
    intros FE. apply flags_inv in FE as (E0 & E1 & E2 & E3). split; [now apply flags_mk|].
    intros r Hr. apply in_regs in Hr. apply (setr_cong (setr (rg s1) lo _) (setr (rg s2) lo _)); [reflexivity|].
    intros N. destruct Hr as [<-|[<-|[]]]; [|contradiction]. now rewrite !setr_same.
  Qed.
  Lemma keep_put lo hi v s : keeps A real (regs [lo; hi]) s (put big lo hi v s).
  Proof.
    intros r R N. apply not_in_regs in N; [|exact R]. change (setr (setr (rg s) lo (addr_lo big v)) hi (addr_hi big v) r = rg s r).
    rewrite !setr_other; auto; intros ->; apply N; cbn; auto.
  Qed.
  Lemma keep_set d v s : keeps A real (regs [d]) s (set1 s d v).
  Proof.
    intros r R N. apply not_in_regs in N; [|exact R]. change (setr (rg s) d v r = rg s r).
    apply setr_other. intros ->. apply N. now left.
  Qed.
  Lemma aarch64_faithful : faithful A ri rj rm real.
  Proof.
    split.
    - exact reg_eqb_eq.
    - reflexivity.
    - reflexivity.
    - intros i s1 s2 FE AG. apply flags_inv in FE as (E0 & E1 & E2 & E3).
      assert (AG' : forall r, In r (ri i) -> rd s1 r = rd s2 r)
        by (intros r X; unfold rd; destruct r; try reflexivity; apply AG; auto; discriminate). clear AG.
      assert (HO : forall c, holds c s1 = holds c s2) by (intros []; unfold holds; now rewrite ?E0, ?E1, ?E2, ?E3).
      destruct i; cbn [ri In] in AG'; unfold exec, aarch64_isa, writes_i; cbv beta iota;
        unfold exec1, awc, set1; cbv zeta; cbn [rg fN fZ fC fV]; cbv iota; rewrite ?E0, ?E1, ?E2, ?E3, ?HO; try rewrite (AG' a) by auto; try rewrite (AG' b) by auto;
        first [now apply post_set | idtac].
      + destruct (holds c s2); (split; [now apply flags_mk|intros r []]).
      + split; [now apply flags_mk|intros r []].
    - intros i s r R N.
      assert (MK : forall d v n z c o, ~ In r (regs [d]) -> rg (mk_st (setr (rg s) d v) n z c o) r = rg s r)
        by (intros d v n z c o X; apply not_in_regs in X; [|exact R]; cbn [rg]; apply setr_other; intros ->; apply X; now left).
      assert (MX : forall v n z c o, rg (mk_st (setr (rg s) Xzr v) n z c o) r = rg s r)
        by (intros v n z c o; cbn [rg]; now apply setr_other).
      change (rg (exec1 i s) r = rg s r).
      destruct i; unfold aarch64_isa, writes_i in N; cbv beta iota in N; unfold exec1, awc, set1; cbv zeta; try reflexivity;
        try (apply MK; exact N); try apply MX.
      destruct (holds c s); [apply MX|reflexivity].
    - intros j s1 s2 FE AG. apply flags_inv in FE as (E0 & E1 & E2 & E3). change (test j s1 = test j s2).
      assert (AG' : forall r, In r (rj j) -> rd s1 r = rd s2 r)
        by (intros r X; unfold rd; destruct r; try reflexivity; apply AG; auto; discriminate). clear AG.
      destruct j; unfold test; [now rewrite AG' by (now left)|now rewrite E1].
    - intros m s1 s2 FE AG. pose proof (flags_inv _ _ FE) as (E0 & E1 & E2 & E3).
      assert (AG' : forall r, In r (rm m) -> rd s1 r = rd s2 r)
        by (intros r X; unfold rd; destruct r; try reflexivity; apply AG; auto; discriminate). clear AG.
      assert (PR : forall lo hi, In lo (rm m) -> In hi (rm m) -> pair big lo hi s1 = pair big lo hi s2)
        by (intros lo hi X Y; unfold pair; now rewrite (AG' lo X), (AG' hi Y)).
      assert (PS : forall d v, post A (regs [d]) (set1 s1 d v) (set1 s2 d v))
        by (intros d v; unfold set1; rewrite E0, E1, E2, E3; now apply post_set).
      assert (SM : post A [] s1 s2) by (split; [exact FE|intros r []]).
      unfold acc, aarch64_isa, writes_m; cbv beta iota. destruct m; cbn [rm In] in AG', PR; unfold access; cbv zeta.
      + destruct (h_lse2 h); [|exact Logic.I]. cbn [act_rel]. rewrite (AG' b) by auto.
        refine (conj eq_refl (conj eq_refl (conj eq_refl _))). intros v. now apply post_put.
      + cbn [act_rel]. rewrite (AG' b) by auto. refine (conj eq_refl (conj eq_refl (conj eq_refl _))). intros v. apply PS.
      + destruct (h_rcpc3 h && h_lse2 h); [|exact Logic.I]. cbn [act_rel]. rewrite (AG' b) by auto.
        refine (conj eq_refl (conj eq_refl (conj eq_refl _))). intros v. now apply post_put.
      + cbn [act_rel]. rewrite (AG' b) by auto. refine (conj eq_refl (conj eq_refl (conj eq_refl _))). intros v. apply PS.
      + destruct (h_lse2 h); [|exact Logic.I]. cbn [act_rel]. rewrite (AG' b), (PR lo hi) by auto.
        refine (conj eq_refl (conj (fun _ _ => eq_refl) _)). intros v. exact SM.
      + destruct (h_rcpc3 h && h_lse2 h); [|exact Logic.I]. cbn [act_rel]. rewrite (AG' b), (PR lo hi) by auto.
        refine (conj eq_refl (conj (fun _ _ => eq_refl) _)). intros v. exact SM.
      + destruct (h_xp_single h); [|exact Logic.I]. cbn [act_rel]. rewrite (AG' b) by auto.
        refine (conj eq_refl (conj eq_refl (conj eq_refl (conj eq_refl _)))). intros v. now apply post_put.
      + cbn [act_rel]. rewrite (AG' b) by auto. refine (conj eq_refl (conj eq_refl (conj eq_refl (conj eq_refl _)))). intros v. apply PS.
      + cbn [act_rel]. rewrite (AG' b), (PR lo hi) by auto. refine (conj eq_refl (conj eq_refl _)). intros v. apply PS.
      + destruct (h_lse h); [|exact Logic.I]. cbn [act_rel]. rewrite (AG' b), (PR slo shi), (PR tlo thi) by auto 8.
        refine (conj eq_refl (conj (fun _ _ => eq_refl) _)). intros v. now apply post_put.
      + destruct (h_lse128 h); [|exact Logic.I]. cbn [act_rel]. rewrite (AG' b), (PR lo hi) by auto.
        refine (conj eq_refl (conj (fun _ _ => eq_refl) _)). intros v. now apply post_put.
      + destruct (h_lse128 h); [|exact Logic.I]. cbn [act_rel]. rewrite (AG' b), (PR lo hi) by auto.
        refine (conj eq_refl (conj (fun _ _ => eq_refl) _)). intros v. now apply post_put.
      + destruct (h_lse128 h); [|exact Logic.I]. cbn [act_rel]. rewrite (AG' b), (PR lo hi) by auto.
        refine (conj eq_refl (conj (fun _ _ => eq_refl) _)). intros v. now apply post_put.
    - intros m s. assert (SM : keeps A real [] s s) by (intros r _ _; reflexivity).
      unfold acc, aarch64_isa, writes_m; cbv beta iota. destruct m; unfold access; cbv zeta;
        try (destruct (h_lse2 h)); try (destruct (h_rcpc3 h)); try (destruct (h_xp_single h)); try (destruct (h_lse h)); try (destruct (h_lse128 h));
        cbn [andb acc_keeps]; try exact Logic.I; intros v; first [apply keep_put | apply keep_set | exact SM].
  Qed.
End Isa.

(** ** Each block goes with its operands *)
Section Blocks.
  Variables (g : target) (h : hw) (t : ity) (old : bool).
  Local Notation A := (aarch64_isa (be g) h).
  Local Notation conf := (bconf instr jump minstr st res).
  Definition good (b : block) (s : st) (k : conf) : Prop :=
    let ops := operands old b in
    check A ri rj rm ops realb (bprog k) = true /\
    (forall s1 s2, agree A (filter (output A ops) (map fst ops)) s1 s2 -> bret k s1 = bret k s2) /\
    flags_eq A (bst k) s /\
    forall r p, In (r, p) ops -> is_input p = false -> rg (bst k) r = rg s r.
  Lemma agree_mem ops s1 s2 : agree A (filter (output A ops) (map fst ops)) s1 s2 ->
    forall r, mem A r (filter (output A ops) (map fst ops)) = true -> rg s1 r = rg s2 r.
  Proof. intros AG r H. apply AG. now apply (mem_in _ _ _ _ _ (aarch64_faithful (be g) h)). Qed.
  Lemma pair_same lo hi s1 s2 : rg s1 lo = rg s2 lo -> rg s1 hi = rg s2 hi -> pair (be g) lo hi s1 = pair (be g) lo hi s2.
  Proof.
    intros E1 E2. assert (R : forall r, rg s1 r = rg s2 r -> rd s1 r = rd s2 r) by (intros []; auto).
    unfold pair. now rewrite !R by assumption.
  Qed.
  Lemma sfx_cases ord w : exists acq rel f, rmw_sfx g ord w = (acq, rel, f) /\ (f = [] \/ f = [DMB Ish]).
  Proof.
    destruct ord; cbn [rmw_sfx]; do 3 eexists; (split; [reflexivity|]); auto.
    destruct (msvc g && _); auto.
  Qed.
  Ltac rets := let s1 := fresh "s1" in let s2 := fresh "s2" in let AG := fresh "AG" in intros s1 s2 AG; cbn [bret]; unfold ret, cas_ret;
    first [match goal with |- context [pair _ ?lo ?hi s1] =>
      rewrite (pair_same lo hi s1 s2 (agree_mem _ _ _ AG lo eq_refl) (agree_mem _ _ _ AG hi eq_refl)) end; reflexivity | reflexivity].
  Ltac entries := cbn [bst]; let H := fresh in intros ? ? H;
    repeat (destruct H as [H|H]; [injection H as <- <-; intros; try discriminate; reflexivity|]); destruct H.
  Ltac fin := try unfold good; cbv zeta; refine (conj _ (conj _ (conj _ _)));
    [ cbn [bprog]; vm_compute; reflexivity | rets | cbn [bst]; apply flags_mk; reflexivity | entries ].
  Ltac opn := unfold ldp, ldxp; destruct h as [h1 h2 h3 h4 h5 h6]; cbn [h_lse h_lse2 h_lse128 h_rcpc3 h_xp_single h_up_first] in *.

  Lemma good_ldiapp ord s k : load_ldiapp g t ord s = Some k -> good (B_load_ldiapp (is_sc ord)) s k.
  Proof. destruct ord; cbn [load_ldiapp]; intros E; try discriminate; injection E as <-; unfold good; destruct old; fin. Qed.
  Lemma good_ldp ord s k : h_lse2 h = true -> load_ldp g h t ord s = Some k -> good (which_ldp g ord) s k.
  Proof.
    intros H. unfold load_ldp, which_ldp, ldp. rewrite H. destruct ord; try discriminate.
    - intros E. injection E as <-. fin.
    - destruct (c_rcpc3 g); [apply good_ldiapp|]. intros E. injection E as <-. fin.
    - destruct (c_rcpc3 g); [apply good_ldiapp|]. intros E. injection E as <-. fin.
  Qed.
  Lemma good_load_casp ord s k : load_casp g t ord s = Some k -> good B_load_casp s k.
  Proof. unfold load_casp. destruct (load_sfx ord) as [[acq rel]|]; [|discriminate]. intros E. injection E as <-. fin. Qed.
  Lemma good_load_ll ord s k : load_ldxp_stxp g h t ord s = Some k -> good B_load_ldxp_stxp s k.
  Proof.
    unfold load_ldxp_stxp. destruct (load_sfx ord) as [[acq rel]|]; [|discriminate]. intros E. injection E as <-.
    unfold ldxp. destruct (h_xp_single h); [|destruct (h_up_first h)]; fin.
  Qed.
  Lemma good_swpp v u ord s k : swap_swpp g t v u ord s = Some k -> good B_swap_swpp s k.
  Proof.
    unfold swap_swpp. destruct (sfx_cases ord ord) as (acq & rel & f & -> & _). intros E. injection E as <-.
    unfold good; destruct u, old; fin.
  Qed.
  Lemma good_swap_casp v u ord s k : swap_casp g h t v u ord s = Some k -> good B_swap_casp s k.
  Proof.
    unfold swap_casp. destruct (sfx_cases ord ord) as (acq & rel & f & -> & _). intros E. injection E as <-.
    unfold ldp. destruct (h_lse2 h); [|destruct (h_up_first h)]; destruct u; fin.
  Qed.
  Lemma good_swap_ll v u ord s k : swap_ldxp_stxp g h t v u ord s = Some k -> good B_swap_ldxp_stxp s k.
  Proof.
    unfold swap_ldxp_stxp. destruct (sfx_cases ord ord) as (acq & rel & f & -> & [->| ->]); intros E; injection E as <-;
    unfold ldxp; (destruct (h_xp_single h); [|destruct (h_up_first h)]); destruct u; fin.
  Qed.
  Lemma good_stilp v ord s k : store_stilp g v ord s = Some k -> good B_store_stilp s k.
  Proof. destruct ord; cbn [store_stilp]; intros E; try discriminate; injection E as <-; unfold good; destruct old; fin. Qed.
  Lemma good_stp v ord s k : store_stp g t v ord s = Some k -> good (which_stp g ord) s k.
  Proof.
    unfold store_stp, which_stp. destruct ord; try discriminate.
    - intros E. injection E as <-. fin.
    - destruct (c_rcpc3 g); [apply good_stilp|]. destruct (c_lse128 g); [apply good_swpp|]. intros E. injection E as <-. fin.
    - destruct (c_lse128 g); [apply good_swpp|]. destruct (c_rcpc3 g); [apply good_stilp|]. intros E. injection E as <-. fin.
  Qed.
  Lemma good_store_ll v ord s k : store_ldxp_stxp g h v ord s = Some k -> good B_store_ldxp_stxp s k.
  Proof.
    unfold store_ldxp_stxp. destruct (sfx_cases ord ord) as (acq & rel & f & -> & [->| ->]); intros E; injection E as <-;
    unfold ldxp; (destruct (h_xp_single h); [|destruct (h_up_first h)]); fin.
  Qed.
  Lemma good_cas_casp o n sc fl s k : cas_casp g t o n sc fl s = Some k -> good B_cas_casp s k.
  Proof.
    unfold cas_casp. destruct (sfx_cases (upgrade_success_ordering sc fl) sc) as (acq & rel & f & -> & _). intros E. injection E as <-. fin.
  Qed.
  Lemma good_cas_ll o n sc fl s k : cas_ldxp_stxp g h t o n sc fl s = Some k -> good B_cas_ldxp_stxp s k.
  Proof.
    unfold cas_ldxp_stxp. destruct (sfx_cases (upgrade_success_ordering sc fl) sc) as (acq & rel & f & -> & [->| ->]); intros E; injection E as <-;
    unfold ldxp; (destruct (h_xp_single h); [|destruct (h_up_first h)]); fin.
  Qed.
  Lemma good_ldclrp v ord s k : and_ldclrp g t v ord s = Some k -> good B_ldclrp s k.
  Proof. unfold and_ldclrp. destruct (sfx_cases ord ord) as (acq & rel & f & -> & _). intros E. apply some_inj in E. subst k. unfold good; destruct old; fin. Qed.
  Lemma good_ldsetp v ord s k : or_ldsetp g t v ord s = Some k -> good B_ldsetp s k.
  Proof. unfold or_ldsetp. destruct (sfx_cases ord ord) as (acq & rel & f & -> & _). intros E. injection E as <-. unfold good; destruct old; fin. Qed.
  Definition args (r : rmw) : block * block := match r with Not | Neg => (B_rmw_cas_2, B_rmw_ll_2) | _ => (B_rmw_cas_3, B_rmw_ll_3) end.
  Lemma good_rmw_ll r p ord s k : body_ll g t r = Some p -> rmw_ll_sc g h t r p ord s = Some k -> good (snd (args r)) s k.
  Proof.
    unfold rmw_ll_sc. destruct (sfx_cases ord ord) as (acq & rel & f & -> & [->| ->]); intros B E; injection E as <-;
      unfold body_ll, maxmin_ll, le_or_be in B; destruct r; try discriminate; injection B as <-;
      (destruct (be g) eqn:BE); try (destruct (isigned t));
      unfold ldxp; (destruct (h_xp_single h); [|destruct (h_up_first h)]); cbn [args snd]; fin.
  Qed.
  Lemma good_rmw_casp r p ord s k : body_cas g t r = Some p -> rmw_casp g h t r p ord s = Some k -> good (fst (args r)) s k.
  Proof.
    unfold rmw_casp. destruct (sfx_cases ord ord) as (acq & rel & f & -> & _); intros B E; injection E as <-;
      unfold body_cas, maxmin_cas, le_or_be in B; destruct r; try discriminate; injection B as <-;
      (destruct (be g) eqn:BE); try (destruct (isigned t));
      unfold ldp; (destruct (h_lse2 h); [|destruct (h_up_first h)]); cbn [args fst]; fin.
  Qed.

  Hypothesis SO : sound g h.
  Lemma good_load ord s k : atomic_load g h t ord s = Some k -> good (which_load g ord) s k.
  Proof.
    destruct SO as (_ & S2 & _ & _ & _ & D2 & _). unfold atomic_load, which_load, load_no_lse2, which_no_lse2.
    assert (N : (if c_lse g then load_casp g t ord s else load_ldxp_stxp g h t ord s) = Some k ->
                good (if c_lse g then B_load_casp else B_load_ldxp_stxp) s k)
      by (destruct (c_lse g); [apply good_load_casp|apply good_load_ll]).
    destruct (c_lse2 g); [apply good_ldp; auto|]. destruct (det_lse2 g); [|exact N]. cbn [andb].
    destruct (d_lse2 g).
    - destruct ord; try discriminate.
      + apply good_ldp; auto.
      + destruct (negb (c_rcpc3 g) && d_rcpc3 g); [apply good_ldiapp|apply good_ldp; auto].
      + destruct (negb (c_rcpc3 g) && d_rcpc3 g); [apply good_ldiapp|apply good_ldp; auto].
    - destruct ord; try discriminate; exact N.
  Qed.
  Lemma good_store v ord s k : atomic_store g h t v ord s = Some k -> good (which_store g ord) s k.
  Proof.
    unfold atomic_store, which_store, store_no_lse2.
    assert (N : (if c_lse g && negb (ll_sc_rmw g) then swap_casp g h t v true ord s else store_ldxp_stxp g h v ord s) = Some k ->
                good (if c_lse g && negb (ll_sc_rmw g) then B_swap_casp else B_store_ldxp_stxp) s k)
      by (destruct (c_lse g && _); [apply good_swap_casp|apply good_store_ll]).
    destruct (c_lse2 g); [apply good_stp|]. destruct (det_lse2 g); [|exact N]. cbn [andb].
    destruct (d_lse2 g).
    - destruct ord; try discriminate.
      + apply good_stp.
      + destruct (negb (c_rcpc3 g) && d_rcpc3 g); [apply good_stilp|].
        destruct (negb (c_rcpc3 g) && negb (c_lse128 g) && d_lse128 g); [apply good_swpp|apply good_stp].
      + destruct (negb (c_lse128 g) && d_lse128 g); [apply good_swpp|].
        destruct (negb (c_lse128 g) && negb (c_rcpc3 g) && d_rcpc3 g); [apply good_stilp|apply good_stp].
    - destruct ord; try discriminate; exact N.
  Qed.
  Lemma good_cas o n sc fl s k : atomic_compare_exchange g h t o n sc fl s = Some k ->
    good (if c_lse g || det_lse g && d_lse g then B_cas_casp else B_cas_ldxp_stxp) s k.
  Proof.
    unfold atomic_compare_exchange. destruct (c_lse g); [apply good_cas_casp|]. cbn [orb].
    destruct (det_lse g); [|apply good_cas_ll]. cbn [andb].
    destruct (upgrade_success_ordering sc fl), (d_lse g); try apply good_cas_casp; try apply good_cas_ll.
    destruct (msvc g); apply good_cas_ll.
  Qed.
  Lemma good_rmw r ord s k : atomic_rmw g h t r ord s = Some k -> good (which_rmw g r) s k.
  Proof.
    assert (N : rmw_loop g h t r ord s = Some k -> good (if c_lse g && negb (ll_sc_rmw g) then fst (args r) else snd (args r)) s k).
    { unfold rmw_loop. destruct (c_lse g && _).
      - destruct (body_cas g t r) as [p|] eqn:B; [|discriminate]. now apply good_rmw_casp.
      - destruct (body_ll g t r) as [p|] eqn:B; [|discriminate]. now apply good_rmw_ll. }
    unfold atomic_rmw, which_rmw; cbv zeta. destruct r; cbn [args fst snd] in N; try exact N.
    - unfold atomic_swap. destruct (c_lse128 g); [apply good_swpp|]. destruct (c_lse g && _); [apply good_swap_casp|apply good_swap_ll].
    - destruct (c_lse128 g); [apply good_ldclrp|exact N].
    - destruct (c_lse128 g); [apply good_ldsetp|exact N].
  Qed.
End Blocks.
Lemma aarch64_good g h old ty junk a o k : sound g h -> code_of g h ty junk a o = Some k ->
  good g h old (which g o) (set1 (junk a o) Dst a) k.
Proof.
  intros SO. unfold code_of. destruct (negb _); [discriminate|].
  destruct o as [[ord|v ord|r ord|c n sc fl]|c n sc fl]; unfold which.
  - now apply good_load.
  - now apply good_store.
  - now apply good_rmw.
  - apply good_cas.
  - apply good_cas.
Qed.
Lemma dst_input old b p : In (Dst, p) (operands old b) -> is_input p = true.
Proof.
  intros H. destruct b; cbn -[Nat.ltb] in H; try destruct sc; try destruct old; cbn -[Nat.ltb] in H;
    repeat (destruct H as [H|H]; [first [discriminate H | injection H as <-; reflexivity]|]); destruct H.
Qed.
Lemma aarch64_entry g h old ty junk a o k : sound g h -> code_of g h ty junk a o = Some k ->
  flags_eq (aarch64_isa (be g) h) (bst k) (junk a o) /\
  forall r p, In (r, p) (operands old (which g o)) -> is_input p = false -> rg (bst k) r = rg (junk a o) r.
Proof.
  intros SO E. destruct (aarch64_good g h old ty junk a o k SO E) as (_ & _ & FE & NI). split.
  - intros f. rewrite FE. reflexivity.
  - intros r p H I1. rewrite (NI r p H I1). apply setr_other. intros ->. rewrite (dst_input _ _ _ H) in I1. discriminate.
Qed.
