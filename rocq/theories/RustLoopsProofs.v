(** The Rust-level retry loops (Zacas, kuser helper, core) refine the abstract loops. *)
From Coq Require Import ZArith List Bool Lia PeanoNat.
From Verif Require Import Words Spec WideSpec WordsFacts LoopModel LoopProofs AsmModel AsmProofs BlockProofs AtomicImpls
  AtomicImplsProofs AsmMain RustOps RustOpsProofs KuserModel FallbackModel FallbackFacts CoreModel ZacasModel.
Import ListNotations.
Open Scope Z_scope.

Lemma cast_in t x : 0 <= x < 2 ^ ibits t -> cast t x = of_bits t x.
Proof. intros H. unfold cast, to_bits. now rewrite Z.mod_small. Qed.

Lemma halves_join w x : 0 <= w -> x mod 2 ^ w + 2 ^ w * (x / 2 ^ w) = x.
Proof. intros H. rewrite Z.add_comm. symmetry. apply Z.div_mod. apply Z.pow_nonzero; lia. Qed.
Lemma join_range w l h : 0 <= w -> 0 <= l < 2 ^ w -> 0 <= h < 2 ^ w -> 0 <= l + 2 ^ w * h < 2 ^ (2 * w).
Proof. intros W L H. replace (2 * w) with (w + w) by lia. rewrite Z.pow_add_r by lia. nia. Qed.

(** ** Zacas *)
Section ZacasProofs.
  Variable w : Z.
  Hypothesis w0 : 0 < w.
  Variable ty : Z -> ity.
  Local Notation width := (fun a => ibits (ty a)).

  Lemma amocas_access_eq old new x :
    amocas_access w (lo w old) (hi w old) (lo w new) (hi w new) x =
    if x =? old then (Some new, (x, true)) else (None, (x, true)).
  Proof.
    unfold amocas_access, amocas, whole_of, lo, hi. rewrite !halves_join by lia.
    destruct (Z.eqb_spec x old) as [->|]; rewrite ?halves_join by lia; reflexivity.
  Qed.

  Lemma z_loop_refines a (o : wop) f fin nxt ok : ibits (ty a) = 2 * w ->
    (forall g, 0 <= g < 2 ^ ibits (ty a) -> closure (2 * w) f g = nxt g /\ 0 <= nxt g < 2 ^ ibits (ty a) /\ fin g = ok g) ->
    refines (Op := wop) (znext w) width a o (ZReadLo a f fin)
      (CasLoop w [0%nat; 1%nat] false (fun _ g => Some (nxt g)) ok ok).
  Proof.
    intros W H.
    apply casloop_refines with
      (AtRd := fun n acc c => (n = 0%nat /\ acc = 0 /\ c = ZReadLo a f fin) \/
                              (n = 1%nat /\ 0 <= acc < 2 ^ w /\ c = ZReadHi a f fin acc))
      (AtTry := fun g c => 0 <= g < 2 ^ ibits (ty a) /\ c = ZLoop a f fin g).
    - lia.
    - eexists. split; [constructor|]. left. auto.
    - intros n acc c [(-> & -> & ->)|(-> & A & ->)].
      + exists 0%nat, (fun l => ZReadHi a f fin l). split; [reflexivity|]. split; [reflexivity|]. intros v V.
        cbn [Nat.eqb length]. eexists. split; [constructor|]. right. split; [reflexivity|].
        rewrite Z.mul_0_r, Z.pow_0_r, Z.mul_1_r, Z.add_0_l. auto.
      + exists 1%nat, (fun h => ZLoop a f fin (whole_of w acc h)). split; [reflexivity|]. split; [reflexivity|]. intros v V.
        cbn [Nat.eqb length]. eexists. split; [constructor|]. replace (w * Z.of_nat 1) with w by lia.
        replace (acc + v * 2 ^ w) with (acc + 2 ^ w * v) by lia.
        split; [rewrite W; apply join_range; lia|reflexivity].
    - intros g c (G & ->). destruct (H g G) as (H1 & H2 & H3). eexists _, _. split; [reflexivity|].
      intros sp x X. cbv beta. rewrite H1, amocas_access_eq.
      destruct (Z.eqb_spec x g) as [->|N]; cbn [fst snd].
      + left. split; [reflexivity|]. split; [reflexivity|]. split; [exact H2|]. rewrite Z.eqb_refl.
        eexists. split; [constructor|]. cbn. now rewrite H3.
      + right. split; [auto|]. split; [reflexivity|]. rewrite (proj2 (Z.eqb_neq x g)) by exact N.
        eexists. split; [constructor|]. split; [exact X|reflexivity].
  Qed.

  Definition z_impl (a : Z) (o : wop) : option (impl res) :=
    let t := ty a in
    if negb ((ibits t =? 2 * w) && callable t o) then None else
    Some match o with
    | WOp (OLoad _) => d_load_cas t
    | WOp (OStore v _) => c_store t w [0%nat; 1%nat] false v
    | WOp (ORmw r _) => c_rmw t w [0%nat; 1%nat] false r
    | WOp (OCas c n _ _) | WCasWeak c n _ _ => d_cas t c n
    end.

  Lemma z_refines a o c : z_code_of w ty a o = Some c ->
    exists i, z_impl a o = Some i /\ refines (znext w) width a o c i.
  Proof.
    unfold z_code_of, z_impl. destruct ((ibits (ty a) =? 2 * w) && callable (ty a) o) eqn:EC; cbn [negb]; [|discriminate].
    apply andb_true_iff in EC as [E1 E2]. apply Z.eqb_eq in E1. assert (WF : wf_ity (ty a)) by (unfold wf_ity; lia).
    assert (CAS : forall cu nw (o : wop), refines (znext w) width a o
        (ZCas a (cast (mk_ity (ibits (ty a)) false) cu) (cast (mk_ity (ibits (ty a)) false) nw)
           (fun '(x, ok) => if ok then ROk (cast (ty a) x) else RErr (cast (ty a) x))) (d_cas (ty a) cu nw)).
    { intros cu nw o'. eapply single_refines; [constructor|reflexivity|]. intros sp x X. unfold LoopProofs.inr in X.
      cbv beta. rewrite amocas_access_eq, !castu. destruct (Z.eqb_spec x (to_bits (ty a) cu)) as [Q|N]; cbn [fst snd].
      - split; [reflexivity|]. split; [intros y Hy; injection Hy as <-; now apply to_bits_range|].
        eexists. split; [constructor|]. rewrite <- Q, Z.eqb_refl. cbn. now rewrite cast_in.
      - split; [reflexivity|]. split; [discriminate|]. eexists. split; [constructor|].
        rewrite (proj2 (Z.eqb_neq _ _)) by exact N. cbn. now rewrite cast_in. }
    destruct o as [[ord|v ord|r ord|cu nw sc fl]|cu nw sc fl]; intros E; injection E as <-; eexists; (split; [reflexivity|]).
    - eapply single_refines; [constructor|reflexivity|]. intros sp x X. unfold LoopProofs.inr in X.
      unfold amocas_access, amocas, whole_of. cbv beta. assert (Z0 : 0 + 2 ^ w * 0 = 0) by lia. rewrite !Z0.
      destruct (Z.eqb_spec x 0) as [->|N]; cbn [fst snd].
      + split; [reflexivity|]. split; [intros y Hy; injection Hy as <-; exact X|]. eexists. split; [constructor|].
        cbn [znext fst]. rewrite Z0, cast_in by exact X. reflexivity.
      + split; [reflexivity|]. split; [discriminate|]. eexists. split; [constructor|].
        unfold lo, hi. rewrite halves_join by lia. cbn. now rewrite cast_in.
    - apply z_loop_refines; [exact E1|]. intros g G. cbn [closure]. rewrite castu. split; [reflexivity|].
      split; [now apply to_bits_range|reflexivity].
    - apply z_loop_refines; [exact E1|]. intros g G. cbn in E2. apply rmw_typedb_ok in E2. rewrite <- E1. split; [now apply closure_correct|].
      split; [now apply to_bits_range|]. unfold fin_val. now rewrite cast_in.
    - apply CAS.
    - apply CAS.
  Qed.
  Lemma z_impl_ok : (forall a, wf_ity (ty a)) -> forall a o i, z_impl a o = Some i ->
    impl_correct width (fun a x => of_bits (ty a) x) (sem ty) a o i.
  Proof.
    intros WF a o i. unfold z_impl. destruct ((ibits (ty a) =? 2 * w) && callable (ty a) o) eqn:EC; cbn [negb]; [|discriminate].
    apply andb_true_iff in EC as [E1 E2].
    destruct o as [[ord|v ord|r ord|cu nw sc fl]|cu nw sc fl]; intros E; injection E as <-.
    - now apply d_load_cas_ok.
    - apply c_store_ok; auto. discriminate.
    - apply c_rmw_ok; auto. discriminate.
    - now apply d_cas_ok.
    - now apply d_cas_strong_for_weak_ok.
  Qed.
End ZacasProofs.

(** ** kuser helper *)
Section KuserProofs.
  Variable be : bool.
  Variable ty : Z -> ity.
  Local Notation width := (fun a => ibits (ty a)).
  Local Notation rs := [piece_lo be; piece_hi be].

  Lemma k_join l h : l * 2 ^ (32 * Z.of_nat (piece_lo be)) + h * 2 ^ (32 * Z.of_nat (piece_hi be)) = KuserModel.whole_of be l h.
  Proof. unfold piece_lo, piece_hi, KuserModel.whole_of. destruct be; cbn -[Z.pow]; change (2 ^ (32 * 0)) with 1; lia. Qed.
  Lemma k_range l h : 0 <= l < 2 ^ 32 -> 0 <= h < 2 ^ 32 -> 0 <= KuserModel.whole_of be l h < 2 ^ 64.
  Proof. intros. unfold KuserModel.whole_of. change (2 ^ 64) with (2 ^ (2 * 32)). destruct be; apply join_range; lia. Qed.

  Lemma k_refines_loop a (o : wop) f fin nxt ok err : ibits (ty a) = 64 ->
    (forall g, 0 <= g < 2 ^ 64 -> k_next f g = nxt g /\ 0 <= nxt g < 2 ^ 64 /\ fin (k_ret f g) = ok g) ->
    refines (Op := wop) (knext be) width a o (KReadLo a f fin)
      (CasLoop 32 rs true (fun _ g => Some (nxt g)) ok err).
  Proof.
    intros W H.
    apply casloop_refines_gen with
      (AtRd := fun hist n acc c => (n = 0%nat /\ acc = 0 /\ c = KReadLo a f fin) \/
         (n = 1%nat /\ exists l, 0 <= l < 2 ^ 32 /\ acc = l * 2 ^ (32 * Z.of_nat (piece_lo be)) /\ c = KReadHi a f fin l))
      (AtTry := fun hist g c => 0 <= g < 2 ^ 64 /\ c = KTry a f fin g).
    - lia.
    - eexists. split; [constructor|]. left. auto.
    - intros hist n acc c [(-> & -> & ->)|(-> & l & L & -> & ->)].
      + exists (piece_lo be), (fun l => KReadHi a f fin l). split; [reflexivity|]. split; [reflexivity|]. intros v V.
        cbn [Nat.eqb length]. eexists. split; [constructor|]. right. split; [reflexivity|]. exists v. rewrite Z.add_0_l. auto.
      + exists (piece_hi be), (fun h => KTry a f fin (KuserModel.whole_of be l h)). split; [reflexivity|]. split; [reflexivity|].
        intros v V. cbn [Nat.eqb length]. cbv zeta. rewrite k_join. eexists. split; [constructor|].
        split; [now apply k_range|reflexivity].
    - intros hist g c (G & ->). destruct (H g G) as (H1 & H2 & H3). eexists _, _. split; [reflexivity|].
      intros sp x X. cbv beta. rewrite H1. destruct (Z.eqb_spec x g) as [->|N]; [destruct sp|]; cbn [andb negb fst snd].
      + right. split; [auto|]. split; [reflexivity|]. eexists. split; [constructor|]. left. auto.
      + left. split; [reflexivity|]. split; [reflexivity|].
        split; [unfold LoopProofs.inr; now rewrite W|]. eexists. split; [constructor|]. cbn. now rewrite H3.
      + right. split; [auto|]. split; [reflexivity|]. eexists. split; [constructor|]. left. auto.
  Qed.

  Definition k_impl (a : Z) (o : wop) : option (impl res) :=
    let t := ty a in
    if negb ((ibits t =? 64) && callable t o) then None else
    Some match o with
    | WOp (OLoad _) => c_load t 32 rs true
    | WOp (OStore v _) => c_store t 32 rs true v
    | WOp (ORmw r _) => c_rmw t 32 rs true r
    | WOp (OCas c n _ _) | WCasWeak c n _ _ => c_cas t 32 rs true c n
    end.

  Lemma k_refines a o c : k_code_of ty a o = Some c ->
    exists i, k_impl a o = Some i /\ refines (knext be) width a o c i.
  Proof.
    unfold k_code_of, k_impl. destruct ((ibits (ty a) =? 64) && callable (ty a) o) eqn:EC; cbn [negb]; [|discriminate].
    apply andb_true_iff in EC as [E1 E2]. apply Z.eqb_eq in E1. assert (WF : wf_ity (ty a)) by (unfold wf_ity; lia).
    assert (CAS : forall cu nw (o : wop), refines (knext be) width a o
        (KReadLo a (KCas (cast (mk_ity (ibits (ty a)) false) cu) (cast (mk_ity (ibits (ty a)) false) nw))
           (fun '(x, ok) => if ok then ROk (cast (ty a) x) else RErr (cast (ty a) x))) (c_cas (ty a) 32 rs true cu nw)).
    { intros cu nw o'. pose proof (to_bits_range (ty a) nw WF) as RN. rewrite E1 in RN.
      match goal with |- refines _ _ _ _ _ (c_cas ?t _ _ _ _ _) =>
        apply (k_refines_loop a o' _ _ (fun g => if g =? to_bits t cu then to_bits t nw else g)
          (fun g => if g =? to_bits t cu then ROk (of_bits t g) else RErr (of_bits t g)) (fin_val t) E1) end.
      intros g G. cbn [k_next k_ret]. rewrite !castu. split; [reflexivity|].
      assert (CI : cast (ty a) g = of_bits (ty a) g) by (apply cast_in; now rewrite E1). rewrite CI.
      destruct (g =? to_bits (ty a) cu); split; auto. }
    destruct o as [[ord|v ord|r ord|cu nw sc fl]|cu nw sc fl]; intros E; injection E as <-; eexists; (split; [reflexivity|]).
    - apply (k_refines_loop a _ _ _ (fun g => g) (fin_val (ty a)) (fin_val (ty a)) E1). intros g G. cbn [k_next k_ret fst].
      split; [reflexivity|]. split; [exact G|]. unfold fin_val. rewrite cast_in; [reflexivity|]. now rewrite E1.
    - apply (k_refines_loop a _ _ _ (fun g => to_bits (ty a) v) fin_unit fin_unit E1). intros g G. cbn [k_next k_ret closure].
      rewrite castu. split; [reflexivity|]. split; [rewrite <- E1; now apply to_bits_range|reflexivity].
    - apply (k_refines_loop a _ _ _ (next_bits (ty a) r) (fin_val (ty a)) (fin_val (ty a)) E1). intros g G. cbn in E2. apply rmw_typedb_ok in E2.
      cbn [k_next k_ret fst]. rewrite <- E1 in *. split; [now apply closure_correct|].
      split; [now apply to_bits_range|]. unfold fin_val. now rewrite cast_in.
    - apply CAS.
    - apply CAS.
  Qed.
  Lemma k_impl_ok : (forall a, wf_ity (ty a)) -> forall a o i, k_impl a o = Some i ->
    impl_correct width (fun a x => of_bits (ty a) x) (sem ty) a o i.
  Proof.
    intros WF a o i. unfold k_impl. destruct ((ibits (ty a) =? 64) && callable (ty a) o) eqn:EC; cbn [negb]; [|discriminate].
    apply andb_true_iff in EC as [E1 E2].
    destruct o as [[ord|v ord|r ord|cu nw sc fl]|cu nw sc fl]; intros E; injection E as <-.
    - apply c_load_ok; auto. discriminate.
    - apply c_store_ok; auto. discriminate.
    - apply c_rmw_ok; auto. discriminate.
    - apply c_cas_ok; auto. discriminate.
    - apply strong_serves_weak. apply c_cas_ok; auto. discriminate.
  Qed.
End KuserProofs.

(** ** core *)
(** [fetch_update]: the variable changes from [x] to the closure's answer for [x] and the call
    returns [Ok x], or the closure declines [x] and nothing changes. *)
Section CoreProofs.
  Variable g : cfg.
  Variable ty : Z -> ity.
  Hypothesis tyok : forall a, wf_ity (ty a).
  Local Notation width := (fun a => ibits (ty a)).

  Definition c_impl (a : Z) (o : uop) : option (impl res) :=
    let t := ty a in
    match o with
    | UOp o =>
      if negb (callable t o) then None else
      Some match o with
      | WOp (OLoad _) => d_load t
      | WOp (OStore v _) => d_store t v
      | WOp (OCas c n _ _) => d_cas t c n
      | WCasWeak c n _ _ => d_cas_weak t c n
      | WOp (ORmw r _) =>
        match r with
        | Max _ | Min _ => if min_max_by_loop g t then c_rmw t (ibits t) [0%nat] false r else d_rmw t r
        | Neg => c_rmw t (ibits t) [0%nat] false r
        | _ => d_rmw t r
        end
      end
    | UFetchUpdate f _ fo =>
      match fo with
      | Release | AcqRel => None
      | _ => Some (CasLoop (ibits t) [0%nat] false
                 (fun hist x => option_map (to_bits t) (typed_closure t f (map (of_bits t) hist) (of_bits t x)))
                 (fun x => ROk (of_bits t x)) (fun x => RErr (of_bits t x)))
      end
    end.

  Lemma w_pos a : 0 < ibits (ty a). Proof. apply tyok. Qed.

  Lemma upd_refines a (o : uop) f r :
    (forall x, in_range (ty a) x -> f x = spec_rmw (ty a) r x) -> rmw_typed (ty a) r ->
    refines cnext width a o (CUpdLoad a (ty a) f) (c_rmw (ty a) (ibits (ty a)) [0%nat] false r).
  Proof.
    intros HF HT. pose proof (w_pos a) as W. pose proof (tyok a) as WF.
    unfold c_rmw. apply casloop_refines with
      (AtRd := fun n acc c => n = 0%nat /\ acc = 0 /\ c = CUpdLoad a (ty a) f)
      (AtTry := fun x c => 0 <= x < 2 ^ ibits (ty a) /\ c = CUpdTry a (ty a) f (of_bits (ty a) x)).
    - lia.
    - eexists. split; [constructor|]. auto.
    - intros n acc c (-> & -> & ->). exists 0%nat, (fun x => CUpdTry a (ty a) f (of_bits (ty a) x)).
      split; [reflexivity|]. split; [reflexivity|]. intros v V. cbn [length Nat.eqb]. cbv zeta.
      rewrite Z.mul_0_r, Z.pow_0_r, Z.mul_1_r, Z.add_0_l. eexists. split; [constructor|]. auto.
    - intros x c (X & ->). eexists _, _. split; [reflexivity|]. intros sp y Y. unfold weak_cas.
      rewrite to_of_bits by auto. rewrite HF by (now apply of_bits_range).
      destruct (Z.eqb_spec y x) as [->|N]; [destruct sp|]; cbn [andb negb fst snd].
      + right. split; [auto|]. split; [reflexivity|]. eexists. split; [constructor|]. auto.
      + left. split; [reflexivity|]. split; [reflexivity|]. split; [apply to_bits_range; auto|].
        eexists. split; [constructor|]. reflexivity.
      + right. split; [auto|]. split; [reflexivity|]. eexists. split; [constructor|]. auto.
  Qed.

  Lemma fu_refines a (o : uop) f : (forall hist x y, f hist x = Some y -> in_range (ty a) y) ->
    refines cnext width a o (CFuLoad a (ty a) f)
      (CasLoop (ibits (ty a)) [0%nat] false
                 (fun hist x => option_map (to_bits (ty a)) (f (map (of_bits (ty a)) hist) (of_bits (ty a) x)))
                 (fun x => ROk (of_bits (ty a) x)) (fun x => RErr (of_bits (ty a) x))).
  Proof.
    intros HF. pose proof (w_pos a) as W. pose proof (tyok a) as WF.
    apply casloop_refines_gen with
      (AtRd := fun hist n acc c => hist = [] /\ n = 0%nat /\ acc = 0 /\ c = CFuLoad a (ty a) f)
      (AtTry := fun hist x c => 0 <= x < 2 ^ ibits (ty a) /\ c = CFuTry a (ty a) f (map (of_bits (ty a)) hist) (of_bits (ty a) x)).
    - lia.
    - eexists. split; [constructor|]. auto.
    - intros hist n acc c (-> & -> & -> & ->). exists 0%nat, (fun x => CFuTry a (ty a) f [] (of_bits (ty a) x)).
      split; [reflexivity|]. split; [reflexivity|]. intros v V. cbn [length Nat.eqb]. cbv zeta.
      rewrite Z.mul_0_r, Z.pow_0_r, Z.mul_1_r, Z.add_0_l. eexists. split; [constructor|]. auto.
    - intros hist x c (X & ->). cbn [cnext].
      destruct (f (map (of_bits (ty a)) hist) (of_bits (ty a) x)) as [y|] eqn:EF; cbn [option_map]; [|reflexivity].
      eexists _, _. split; [reflexivity|]. intros sp z Zr. unfold weak_cas. rewrite to_of_bits by auto.
      destruct (Z.eqb_spec z x) as [->|N]; [destruct sp|]; cbn [andb negb fst snd].
      + right. split; [auto|]. split; [reflexivity|]. eexists. split; [constructor|]. now rewrite map_app.
      + left. split; [reflexivity|]. split; [reflexivity|]. split; [apply to_bits_range; auto|].
        eexists. split; [constructor|]. reflexivity.
      + right. split; [auto|]. split; [reflexivity|]. eexists. split; [constructor|]. now rewrite map_app.
  Qed.

  Lemma prim_rmw_refines a (o : uop) r r' : rmw_typed (ty a) r ->
    (forall x, in_range (ty a) x -> rmw_next (ty a) r' x = spec_rmw (ty a) r x) ->
    refines cnext width a o (CPrim a (ty a) (PRmw r')) (d_rmw (ty a) r).
  Proof.
    intros HT HF. pose proof (tyok a) as WF.
    eapply single_refines; [constructor|reflexivity|]. intros sp x X. cbn [fst snd].
    unfold next_bits. rewrite HF by (now apply of_bits_range).
    split; [reflexivity|]. split; [intros y E; injection E as <-; now apply to_bits_range|].
    eexists. split; [constructor|]. reflexivity.
  Qed.

  Lemma not_by_xor t x : wf_ity t -> in_range t x -> rmw_next t (Xor (bit_not t 0)) x = spec_rmw t Not x.
  Proof.
    intros WF X. cbn [rmw_next spec_rmw]. assert (B : bit_not t 0 = norm t (-1)) by (rewrite bit_not_spec; auto).
    rewrite B, bit_xor_spec; auto using norm_range.
    apply (to_bits_inj t); auto using norm_range.
    { apply lxor_in_range; auto using norm_range. }
    rewrite norm_bits by auto. unfold to_bits. rewrite lxor_mod by (unfold wf_ity in WF; lia).
    pose proof (norm_bits t (-1) WF) as NB. unfold to_bits in NB. rewrite NB.
    rewrite <- lxor_mod by (unfold wf_ity in WF; lia). rewrite Z.lxor_m1_r. f_equal.
  Qed.

  Lemma c_refines a o c : c_code_of g ty a o = Some c ->
    exists i, c_impl a o = Some i /\ refines cnext width a o c i.
  Proof.
    pose proof (tyok a) as WF. unfold c_code_of, c_impl. destruct o as [o|f so fo].
    - destruct (callable (ty a) o) eqn:EC; cbn [negb]; [|discriminate].
      destruct o as [[ord|v ord|r ord|cu nw sc fl]|cu nw sc fl].
      + intros E; injection E as <-. eexists. split; [reflexivity|].
        eapply single_refines; [constructor|reflexivity|]. intros sp x X. cbn [fst snd]. split; [reflexivity|].
        split; [discriminate|]. eexists. split; [constructor|reflexivity].
      + intros E; injection E as <-. eexists. split; [reflexivity|].
        eapply single_refines; [constructor|reflexivity|]. intros sp x X. cbn [fst snd]. split; [reflexivity|].
        split; [intros y E; injection E as <-; now apply to_bits_range|]. eexists. split; [constructor|reflexivity].
      + cbn in EC. apply rmw_typedb_ok in EC.
        assert (PR : refines cnext width a (UOp (WOp (ORmw r ord))) (CPrim a (ty a) (PRmw r)) (d_rmw (ty a) r)).
        { apply prim_rmw_refines; auto. intros x X. now apply rmw_next_spec. }
        assert (UP : forall f, (forall x, f x = rmw_next (ty a) r x) ->
           refines cnext width a (UOp (WOp (ORmw r ord))) (CUpdLoad a (ty a) f) (c_rmw (ty a) (ibits (ty a)) [0%nat] false r)).
        { intros f HF. apply upd_refines; auto. intros x X. rewrite HF. now apply rmw_next_spec. }
        destruct r; intros E; injection E as <-; try (eexists; split; [reflexivity|]; exact PR).
        * eexists. split; [reflexivity|]. apply prim_rmw_refines; auto. intros x X. now apply not_by_xor.
        * eexists. split; [reflexivity|]. apply UP. reflexivity.
        * eexists. split; [reflexivity|]. destruct (min_max_by_loop g (ty a)); [apply UP; reflexivity|exact PR].
        * eexists. split; [reflexivity|]. destruct (min_max_by_loop g (ty a)); [apply UP; reflexivity|exact PR].
      + intros E; injection E as <-. eexists. split; [reflexivity|].
        eapply single_refines; [constructor|reflexivity|]. intros sp x X. unfold weak_cas. rewrite andb_true_r.
        destruct (x =? to_bits (ty a) cu); cbn [fst snd]; (split; [reflexivity|]).
        * split; [intros y E; injection E as <-; now apply to_bits_range|]. eexists. split; [constructor|reflexivity].
        * split; [discriminate|]. eexists. split; [constructor|reflexivity].
      + intros E; injection E as <-. eexists. split; [reflexivity|].
        eapply single_refines; [constructor|reflexivity|]. intros sp x X. unfold weak_cas.
        destruct ((x =? to_bits (ty a) cu) && negb sp); cbn [fst snd]; (split; [reflexivity|]).
        * split; [intros y E; injection E as <-; now apply to_bits_range|]. eexists. split; [constructor|reflexivity].
        * split; [discriminate|]. eexists. split; [constructor|reflexivity].
    - assert (FU : refines cnext width a (UFetchUpdate f so fo) (CFuLoad a (ty a) (typed_closure (ty a) f))
         (CasLoop (ibits (ty a)) [0%nat] false
                 (fun hist x => option_map (to_bits (ty a)) (typed_closure (ty a) f (map (of_bits (ty a)) hist) (of_bits (ty a) x)))
                 (fun x => ROk (of_bits (ty a) x)) (fun x => RErr (of_bits (ty a) x)))).
      { apply fu_refines. intros hist x y. unfold typed_closure. destruct (f hist x); [|discriminate].
        intros E; injection E as <-. now apply norm_range. }
      destruct fo; intros E; try discriminate; injection E as <-; (eexists; split; [reflexivity|exact FU]).
  Qed.
End CoreProofs.
