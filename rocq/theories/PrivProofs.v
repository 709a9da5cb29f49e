(** Invariant of the fallback with interrupts. *)
From Coq Require Import ZArith Lia Bool List PeanoNat.
From Verif Require Import Words Spec WordsFacts LinFacts OrderingModel FallbackModel FallbackFacts FallbackProofs FallbackStruct
  FallbackProgress RiscvModel IntModel IntProofs PrivModel.
Import ListNotations.
Open Scope Z_scope.

(** the program counters outside and inside the guard's lifetime ([Acq] and [Fin] are at its ends) *)
Definition outside (p : FallbackModel.pc) : Prop :=
  match p with
  | Idle | Start _ _ | OptHi _ _ | OptLo _ _ _ _ | OptRead _ _ _ _ _ _ _ | ValLo _ _ _ _ _ _ _ | ValHi _ _ _ _ _ _ _ _ _
  | Acq _ _ | Fin _ => True
  | _ => False
  end.
Definition inside (p : FallbackModel.pc) : Prop :=
  match p with
  | Acq _ _ | Spin _ _ | LRead _ _ _ _ | LWrite _ _ _ _ _ _ | RelHiLd _ _ _ _ | RelHiSt _ _ _ _ _ | Rel _ _ _ _ _ | Fin _ => True
  | _ => False
  end.
Definition is_acq (p : FallbackModel.pc) : Prop := match p with Acq _ _ => True | _ => False end.
Definition is_fin (p : FallbackModel.pc) : Prop := match p with Fin _ => True | _ => False end.

Lemma step_shape c s l s' e : step c s l = Some (s', e) ->
  exists p', (forall u, pcs s' u = set_n (pcs s) (tid l) p' u) /\
  match pcs s (tid l) with
  | Idle => exists a o, call l = Some (a, o) /\ p' = Start a o /\ e = [Call (tid l) a o]
  | Fin r => p' = Idle /\ e = [Return (tid l) r]
  | p => e = [] /\ p' <> Idle /\ (outside p -> ~ is_acq p -> outside p') /\ (inside p -> inside p')
  end.
Proof.
  unfold step. destruct (pcs s (tid l)) eqn:Ep; intros H;
    repeat match type of H with
    | context [match ?d with _ => _ end] => destruct d eqn:?; try discriminate H
    end; injection H as <- <-;
    (eexists; split; [first [intros u; reflexivity | (intros u; unfold set_n; destruct (Nat.eqb_spec u (tid l)) as [->|_]; [exact Ep | reflexivity])]|]);
    cbn; try (split; [reflexivity|]; split; [discriminate|]; split; cbn; tauto); eauto.
Qed.

Section Inv.
  Variables (ar : arch) (c : config).

  Definition last_call1 (t : nat) (acc : option Z) (e : pobs) : option Z :=
    match e with (Call u _ _, v) => if Nat.eqb u t then Some v else acc | _ => acc end.
  Definition last_call (t : nat) (h : list pobs) : option Z := fold_left (last_call1 t) h None.
  Lemma last_call_app t h e : last_call t (h ++ e) = fold_left (last_call1 t) e (last_call t h).
  Proof. apply fold_left_app. Qed.

  (** [called h t s1]: up to flags, [s1] is the status register at the last call of [t] *)
  Definition called (h : list pobs) (t : nat) (s1 : Z) : Prop := exists s0, last_call t h = Some s0 /\ agree ar s1 s0.

  Definition ctx_ok (h : list pobs) (i : state) (x : context) : Prop :=
    let p := pcs i (thread x) in
    match ph x with
    | Unguarded => outside p /\ (p <> Idle -> called h (thread x) (status (regs x)))
    | Disabling rest => is_acq p /\ exists s1, called h (thread x) s1 /\ wp ar s1 (guarded ar s1) rest (regs x)
    | Guarded => inside p /\ exists s1, called h (thread x) s1 /\ guarded ar s1 (regs x)
    | Restoring rest => is_fin p /\ exists s1, called h (thread x) s1 /\ wp ar s1 (restored ar s1) rest (regs x)
    end.

  Definition place (s : pstate) (k i : nat) (x : context) : Prop := nth_error (stacks s k) i = Some x.
  Definition PInv (h : list pobs) (s : pstate) : Prop :=
    (forall k i x, place s k i x -> ctx_ok h (inner s) x) /\
    (forall k i x, place s k i x -> (thread x < fresh s)%nat) /\
    (forall k k' i i' x x', place s k i x -> place s k' i' x' -> thread x = thread x' -> k = k' /\ i = i') /\
    (forall t, pcs (inner s) t <> Idle -> exists k i x, place s k i x /\ thread x = t) /\
    (forall k i x, place s k (S i) x -> ph x <> Guarded) /\
    SInv c (inner s).

  Lemma nth_set {A} (f : nat -> list A) k l k' i : nth_error (set_n f k l k') i = if Nat.eqb k' k then nth_error l i else nth_error (f k') i.
  Proof. unfold set_n. now destruct (Nat.eqb k' k). Qed.

  Lemma PInv_init n m s0 : PInv [] (pinit n m s0).
  Proof.
    assert (P : forall k i x, place (pinit n m s0) k i x -> (k < n)%nat /\ i = O /\ x = mk_context k (mk_sregs (s0 k) 0 0) Unguarded).
    { unfold place, pinit. cbn [stacks]. intros k i x. destruct (Nat.ltb_spec k n); [|now destruct i].
      destruct i as [|[|i]]; cbn; try discriminate. intros [= <-]. auto. }
    unfold PInv. split; [|split; [|split; [|split; [|split]]]].
    - intros k i x H. apply P in H as (_ & _ & ->). split; [exact Logic.I | cbn; congruence].
    - intros k i x H. apply P in H as (K & _ & ->). exact K.
    - intros k k' i i' x x' H H'. apply P in H as (_ & -> & ->). apply P in H' as (_ & -> & ->). cbn. auto.
    - cbn. congruence.
    - intros k i x H. apply P in H as (_ & ? & _). discriminate.
    - apply SInv_init.
  Qed.

  (** the running context changes its registers or phase only *)
  Lemma PInv_top h s k x x' below :
    PInv h s -> stacks s k = x :: below -> thread x' = thread x -> ctx_ok h (inner s) x' ->
    PInv h (with_top s k x' below).
  Proof.
    intros (I1 & I2 & I3 & I4 & I5 & I6) E T X.
    assert (E0 : place s k 0 x) by (unfold place; now rewrite E).
    assert (EB : forall i y, nth_error below i = Some y -> place s k (S i) y) by (unfold place; intros i y; now rewrite E).
    (* places correspond, with the same thread *)
    assert (P : forall k' i y, place (with_top s k x' below) k' i y ->
              (k' = k /\ i = O /\ y = x') \/ place s k' i y).
    { intros k' i y H. unfold place, with_top in H. cbn [stacks] in H. rewrite nth_set in H. destruct (Nat.eqb_spec k' k) as [->|_]; [|now right].
      destruct i; cbn in H; [left; injection H as <-; auto | right; now apply EB]. }
    assert (Q : forall k' i y, place (with_top s k x' below) k' i y -> exists y0, place s k' i y0 /\ thread y0 = thread y).
    { intros k' i y H. apply P in H as [(-> & -> & ->)|H]; eauto. }
    unfold PInv. split; [|split; [|split; [|split; [|split]]]].
    - intros k' i y H. apply P in H as [(_ & _ & ->)|H]; [exact X | exact (I1 _ _ _ H)].
    - intros k' i y H. destruct (Q _ _ _ H) as (y0 & H0 & <-). exact (I2 _ _ _ H0).
    - intros k1 k2 i1 i2 y1 y2 H1 H2 H. destruct (Q _ _ _ H1) as (z1 & Z1 & T1), (Q _ _ _ H2) as (z2 & Z2 & T2).
      apply (I3 _ _ _ _ _ _ Z1 Z2). congruence.
    - cbn. intros t H. destruct (I4 t H) as (k' & i & y & Hp & <-).
      destruct (Nat.eq_dec k' k) as [->|N]; [destruct i as [|i]|].
      + exists k, O, x'. split; [|unfold place in *; congruence]. unfold place, with_top. cbn [stacks]. now rewrite nth_set, Nat.eqb_refl.
      + exists k, (S i), y. split; [|reflexivity]. unfold place, with_top in *. cbn [stacks]. rewrite nth_set, Nat.eqb_refl. now rewrite E in Hp.
      + exists k', i, y. split; [|reflexivity]. unfold place, with_top in *. cbn [stacks]. rewrite nth_set.
        destruct (Nat.eqb_spec k' k); [contradiction|exact Hp].
    - intros k' i y H. apply P in H as [(_ & ? & _)|H]; [discriminate | exact (I5 _ _ _ H)].
    - exact I6.
  Qed.

  (** the running context takes a step of the fallback's code *)
  Lemma PInv_plain h s k x below cl s' e :
    PInv h s -> stacks s k = x :: below -> plain_step c s x cl = Some (s', e) ->
    (ph x = Unguarded /\ ~ is_acq (pcs (inner s) (thread x)) \/ ph x = Guarded /\ ~ is_fin (pcs (inner s) (thread x))) ->
    PInv (h ++ e) s' /\ (forall t r v, In (Return t r, v) e -> called h t v).
  Proof.
    intros (I1 & I2 & I3 & I4 & I5 & I6) E H B. unfold plain_step in H.
    destruct (step c (inner s) _) as [[i' ev]|] eqn:ST; [|discriminate]. injection H as <- <-.
    assert (E0 : place s k 0 x) by (unfold place; now rewrite E).
    pose proof (I1 _ _ _ E0) as X. unfold ctx_ok in X.
    destruct (step_shape _ _ _ _ _ ST) as (p' & PC & SH). cbn [tid call] in PC, SH.
    assert (PX : pcs i' (thread x) = p') by (rewrite PC; unfold set_n; now rewrite Nat.eqb_refl).
    assert (PO : forall u, u <> thread x -> pcs i' u = pcs (inner s) u).
    { intros u N. rewrite PC. unfold set_n. destruct (Nat.eqb_spec u (thread x)); [contradiction|reflexivity]. }
    set (h' := h ++ map (fun ev0 => (ev0, status (regs x))) ev).
    assert (LO : forall u, u <> thread x -> last_call u h' = last_call u h).
    { intros u N. unfold h'. rewrite last_call_app. destruct (pcs (inner s) (thread x)).
      2-14: destruct SH as (-> & _); reflexivity.
      - destruct SH as (a & o & _ & _ & ->). cbn. destruct (Nat.eqb_spec (thread x) u); [congruence|reflexivity].
      - destruct SH as (_ & ->). reflexivity. }
    split.
    2:{ intros t r v Hin. apply in_map_iff in Hin as (ev0 & [= -> <-] & Hin). destruct (pcs (inner s) (thread x)) eqn:Ep.
        2-14: destruct SH as (-> & _); contradiction.
        - destruct SH as (a & o & _ & _ & ->). destruct Hin as [Q|[]]. discriminate.
        - destruct SH as (_ & ->). destruct Hin as [[= <- <-]|[]]. destruct B as [[U _]|[_ B]]; [|destruct B; exact Logic.I].
          rewrite U in X. apply X. discriminate. }
    unfold PInv. cbn [inner fresh stacks]. split; [|split; [|split; [|split; [|split]]]].
    - intros k' i y Hy. change (place s k' i y) in Hy. destruct (Nat.eq_dec (thread y) (thread x)) as [T|T].
      + assert (y = x). { destruct (I3 _ _ _ _ _ _ Hy E0 T) as [-> ->]. unfold place in *. congruence. } subst y.
        unfold ctx_ok. rewrite PX. destruct B as [[U B]|[U B]]; rewrite U in X |- *.
        * destruct X as (XO & XC). destruct (pcs (inner s) (thread x)) eqn:Ep.
          2-14: destruct SH as (-> & _ & SO & _); split; [apply SO; assumption | intros _; unfold called, h'; cbn; rewrite app_nil_r; apply XC; discriminate].
          -- destruct SH as (a & o & _ & -> & ->). split; [exact Logic.I|]. intros _. exists (status (regs x)).
             split; [|apply agree_refl]. unfold h'. rewrite last_call_app. cbn. now rewrite Nat.eqb_refl.
          -- destruct SH as (-> & ->). split; [exact Logic.I|]. congruence.
        * destruct X as (XI & s1 & XC & XG). destruct (pcs (inner s) (thread x)) eqn:Ep; try contradiction.
          all: (destruct SH as (-> & _ & _ & SI); split; [apply SI, XI|]; exists s1; split; [|exact XG]; unfold called, h' in *; cbn; rewrite app_nil_r; exact XC).
      + pose proof (I1 _ _ _ Hy) as Y. unfold ctx_ok, called in *. rewrite LO, PO by exact T. exact Y.
    - exact I2.
    - exact I3.
    - intros t Ht. destruct (Nat.eq_dec t (thread x)) as [->|N]; [now exists k, O, x|]. rewrite PO in Ht by exact N. exact (I4 t Ht).
    - exact I5.
    - eapply SInv_step; eauto.
  Qed.

  Lemma called_nil h t v : called (h ++ []) t v <-> called h t v.
  Proof. now rewrite app_nil_r. Qed.

  Lemma wp_inv s1 Q i rest r : wp ar s1 Q (i :: rest) r -> wp ar s1 Q rest (sexec i r).
  Proof.
    intros [_ H]. specialize (H (status r)).
    replace (noisy ar (status r) r) with r in H; [exact H|].
    destruct r as [st p n]. unfold noisy, with_status, noise. cbn. f_equal. apply Z.bits_inj'. intros k K.
    rewrite Z.lor_spec, Z.ldiff_spec, Z.land_spec. destruct (Z.testbit st k), (Z.testbit (side_bits ar) k); reflexivity.
  Qed.

  Lemma PInv_step h s l s' e :
    PInv h s -> pstep ar c true s l = Some (s', e) ->
    PInv (h ++ e) s' /\ (forall t r v, In (Return t r, v) e -> called h t v).
  Proof.
    intros I H. pose proof I as (I1 & I2 & I3 & I4 & I5 & I6). unfold pstep in H.
    destruct (stacks s (core l)) as [|x below] eqn:E; [discriminate|].
    assert (E0 : place s (core l) 0 x) by (unfold place; now rewrite E).
    pose proof (I1 _ _ _ E0) as X. unfold ctx_ok in X.
    assert (TOP : forall x', thread x' = thread x -> ctx_ok h (inner s) x' -> Some (with_top s (core l) x' below, []) = Some (s', e) ->
              PInv (h ++ e) s' /\ (forall t r v, In (Return t r, v) e -> called h t v)).
    { intros x' T O [= <- <-]. rewrite app_nil_r. split; [|intros t r v []]. eapply PInv_top; eauto. }
    destruct (act l) as [cl|v|v|v|].
    - destruct (ph x) as [|[|i rest]| |[|i rest]] eqn:Ph.
      + destruct (pcs (inner s) (thread x)) eqn:Ep; try (eapply PInv_plain; eauto; left; rewrite Ep; cbn; auto; fail).
        eapply TOP; [| |exact H]; [reflexivity|]. unfold ctx_ok. cbn. rewrite Ep. split; [exact Logic.I|].
        destruct X as (_ & XC). exists (status (regs x)). split; [apply XC; discriminate|].
        destruct (regs x) as [st p n]. apply disable_ok.
      + eapply TOP; [| |exact H]; [reflexivity|]. unfold ctx_ok. cbn. destruct X as (XA & s1 & XC & XW).
        split; [destruct (pcs (inner s) (thread x)); try contradiction; exact Logic.I|]. exists s1. split; [exact XC | apply XW].
      + eapply TOP; [| |exact H]; [reflexivity|]. unfold ctx_ok. cbn. destruct X as (XA & s1 & XC & XW).
        split; [exact XA|]. exists s1. split; [exact XC|]. exact (wp_inv _ _ _ _ _ XW).
      + destruct (pcs (inner s) (thread x)) eqn:Ep; try (eapply PInv_plain; eauto; right; rewrite Ep; cbn; auto; fail).
        eapply TOP; [| |exact H]; [reflexivity|]. unfold ctx_ok. cbn. rewrite Ep. split; [exact Logic.I|].
        destruct X as (_ & s1 & XC & XG). exists s1. split; [exact XC | apply XG].
      + eapply TOP; [| |exact H]; [reflexivity|]. unfold ctx_ok. cbn. destruct X as (XA & s1 & (s0 & XL & XC) & XW).
        split; [destruct (pcs (inner s) (thread x)); try contradiction; exact Logic.I|]. intros _. exists s0. split; [exact XL|].
        eapply agree_trans; [apply XW | exact XC].
      + eapply TOP; [| |exact H]; [reflexivity|]. unfold ctx_ok. cbn. destruct X as (XA & s1 & XC & XW).
        split; [exact XA|]. exists s1. split; [exact XC|]. exact (wp_inv _ _ _ _ _ XW).
    - destruct (idle s x) eqn:D; [|discriminate]. eapply TOP; [| |exact H]; [reflexivity|]. unfold ctx_ok, idle in *. cbn.
      destruct (ph x); try discriminate. destruct (pcs (inner s) (thread x)); try discriminate. split; [exact Logic.I | congruence].
    - eapply TOP; [| |exact H]; [reflexivity|]. unfold ctx_ok. cbn. change (with_status (regs x) (noise ar v (status (regs x)))) with (noisy ar v (regs x)).
      destruct (ph x).
      + destruct X as (XO & XC). split; [exact XO|]. intros N. destruct (XC N) as (s0 & L & A). exists s0. split; [exact L|].
        eapply agree_trans; [apply noise_agree | exact A].
      + destruct X as (XA & s1 & XC & XW). split; [exact XA|]. exists s1. split; [exact XC|].
        apply wp_noisy; [apply guarded_noisy | exact XW].
      + destruct X as (XA & s1 & XC & XG). split; [exact XA|]. exists s1. split; [exact XC | apply guarded_noisy, XG].
      + destruct X as (XA & s1 & XC & XW). split; [exact XA|]. exists s1. split; [exact XC|].
        apply wp_noisy; [apply restored_noisy | exact XW].
    - destruct (deliverable ar (status (regs x))) eqn:D; [|discriminate]. injection H as <- <-. rewrite app_nil_r.
      split; [|intros t r w []].
      set (y := mk_context (fresh s) (mk_sregs v 0 0) Unguarded).
      assert (P : forall k i z, place (mk_pstate (inner s) (set_n (stacks s) (core l) (y :: x :: below)) (S (fresh s))) k i z ->
                (k = core l /\ i = O /\ z = y) \/ (k = core l /\ exists j, i = S j /\ place s k j z) \/ (k <> core l /\ place s k i z)).
      { intros k i z Hz. unfold place in Hz. cbn [stacks] in Hz. rewrite nth_set in Hz. destruct (Nat.eqb_spec k (core l)) as [->|N]; [|auto].
        destruct i as [|i]; cbn in Hz; [injection Hz as <-; auto|]. right. left. split; [reflexivity|]. exists i. split; [reflexivity|].
        unfold place. now rewrite E. }
      assert (FI : pcs (inner s) (fresh s) = Idle).
      { destruct (pcs (inner s) (fresh s)) eqn:Q; try reflexivity;
          (assert (N : pcs (inner s) (fresh s) <> Idle) by (rewrite Q; discriminate); destruct (I4 _ N) as (k9 & i9 & z9 & Hz & T);
           apply I2 in Hz; lia). }
      unfold PInv. cbn [inner fresh]. split; [|split; [|split; [|split; [|split]]]].
      + intros k i z Hz. apply P in Hz as [(_ & _ & ->)|[(_ & j & _ & Hz)|(_ & Hz)]]; [|eapply I1; eauto..].
        unfold ctx_ok, y. cbn. rewrite FI. split; [exact Logic.I | congruence].
      + intros k i z Hz. apply P in Hz as [(_ & _ & ->)|[(_ & j & _ & Hz)|(_ & Hz)]]; [cbn; lia | apply I2 in Hz; lia..].
      + intros k k' i i' z z' Hz Hz' T. apply P in Hz, Hz'.
        destruct Hz as [(-> & -> & ->)|[(-> & j & -> & Hz)|(N & Hz)]], Hz' as [(-> & -> & ->)|[(-> & j' & -> & Hz')|(N' & Hz')]]; auto.
        * apply I2 in Hz'. cbn in T. lia.
        * apply I2 in Hz'. cbn in T. lia.
        * apply I2 in Hz. cbn in T. lia.
        * destruct (I3 _ _ _ _ _ _ Hz Hz' T) as [_ ->]. auto.
        * destruct (I3 _ _ _ _ _ _ Hz Hz' T) as [Q _]. congruence.
        * apply I2 in Hz. cbn in T. lia.
        * destruct (I3 _ _ _ _ _ _ Hz Hz' T) as [Q _]. congruence.
        * exact (I3 _ _ _ _ _ _ Hz Hz' T).
      + intros t Ht. destruct (I4 t Ht) as (k & i & z & Hz & <-). unfold place in *. cbn [stacks].
        destruct (Nat.eq_dec k (core l)) as [->|N].
        * exists (core l), (S i), z. rewrite nth_set, Nat.eqb_refl. cbn. now rewrite <- E.
        * exists k, i, z. rewrite nth_set. now destruct (Nat.eqb_spec k (core l)).
      + intros k i z Hz. apply P in Hz as [(_ & Q & _)|[(-> & j & Q & Hz)|(_ & Hz)]]; [discriminate| |exact (I5 _ _ _ Hz)].
        injection Q as <-. destruct i as [|i]; [|exact (I5 _ _ _ Hz)]. unfold place in *. rewrite E0 in Hz. injection Hz as <-. intros Q. rewrite Q in X.
        destruct X as (_ & s1 & _ & XG). destruct XG as [XG _]. congruence.
      + exact I6.
    - destruct below as [|z0 below]; [discriminate|]. destruct (idle s x) eqn:D; [|discriminate]. injection H as <- <-.
      rewrite app_nil_r. split; [|intros t r w []].
      assert (P : forall k i z, place (mk_pstate (inner s) (set_n (stacks s) (core l) (z0 :: below)) (fresh s)) k i z ->
                (k = core l /\ place s k (S i) z) \/ (k <> core l /\ place s k i z)).
      { intros k i z Hz. unfold place in Hz. cbn [stacks] in Hz. rewrite nth_set in Hz. destruct (Nat.eqb_spec k (core l)) as [->|N]; [|auto].
        left. split; [reflexivity|]. unfold place. now rewrite E. }
      unfold PInv. cbn [inner fresh]. split; [|split; [|split; [|split; [|split]]]].
      + intros k i z Hz. apply P in Hz as [(_ & Hz)|(_ & Hz)]; eapply I1; eauto.
      + intros k i z Hz. apply P in Hz as [(_ & Hz)|(_ & Hz)]; eapply I2; eauto.
      + intros k k' i i' z z' Hz Hz' T. apply P in Hz, Hz'.
        destruct Hz as [(-> & Hz)|(N & Hz)], Hz' as [(-> & Hz')|(N' & Hz')]; destruct (I3 _ _ _ _ _ _ Hz Hz' T) as [Q1 Q2]; auto; congruence.
      + intros t Ht. destruct (I4 t Ht) as (k & i & z & Hz & <-). unfold place in *. cbn [stacks].
        destruct (Nat.eq_dec k (core l)) as [->|N].
        * destruct i as [|i].
          { exfalso. rewrite E0 in Hz. injection Hz as <-. unfold idle in D. destruct (ph x); try discriminate.
            destruct (pcs (inner s) (thread x)); try discriminate. congruence. }
          exists (core l), i, z. rewrite nth_set, Nat.eqb_refl. rewrite E in Hz. auto.
        * exists k, i, z. rewrite nth_set. now destruct (Nat.eqb_spec k (core l)).
      + intros k i z Hz. apply P in Hz as [(_ & Hz)|(_ & Hz)]; eapply I5; eauto.
      + exact I6.
  Qed.

  Lemma PInv_run ls : forall h s s' h', PInv h s -> prun ar c true s ls = Some (s', h') ->
    PInv (h ++ h') s' /\ (forall h1 t r v h2, h' = h1 ++ (Return t r, v) :: h2 -> called (h ++ h1) t v).
  Proof.
    induction ls as [|l ls IH]; intros h s s' h' I; cbn [prun].
    - intros [= <- <-]. rewrite app_nil_r. split; [exact I|]. intros [|? ?] ? ? ? ? Q; discriminate Q.
    - destruct (pstep ar c true s l) as [[s1 e]|] eqn:E; [|discriminate].
      destruct (prun ar c true s1 ls) as [[s2 es]|] eqn:E2; [|discriminate]. intros [= <- <-].
      destruct (PInv_step _ _ _ _ _ I E) as [I' R]. destruct (IH _ _ _ _ I' E2) as [I2 R2].
      rewrite app_assoc. split; [exact I2|]. intros h1 t r v h2 Q.
      (* a step yields at most one event *)
      assert (L : e = [] \/ exists x, e = [x]).
      { clear - E. unfold pstep in E. destruct (stacks s (core l)) as [|x below]; [discriminate|].
        assert (PS : forall cl, plain_step c s x cl = Some (s1, e) -> e = [] \/ exists x, e = [x]).
        { intros cl. unfold plain_step. destruct (step c (inner s) _) as [[i' ev]|] eqn:ST; [|discriminate].
          destruct (step_shape _ _ _ _ _ ST) as (p' & _ & SH). intros [= _ <-].
          destruct (pcs (inner s) _).
          2-14: destruct SH as (-> & _); auto.
          - destruct SH as (a & o & _ & _ & ->). cbn. eauto.
          - destruct SH as (_ & ->). cbn. eauto. }
        repeat match type of E with
        | plain_step _ _ _ _ = _ => exact (PS _ E)
        | context [match ?d with _ => _ end] => destruct d; try discriminate E
        end; injection E as _ <-; auto. }
      destruct L as [-> |(x & ->)].
      + rewrite app_nil_r in R2. cbn in Q. eapply R2. exact Q.
      + destruct h1 as [|y h1]; cbn in Q; injection Q as Qx Qr.
        * subst x. rewrite app_nil_r. apply (R t r v). now left.
        * subst y. specialize (R2 h1 t r v h2 Qr). now rewrite <- app_assoc in R2.
  Qed.
End Inv.
