(** Programs around a linearizable backend: [fetch_update] takes effect at once, whatever its closure does. *)
From Coq Require Import ZArith List Bool PeanoNat Lia Cantor.
From Verif Require Import Words Spec LinFacts ClientSpec ClientModel.
Import ListNotations.
Open Scope Z_scope.

Lemma id_inj t d t' d' : id t d = id t' d' -> t = t' /\ d = d'.
Proof. unfold id. intros E. assert (H : (t, d) = (t', d')) by (rewrite <- (cancel_of_to (t, d)), <- (cancel_of_to (t', d')); now f_equal). now injection H. Qed.

Section Auto.
  Context {Op Res : Type}.
  Variable sem : Z -> Op -> Z -> Z * Res -> Prop.
  Lemma rsteps_app s h s' h' s'' : rsteps sem s h s' -> rsteps sem s' h' s'' -> rsteps sem s (h ++ h') s''.
  Proof.
    intros H1 H2. induction H2 as [s1 s2 V P|s1 h1 s2 e s3 H IH St].
    - rewrite app_nil_r. inversion H1; subst.
      + apply rs_nil; intros; [now rewrite V, H|now rewrite P, H0].
      + eapply rs_snoc; [eassumption|].
        match goal with R : rstep _ _ _ _ |- _ => inversion R as [? ? t a o A B [C D]|? ? t a o r A B C [D E]|? ? t a o v' r A B [C C'] [D E]|? ? t r A B [C D]]; subst end.
        * eapply r_call; [exact A|intros; now rewrite V|]. split; intros; rewrite P; auto.
        * eapply r_observe; [exact A|exact B|intros; now rewrite V|]. split; intros; rewrite P; auto.
        * eapply r_effect; [exact A|exact B| |]; split; intros; rewrite ?V, ?P; auto.
        * eapply r_return; [exact A|intros; now rewrite V|]. split; intros; rewrite P; auto.
    - rewrite app_assoc. eapply rs_snoc; eauto.
  Qed.
  Lemma rsteps_refl s : rsteps sem s [] s.
  Proof. apply rs_nil; reflexivity. Qed.
  Lemma rsteps_one s e s' : rstep sem s e s' -> rsteps sem s e s'.
  Proof. intros H. change e with ([] ++ e). eapply rs_snoc; [apply rsteps_refl|exact H]. Qed.
  Lemma asteps_cons s e h s' : asteps sem s (e :: h) s' ->
    exists s1 s2, asteps sem s [] s1 /\ astep sem s1 [e] s2 /\ asteps sem s2 h s'.
  Proof.
    intros H. remember (e :: h) as l eqn:E. revert h E. induction H as [s s' V P|s h0 s' e0 s'' H IH St]; intros h E; [discriminate|].
    assert (D : e0 = [] \/ exists x, e0 = [x]) by (inversion St; subst; eauto). destruct D as [-> |[x ->]].
    - rewrite app_nil_r in E. destruct (IH h E) as (s1 & s2 & A & B & C). exists s1, s2. split; [exact A|]. split; [exact B|].
      rewrite <- (app_nil_r h). eapply as_snoc; eauto.
    - destruct h0 as [|y h0]; cbn [app] in E.
      + injection E as -> <-. exists s', s''. split; [exact H|]. split; [exact St|]. apply as_nil; reflexivity.
      + injection E as -> <-. destruct (IH h0 eq_refl) as (s1 & s2 & A & B & C). exists s1, s2. split; [exact A|]. split; [exact B|].
        eapply as_snoc; eauto.
  Qed.
End Auto.

Section Client.
  Context {Op Res : Type}.
  Variable sem : Z -> Op -> Z -> Z * Res -> Prop.
  Variable F : iface Op Res.
  Hypothesis F_ok : iface_ok sem F.
  Variable St : Type.
  Local Notation frame := (frame (Op := Op) (Res := Res) St).
  Local Notation thread := (thread (Op := Op) (Res := Res) St).
  Local Notation hphase := (rphase (Op := hop Op) (Res := hres Res)).
  Local Notation hstate := (rstate (Op := hop Op) (Res := hres Res)).
  Local Notation bstate := (astate Op Res).
  Local Notation hs_sem := (hsem sem).

  Definition upd_op (f : frame) : hop Op := HUpdate (fset _ f) (ffetch _ f).
  Definition seen (f : frame) (r : hres Res) : hphase := RSeen (fa _ f) (upd_op f) r.
  Definition frame_upd (f : frame) : upd := mk_upd (fa _ f) (fset _ f) (ffetch _ f).
  Fixpoint below (fs : list frame) (hp : nat -> hphase) (lg : nat -> last) : Prop :=
    match fs with
    | [] => True
    | f :: r => hp (length r) = seen f (HErr (fprev _ f)) /\ lg (length r) = Asked (frame_upd f) (fprev _ f) /\
              readable F (fa _ f) (fprev _ f) = true /\ below r hp lg
    end.
  Definition tinv (th : thread) (bp : aphase Op Res) (hp : nat -> hphase) (lg : nat -> last) : Prop :=
    match tmode _ th, tframes _ th with
    | Run _ _, fs => bp = AIdle /\ below fs hp lg /\ (forall d, (length fs <= d)%nat -> hp d = RIdle)
    | WaitPrim _ a o _, fs => below fs hp lg /\ (forall d, (length fs < d)%nat -> hp d = RIdle) /\ lg (length fs) = Never /\
        ((bp = APending a o /\ hp (length fs) = RPending a (HPrim o)) \/ exists r, bp = ADone r /\ hp (length fs) = RDone (HRes r))
    | WaitLoad _, f :: r => below r hp lg /\ (forall d, (length r < d)%nat -> hp d = RIdle) /\
        lg (length r) = Called (frame_upd f) /\
        ((bp = APending (fa _ f) (op_load F (fa _ f) (ffetch _ f)) /\ hp (length r) = RPending (fa _ f) (upd_op f)) \/
         exists r0, bp = ADone r0 /\ hp (length r) = seen f (match got F r0 with Some v => HErr v | None => HPanic end) /\
                    (got F r0 = None -> load_panics (ffetch _ f)) /\ (forall v, got F r0 = Some v -> readable F (fa _ f) v = true))
    | WaitCas _ y, f :: r => (typed F (fa _ f) y = true /\ readable F (fa _ f) (fprev _ f) = true) /\ below r hp lg /\ (forall d, (length r < d)%nat -> hp d = RIdle) /\
        lg (length r) = Last (frame_upd f) (fprev _ f) (Answered (Some y)) /\
        ((bp = APending (fa _ f) (op_cas F (fa _ f) (fprev _ f) y (fset _ f) (ffetch _ f)) /\ hp (length r) = seen f (HErr (fprev _ f))) \/
         exists r0, bp = ADone r0 /\
           match swapped F r0 with
           | Some (true, v) => v = fprev _ f /\ hp (length r) = RDone (HOk v y)
           | Some (false, v) => hp (length r) = seen f (HErr v) /\ readable F (fa _ f) v = true
           | None => hp (length r) = seen f HPanic /\ load_panics (ffetch _ f)
           end)
    | _, [] => False
    end.
  Lemma below_ext fs hp lg hp' lg' : (forall d, (d < length fs)%nat -> hp' d = hp d /\ lg' d = lg d) -> below fs hp lg -> below fs hp' lg'.
  Proof.
    induction fs as [|f r IH]; intros E; [trivial|]. cbn [below length] in *. intros (A & B & Rd & C). destruct (E (length r)) as [-> ->]; [lia|].
    split; [exact A|]. split; [exact B|]. split; [exact Rd|]. apply IH; [|exact C]. intros d L. apply E. lia.
  Qed.
  Lemma tinv_ext th bp hp lg hp' lg' bp' : bp' = bp -> (forall d, hp' d = hp d) -> (forall d, lg' d = lg d) -> tinv th bp hp lg -> tinv th bp' hp' lg'.
  Proof.
    intros -> H L. assert (B : forall fs, below fs hp lg -> below fs hp' lg') by (intros fs; apply below_ext; intros; split; auto).
    unfold tinv. destruct (tmode _ th) as [p|a o k| |y]; destruct (tframes _ th) as [|f r]; rewrite ?H, ?L; intros T; try exact T.
    - destruct T as (A & C & D). split; [exact A|]. split; [now apply B|]. intros d Ld. rewrite H. now apply D.
    - destruct T as (A & C & D). split; [exact A|]. split; [now apply B|]. intros d Ld. rewrite H. now apply D.
    - destruct T as (A & C & D). split; [now apply B|]. split; [|exact D]. intros d Ld. rewrite H. now apply C.
    - destruct T as (A & C & D). split; [now apply B|]. split; [|exact D]. intros d Ld. rewrite H. now apply C.
    - destruct T as (A & C & D). split; [now apply B|]. split; [|exact D]. intros d Ld. rewrite H. now apply C.
    - destruct T as (Ty & A & C & D). split; [exact Ty|]. split; [now apply B|]. split; [|exact D]. intros d Ld. rewrite H. now apply C.
  Qed.

  Definition Inv (c : cstate (Op := Op) (Res := Res) St) (b : bstate) (hs : hstate) (lg : nat -> last) : Prop :=
    (forall x, rvals hs x = avals b x) /\
    forall t, tinv (c t) (aphases b t) (fun d => rphases hs (id t d)) (fun d => lg (id t d)).

  Definition hset (hs : hstate) (v : Z -> Z) (i : nat) (p : hphase) : hstate := mk_rstate v (updn (rphases hs) i p).

  (** One operation takes effect in the backend. *)
  Lemma silent1 c b b' hs lg : astep sem b [] b' -> Inv c b hs lg -> exists hs', rstep hs_sem hs [] hs' /\ Inv c b' hs' lg.
  Proof.
    intros S [V T]. inversion S as [ |? ? t a o v' r P Sm U1 U2| ]; subst. destruct U1 as [U1a U1b]. destruct U2 as [U2a U2b].
    (* the other threads *)
    assert (Oth : forall n p u, u <> t ->
      tinv (c u) (aphases b' u) (fun d => rphases (hset hs (avals b') (id t n) p) (id u d)) (fun d => lg (id u d))).
    { intros n p u Hu. eapply tinv_ext; [now apply U2b| |reflexivity|exact (T u)]. intros d. cbn [hset rphases].
      apply updn_other. intros E. now destruct (id_inj _ _ _ _ E). }
    pose proof (T t) as Tt. unfold tinv in Tt. rewrite P in Tt.
    (* thread [t] after its operation *)
    assert (K : forall n p, tinv (c t) (ADone r) (fun d => if Nat.eqb d n then p else rphases hs (id t d)) (fun d => lg (id t d)) ->
      Inv c b' (hset hs (avals b') (id t n) p) lg).
    { intros n p H. split; [reflexivity|]. intros u. destruct (Nat.eq_dec u t) as [->|Hu]; [|now apply Oth].
      eapply tinv_ext; [exact U2a| |reflexivity|exact H]. intros d. cbn [hset rphases]. unfold updn.
      destruct (Nat.eqb_spec d n) as [->|N]; [now rewrite Nat.eqb_refl|]. destruct (Nat.eqb_spec (id t d) (id t n)) as [E|_]; [|reflexivity].
      destruct (id_inj _ _ _ _ E). congruence. }
    assert (Ob : forall n fr rr, rphases hs (id t n) = RPending (fa _ fr) (upd_op fr) \/ (exists r0, rphases hs (id t n) = seen fr r0) ->
      a = fa _ fr -> hs_sem a (upd_op fr) (avals b a) (avals b a, rr) -> v' = avals b a -> rstep hs_sem hs [] (hset hs (avals b') (id t n) (seen fr rr))).
    { intros n fr rr Ph -> Hs Ev. eapply r_observe with (t := id t n); [exact Ph| | |].
      - cbn. rewrite V. exact Hs.
      - intros x. cbn [hset rvals]. rewrite V. destruct (Z.eq_dec x (fa _ fr)) as [->|N]; [congruence|now apply U1b].
      - cbn [hset rphases]. split; [apply updn_same|]. intros; now apply updn_other. }
    assert (Ef : forall n oo rr, rphases hs (id t n) = RPending a oo \/ (exists r0, rphases hs (id t n) = RSeen a oo r0) ->
      hs_sem a oo (avals b a) (v', rr) -> rstep hs_sem hs [] (hset hs (avals b') (id t n) (RDone rr))).
    { intros n oo rr Ph Hs. eapply r_effect with (t := id t n); [exact Ph| | |].
      - rewrite V. exact Hs.
      - cbn [hset rvals]. split; [exact U1a|]. intros y Hy. rewrite V. now apply U1b.
      - cbn [hset rphases]. split; [apply updn_same|]. intros; now apply updn_other. }
    assert (Bl : forall (l : list frame) n p, (length l <= n)%nat -> below l (fun d => rphases hs (id t d)) (fun d => lg (id t d)) ->
      below l (fun d => if Nat.eqb d n then p else rphases hs (id t d)) (fun d => lg (id t d))).
    { intros l n p L. apply below_ext. intros d Ld. destruct (Nat.eqb_spec d n); [lia|]. auto. }
    assert (Id : forall n p, (forall d, (n < d)%nat -> rphases hs (id t d) = RIdle) -> forall d, (n < d)%nat -> (if Nat.eqb d n then p else rphases hs (id t d)) = RIdle).
    { intros n p H d L. destruct (Nat.eqb_spec d n); [lia|]. auto. }
    destruct (tmode _ (c t)) as [p|a0 o0 k| |y] eqn:EM; destruct (tframes _ (c t)) as [|f fr] eqn:EF; try contradiction Tt; try (destruct Tt as [Tt _]; discriminate Tt).
    - destruct Tt as (B & I & Ln & [[E H]|(r0 & E & _)]); [|discriminate E]. injection E as -> ->.
      eexists. split; [eapply Ef with (n := 0%nat) (rr := HRes r); [left; exact H|exact Sm]|]. apply K. unfold tinv. rewrite EM, EF. cbn [length] in *.
      split; [exact Logic.I|]. split; [now apply Id|]. split; [exact Ln|]. right. exists r. split; reflexivity.
    - destruct Tt as (B & I & Ln & [[E H]|(r0 & E & _)]); [|discriminate E]. injection E as -> ->.
      eexists. split; [eapply Ef with (n := length (f :: fr)) (rr := HRes r); [left; exact H|exact Sm]|]. apply K. unfold tinv. rewrite EM, EF.
      split; [apply Bl; [reflexivity|exact B]|]. split; [now apply Id|]. split; [exact Ln|]. right. exists r. split; [reflexivity|]. now rewrite Nat.eqb_refl.
    - destruct Tt as (B & I & Ln & [[E H]|(r0 & E & _)]); [|discriminate E]. injection E as -> ->.
      destruct (proj1 F_ok _ _ _ _ _ Sm) as [Ev G].
      eexists. split; [eapply Ob with (n := length fr) (fr := f) (rr := match got F r with Some v => HErr v | None => HPanic end); [left; exact H|reflexivity| |exact Ev]|].
      + destruct (got F r); cbn [upd_op hsem]; [destruct G|]; auto.
      + apply K. unfold tinv. rewrite EM, EF. split; [apply Bl; [reflexivity|exact B]|]. split; [now apply Id|]. split; [exact Ln|].
        right. exists r. split; [reflexivity|]. rewrite Nat.eqb_refl. split; [reflexivity|]. split; [intros E; now rewrite E in G|]. intros v E. rewrite E in G. exact (proj2 G).
    - destruct Tt as (Ty & B & I & Ln & [[E H]|(r0 & E & _)]); [|discriminate E]. injection E as -> ->.
      pose proof (proj2 F_ok _ _ _ _ _ _ _ _ (proj2 Ty) (proj1 Ty) Sm) as G. destruct (swapped F r) as [[[|] v]|] eqn:ES.
      + destruct G as (-> & G1 & G2). eexists. split; [eapply Ef with (n := length fr) (oo := upd_op f) (rr := HOk (fprev _ f) y); [right; eexists; exact H|]|].
        * cbn [upd_op hsem]. auto.
        * apply K. unfold tinv. rewrite EM, EF. split; [exact Ty|]. split; [apply Bl; [reflexivity|exact B]|]. split; [now apply Id|]. split; [exact Ln|].
          right. exists r. split; [reflexivity|]. rewrite ES, Nat.eqb_refl. auto.
      + destruct G as (G1 & G2 & G3). eexists. split; [eapply Ob with (n := length fr) (fr := f) (rr := HErr v); [right; eexists; exact H|reflexivity| |exact G2]|].
        * cbn [upd_op hsem]. auto.
        * apply K. unfold tinv. rewrite EM, EF. split; [exact Ty|]. split; [apply Bl; [reflexivity|exact B]|]. split; [now apply Id|]. split; [exact Ln|].
          right. exists r. split; [reflexivity|]. rewrite ES, Nat.eqb_refl. auto.
      + destruct G as (G1 & G2). eexists. split; [eapply Ob with (n := length fr) (fr := f) (rr := HPanic); [right; eexists; exact H|reflexivity| |exact G1]|].
        * cbn [upd_op hsem]. auto.
        * apply K. unfold tinv. rewrite EM, EF. split; [exact Ty|]. split; [apply Bl; [reflexivity|exact B]|]. split; [now apply Id|]. split; [exact Ln|].
          right. exists r. split; [reflexivity|]. rewrite ES, Nat.eqb_refl. auto.
  Qed.
  Lemma Inv_aeq c b b' hs lg : (forall x, avals b' x = avals b x) -> (forall t, aphases b' t = aphases b t) -> Inv c b hs lg -> Inv c b' hs lg.
  Proof. intros V P [A B]. split; [intros; now rewrite V|]. intros t. eapply tinv_ext; [apply P| | |exact (B t)]; reflexivity. Qed.
  Lemma silent c b b' hs lg : asteps sem b [] b' -> Inv c b hs lg -> exists hs', rsteps hs_sem hs [] hs' /\ Inv c b' hs' lg.
  Proof.
    intros S. remember [] as h eqn:E. revert hs E. induction S as [s s' V P|s h s' e s'' H IH St']; intros hs E I.
    - exists hs. split; [apply rsteps_refl|]. now apply Inv_aeq with (b := s).
    - apply app_eq_nil in E as [-> ->]. destruct (IH hs eq_refl I) as (h1 & R1 & I1). destruct (silent1 _ _ _ _ _ St' I1) as (h2 & R2 & I2).
      exists h2. split; [|exact I2]. change (@nil (event (hop Op) (hres Res))) with (@nil (event (hop Op) (hres Res)) ++ []). eapply rs_snoc; eauto.
  Qed.

  Lemma eqb_id t n d : Nat.eqb (id t d) (id t n) = Nat.eqb d n.
  Proof.
    destruct (Nat.eqb_spec d n) as [->|N]; [apply Nat.eqb_refl|]. apply Nat.eqb_neq. intros E. destruct (id_inj _ _ _ _ E). contradiction.
  Qed.
  Lemma base_call c b hs lg t a o rest bf : asteps sem b (Call t a o :: rest) bf -> Inv c b hs lg ->
    exists b1 hs1 b2, rsteps hs_sem hs [] hs1 /\ Inv c b1 hs1 lg /\ aphases b1 t = AIdle /\ (forall x, avals b2 x = avals b1 x) /\
      aphases b2 t = APending a o /\ (forall u, u <> t -> aphases b2 u = aphases b1 u) /\ asteps sem b2 rest bf.
  Proof.
    intros S I. destruct (asteps_cons _ _ _ _ _ S) as (b1 & b2 & S1 & S2 & S3). destruct (silent _ _ _ _ _ S1 I) as (h1 & R & I1).
    exists b1, h1, b2. inversion S2 as [? ? ? ? ? P V [U1 U2]| |]; subst. auto 10.
  Qed.
  Lemma base_return c b hs lg t r rest bf : asteps sem b (Return t r :: rest) bf -> Inv c b hs lg ->
    exists b1 hs1 b2, rsteps hs_sem hs [] hs1 /\ Inv c b1 hs1 lg /\ aphases b1 t = ADone r /\ (forall x, avals b2 x = avals b1 x) /\
      aphases b2 t = AIdle /\ (forall u, u <> t -> aphases b2 u = aphases b1 u) /\ asteps sem b2 rest bf.
  Proof.
    intros S I. destruct (asteps_cons _ _ _ _ _ S) as (b1 & b2 & S1 & S2 & S3). destruct (silent _ _ _ _ _ S1 I) as (h1 & R & I1).
    exists b1, h1, b2. inversion S2 as [| |? ? ? ? P V [U1 U2]]; subst. auto 10.
  Qed.
  Lemma high_call hs i a o : rphases hs i = RIdle -> rstep hs_sem hs [Call i a o] (hset hs (rvals hs) i (RPending a o)).
  Proof. intros H. apply r_call; cbn; auto. split; [apply updn_same|]. intros; now apply updn_other. Qed.
  Lemma high_return hs i r : rphases hs i = RDone r \/ (exists a o, rphases hs i = RSeen a o r) -> rstep hs_sem hs [Return i r] (hset hs (rvals hs) i RIdle).
  Proof. intros H. apply r_return; cbn; auto. split; [apply updn_same|]. intros; now apply updn_other. Qed.
  (** Only thread [t], and its [id] at depth [n], changed. *)
  Lemma Inv_set c b hs lg b' t th n p lg' l :
    Inv c b hs lg -> (forall x, avals b' x = avals b x) -> (forall u, u <> t -> aphases b' u = aphases b u) ->
    (forall i, lg' i = if Nat.eqb i (id t n) then l else lg i) ->
    tinv th (aphases b' t) (updn (fun d => rphases hs (id t d)) n p) (updn (fun d => lg (id t d)) n l) ->
    Inv (fun u => if Nat.eqb u t then th else c u) b' (hset hs (rvals hs) (id t n) p) lg'.
  Proof.
    intros [V T] V' P' L' H. split; [intros x; cbn [hset rvals]; now rewrite V'|]. intros u. destruct (Nat.eqb_spec u t) as [->|N].
    - eapply tinv_ext; [reflexivity| | |exact H]; intros d; unfold updn; cbn [hset rphases].
      + unfold updn. now rewrite eqb_id.
      + now rewrite L', eqb_id.
    - eapply tinv_ext; [now apply P'| | |exact (T u)]; intros d.
      + cbn [hset rphases]. apply updn_other. intros E. now destruct (id_inj _ _ _ _ E).
      + rewrite L'. destruct (Nat.eqb_spec (id u d) (id t n)) as [E|_]; [|reflexivity]. now destruct (id_inj _ _ _ _ E).
  Qed.
  Lemma below_upd (l : list frame) hp lg n p x : (length l <= n)%nat -> below l hp lg -> below l (updn hp n p) (updn lg n x).
  Proof. intros L. apply below_ext. intros d Ld. rewrite !updn_other by lia. auto. Qed.
  Lemma idle_upd (hp : nat -> hphase) n p m : (forall d, (m <= d)%nat -> hp d = RIdle) -> (n < m)%nat -> forall d, (m <= d)%nat -> updn hp n p d = RIdle.
  Proof. intros H N d L. rewrite updn_other by lia. auto. Qed.

  Lemma cstep c c' b hs lg l es rest bf :
    client_step F St c l = Some (c', es) -> Inv c b hs lg -> asteps sem b (base_of es ++ rest) bf ->
    exists b' hs', asteps sem b' rest bf /\ rsteps hs_sem hs (high_of es) hs' /\ Inv c' b' hs' (fold_left log_step es lg) /\ answers_ok lg es.
  Proof.
    destruct l as [t r]. unfold client_step. cbn [fst snd]. unfold thread_step. intros H I S. pose proof (proj2 I t) as Tt. unfold tinv in Tt.
    assert (TT : forall c1 b1 h1, Inv c1 b1 h1 lg -> c1 t = c t -> tinv (c t) (aphases b1 t) (fun d => rphases h1 (id t d)) (fun d => lg (id t d)))
      by (intros c1 b1 h1 I1 E; rewrite <- E; apply (proj2 I1 t)).
    destruct (tmode _ (c t)) as [p|a0 o0 k| |y] eqn:EM.
    - destruct p as [s [y|]|s|a o k|a so fo s f k].
      + (* the closure answers Some *)
        destruct (tframes _ (c t)) as [|f fr] eqn:EF; [discriminate H|]. destruct r; [discriminate H|]. destruct (typed F (fa _ f) y) eqn:Ty; [|discriminate H].
        injection H as <- <-. cbn [base_of app] in S. destruct (base_call _ _ _ _ _ _ _ _ _ S I) as (b1 & h1 & b2 & R & I1 & B1 & V2 & B2 & O2 & S2).
        pose proof (TT _ _ _ I1 eq_refl) as T1. unfold tinv in T1. rewrite EM, EF in T1. destruct T1 as (_ & (Hp & Lg & Rd & Bl) & Id).
        exists b2, (hset h1 (rvals h1) (id t (length fr)) (rphases h1 (id t (length fr)))). split; [exact S2|]. split; [|split; [|cbn; auto]].
        * cbn [high_of]. change (@nil (event (hop Op) (hres Res))) with (@nil (event (hop Op) (hres Res)) ++ []). eapply rsteps_app; [exact R|].
          apply rs_nil; cbn [hset rvals rphases]; [reflexivity|]. intros u. unfold updn. destruct (Nat.eqb_spec u (id t (length fr))) as [->|]; reflexivity.
        * eapply Inv_set with (l := Last (frame_upd f) (fprev _ f) (Answered (Some y))); [exact I1|exact V2|exact O2| |].
          { intros i. cbn [fold_left log_step]. now rewrite Lg. }
          { unfold tinv. cbn [tmode tframes length with_prev fa fset ffetch fprev] in *. split; [split; [exact Ty|exact Rd]|]. split; [apply below_upd; [lia|exact Bl]|].
            split; [apply idle_upd; [exact Id|lia]|]. rewrite !updn_same. split; [reflexivity|]. left. split; [exact B2|exact Hp]. }
      + (* the closure answers None *)
        destruct (tframes _ (c t)) as [|f fr] eqn:EF; [discriminate H|]. destruct r; [discriminate H|]. injection H as <- <-.
        destruct Tt as (Bp & (Hp & Lg & Rd & Bl) & Id). exists b, (hset hs (rvals hs) (id t (length fr)) RIdle). split; [exact S|]. split; [|split].
        * cbn [high_of]. apply rsteps_one, high_return. right. unfold seen in Hp. eauto.
        * eapply Inv_set with (l := Last (frame_upd f) (fprev _ f) (Answered None)); [exact I|reflexivity|reflexivity| |].
          { intros i. cbn [fold_left log_step]. now rewrite Lg. }
          { unfold tinv. cbn [tmode tframes length] in *. split; [exact Bp|]. split; [apply below_upd; [lia|exact Bl]|].
            intros d Ld. destruct (Nat.eq_dec d (length fr)) as [->|N]; [apply updn_same|]. rewrite updn_other by exact N. apply Id. lia. }
        * cbn [answers_ok]. split; [exact Logic.I|]. split; [|exact Logic.I]. cbn [log_step]. rewrite Lg, Nat.eqb_refl. eexists _. reflexivity.
      + (* the closure panics *)
        destruct (tframes _ (c t)) as [|f fr] eqn:EF; [discriminate H|]. destruct r; [discriminate H|]. injection H as <- <-.
        destruct Tt as (Bp & (Hp & Lg & Rd & Bl) & Id). set (h1 := hset hs (rvals hs) (id t (length fr)) (seen f HPanic)).
        exists b, (hset hs (rvals hs) (id t (length fr)) RIdle). split; [exact S|]. split; [|split].
        * cbn [high_of]. change [Return (id t (length fr)) HPanic] with ([] ++ [@Return (hop Op) (hres Res) (id t (length fr)) HPanic]).
          eapply rsteps_app with (s' := h1); apply rsteps_one.
          { eapply r_observe with (t := id t (length fr)) (r := HPanic); [right; exists (HErr (fprev _ f)); exact Hp|cbn; reflexivity|reflexivity|].
            unfold h1. cbn [hset rphases]. split; [apply updn_same|]. intros; now apply updn_other. }
          { eapply r_return with (t := id t (length fr)); [right; unfold h1; cbn [hset rphases]; rewrite updn_same; unfold seen; eauto|reflexivity|].
            unfold h1. cbn [hset rphases]. split; [apply updn_same|]. intros; now rewrite !updn_other. }
        * eapply Inv_set with (l := Last (frame_upd f) (fprev _ f) Panicked); [exact I|reflexivity|reflexivity| |].
          { intros i. cbn [fold_left log_step]. now rewrite Lg. }
          { unfold tinv. cbn [tmode tframes length] in *. split; [exact Bp|]. split; [apply below_upd; [lia|exact Bl]|].
            intros d Ld. destruct (Nat.eq_dec d (length fr)) as [->|N]; [apply updn_same|]. rewrite updn_other by exact N. apply Id. lia. }
        * cbn [answers_ok]. split; [exact Logic.I|]. split; [|exact Logic.I]. cbn [log_step]. rewrite Lg, Nat.eqb_refl. left. eexists _, _. reflexivity.
      + (* another operation *)
        destruct r; [destruct (tframes _ (c t)); discriminate H|].
        set (fr := tframes _ (c t)) in *. assert (H' : Some (fun u => if (u =? t)%nat then mk_thread St (WaitPrim St a o k) fr else c u, [High (Call (id t (length fr)) a (HPrim o)); Base (Call t a o)]) = Some (c', es))
          by (destruct fr; exact H). clear H. injection H' as <- <-. cbn [base_of app] in S.
        destruct (base_call _ _ _ _ _ _ _ _ _ S I) as (b1 & h1 & b2 & R & I1 & B1 & V2 & B2 & O2 & S2).
        pose proof (TT _ _ _ I1 eq_refl) as T1. unfold tinv in T1. rewrite EM in T1. fold fr in T1. destruct T1 as (_ & Bl & Id).
        exists b2, (hset h1 (rvals h1) (id t (length fr)) (RPending a (HPrim o))). split; [exact S2|]. split; [|split; [|cbn; auto]].
        * cbn [high_of]. change ([@Call (hop Op) (hres Res) (id t (length fr)) a (HPrim o)]) with ([] ++ [@Call (hop Op) (hres Res) (id t (length fr)) a (HPrim o)]).
          eapply rsteps_app; [exact R|]. apply rsteps_one, high_call. apply Id. lia.
        * eapply Inv_set with (l := Never); [exact I1|exact V2|exact O2|reflexivity|].
          unfold tinv. cbn [tmode tframes]. split; [apply below_upd; [lia|exact Bl]|]. split; [intros d Ld; rewrite updn_other by lia; apply Id; lia|].
          rewrite !updn_same. split; [reflexivity|]. left. split; [exact B2|reflexivity].
      + (* fetch_update is called *)
        destruct r; [destruct (tframes _ (c t)); discriminate H|]. set (fr := tframes _ (c t)) in *.
        assert (H' : Some (fun u => if (u =? t)%nat then mk_thread St (WaitLoad St) (mk_frame St a so fo s f k 0 :: fr) else c u,
                      [High (Call (id t (length fr)) a (HUpdate so fo)); Base (Call t a (op_load F a fo))]) = Some (c', es))
          by (destruct fr; exact H). clear H. injection H' as <- <-. cbn [base_of app] in S.
        destruct (base_call _ _ _ _ _ _ _ _ _ S I) as (b1 & h1 & b2 & R & I1 & B1 & V2 & B2 & O2 & S2).
        pose proof (TT _ _ _ I1 eq_refl) as T1. unfold tinv in T1. rewrite EM in T1. fold fr in T1. destruct T1 as (_ & Bl & Id).
        exists b2, (hset h1 (rvals h1) (id t (length fr)) (RPending a (HUpdate so fo))). split; [exact S2|]. split; [|split; [|cbn; auto]].
        * cbn [high_of]. change ([@Call (hop Op) (hres Res) (id t (length fr)) a (HUpdate so fo)]) with ([] ++ [@Call (hop Op) (hres Res) (id t (length fr)) a (HUpdate so fo)]).
          eapply rsteps_app; [exact R|]. apply rsteps_one, high_call. apply Id. lia.
        * eapply Inv_set with (l := Called (mk_upd a so fo)); [exact I1|exact V2|exact O2|reflexivity|].
          unfold tinv. cbn [tmode tframes fa fset ffetch]. split; [apply below_upd; [lia|exact Bl]|]. split; [intros d Ld; rewrite updn_other by lia; apply Id; lia|].
          rewrite !updn_same. split; [reflexivity|]. left. split; [exact B2|reflexivity].
    - (* another operation returns *)
      destruct r as [r|]; [|destruct (tframes _ (c t)); discriminate H]. set (fr := tframes _ (c t)) in *.
      assert (H' : Some (fun u => if (u =? t)%nat then mk_thread St (Run St (k r)) fr else c u, [Base (Return t r); High (Return (id t (length fr)) (HRes r))]) = Some (c', es))
        by (destruct fr; exact H). clear H. injection H' as <- <-. cbn [base_of app] in S.
      destruct (base_return _ _ _ _ _ _ _ _ S I) as (b1 & h1 & b2 & R & I1 & B1 & V2 & B2 & O2 & S2).
      pose proof (TT _ _ _ I1 eq_refl) as T1. unfold tinv in T1. rewrite EM, B1 in T1. fold fr in T1. destruct T1 as (Bl & Id & Lg & [[E _]|(r0 & E & Hp)]); [discriminate E|].
      injection E as <-. exists b2, (hset h1 (rvals h1) (id t (length fr)) RIdle). split; [exact S2|]. split; [|split].
      * cbn [high_of]. change ([@Return (hop Op) (hres Res) (id t (length fr)) (HRes r)]) with ([] ++ [@Return (hop Op) (hres Res) (id t (length fr)) (HRes r)]).
        eapply rsteps_app; [exact R|]. apply rsteps_one, high_return. left. exact Hp.
      * eapply Inv_set with (l := lg (id t (length fr))); [exact I1|exact V2|exact O2| |].
        { intros i. cbn [fold_left log_step]. destruct (Nat.eqb_spec i (id t (length fr))) as [->|]; reflexivity. }
        { unfold tinv. cbn [tmode tframes]. split; [exact B2|]. split; [apply below_upd; [lia|exact Bl]|].
          intros d Ld. destruct (Nat.eq_dec d (length fr)) as [->|N]; [apply updn_same|]. rewrite updn_other by exact N. apply Id. lia. }
      * cbn [answers_ok]. split; [exact Logic.I|]. split; [|exact Logic.I]. exact Lg.
    - (* the load returns *)
      destruct (tframes _ (c t)) as [|f fr] eqn:EF; [discriminate H|]. destruct r as [r|]; [|discriminate H].
      assert (S' : asteps sem b (Return t r :: rest) bf) by (destruct (got F r); injection H as <- <-; exact S).
      destruct (base_return _ _ _ _ _ _ _ _ S' I) as (b1 & h1 & b2 & R & I1 & B1 & V2 & B2 & O2 & S2).
      pose proof (TT _ _ _ I1 eq_refl) as T1. unfold tinv in T1. rewrite EM, EF, B1 in T1. destruct T1 as (Bl & Id & Lg & [[E _]|(r0 & E & Hp & Pn & Rd)]); [discriminate E|].
      injection E as <-. destruct (got F r) as [v|] eqn:EG; injection H as <- <-.
      + exists b2, (hset h1 (rvals h1) (id t (length fr)) (seen f (HErr v))). split; [exact S2|]. split; [|split; [|cbn; auto]].
        * cbn [high_of]. change (@nil (event (hop Op) (hres Res))) with (@nil (event (hop Op) (hres Res)) ++ []). eapply rsteps_app; [exact R|].
          apply rs_nil; cbn [hset rvals rphases]; [reflexivity|]. intros u. unfold updn. destruct (Nat.eqb_spec u (id t (length fr))) as [->|]; [now rewrite Hp|reflexivity].
        * eapply Inv_set with (l := Asked (frame_upd f) v); [exact I1|exact V2|exact O2| |].
          { intros i. cbn [fold_left log_step]. now rewrite Lg. }
          { unfold tinv. cbn [tmode tframes below length with_prev fset ffetch fprev]. split; [exact B2|]. rewrite !updn_same. split.
            - split; [reflexivity|]. split; [reflexivity|]. split; [cbn [fa]; now apply Rd|]. apply below_upd; [lia|exact Bl].
            - intros d Ld. rewrite updn_other by lia. apply Id. lia. }
      + exists b2, (hset h1 (rvals h1) (id t (length fr)) RIdle). split; [exact S2|]. split; [|split].
        * cbn [high_of]. change ([@Return (hop Op) (hres Res) (id t (length fr)) HPanic]) with ([] ++ [@Return (hop Op) (hres Res) (id t (length fr)) HPanic]).
          eapply rsteps_app; [exact R|]. apply rsteps_one, high_return. right. unfold seen in Hp. eauto.
        * eapply Inv_set with (l := lg (id t (length fr))); [exact I1|exact V2|exact O2| |].
          { intros i. cbn [fold_left log_step]. destruct (Nat.eqb_spec i (id t (length fr))) as [->|]; reflexivity. }
          { unfold tinv. cbn [tmode tframes]. split; [exact B2|]. split; [apply below_upd; [lia|exact Bl]|].
            intros d Ld. destruct (Nat.eq_dec d (length fr)) as [->|N]; [apply updn_same|]. rewrite updn_other by exact N. apply Id. lia. }
        * cbn [answers_ok]. split; [exact Logic.I|]. split; [|exact Logic.I]. cbn [log_step return_ok]. right. rewrite Lg. eexists _. split; [reflexivity|auto].
    - (* the compare_exchange returns *)
      destruct (tframes _ (c t)) as [|f fr] eqn:EF; [discriminate H|]. destruct r as [r|]; [|discriminate H].
      assert (S' : asteps sem b (Return t r :: rest) bf) by (destruct (swapped F r) as [[[|] v]|]; injection H as <- <-; exact S).
      destruct (base_return _ _ _ _ _ _ _ _ S' I) as (b1 & h1 & b2 & R & I1 & B1 & V2 & B2 & O2 & S2).
      pose proof (TT _ _ _ I1 eq_refl) as T1. unfold tinv in T1. rewrite EM, EF, B1 in T1. destruct T1 as (Ty & Bl & Id & Lg & [[E _]|(r0 & E & Hp)]); [discriminate E|].
      injection E as <-. destruct (swapped F r) as [[[|] v]|] eqn:EG; injection H as <- <-.
      + destruct Hp as [-> Hp]. exists b2, (hset h1 (rvals h1) (id t (length fr)) RIdle). split; [exact S2|]. split; [|split].
        * cbn [high_of]. change ([@Return (hop Op) (hres Res) (id t (length fr)) (HOk (fprev _ f) y)]) with ([] ++ [@Return (hop Op) (hres Res) (id t (length fr)) (HOk (fprev _ f) y)]).
          eapply rsteps_app; [exact R|]. apply rsteps_one, high_return. left. exact Hp.
        * eapply Inv_set with (l := lg (id t (length fr))); [exact I1|exact V2|exact O2| |].
          { intros i. cbn [fold_left log_step]. destruct (Nat.eqb_spec i (id t (length fr))) as [->|]; reflexivity. }
          { unfold tinv. cbn [tmode tframes]. split; [exact B2|]. split; [apply below_upd; [lia|exact Bl]|].
            intros d Ld. destruct (Nat.eq_dec d (length fr)) as [->|N]; [apply updn_same|]. rewrite updn_other by exact N. apply Id. lia. }
        * cbn [answers_ok]. split; [exact Logic.I|]. split; [|exact Logic.I]. cbn [log_step return_ok]. rewrite Lg. eexists _. reflexivity.
      + destruct Hp as [Hp Rd]. exists b2, (hset h1 (rvals h1) (id t (length fr)) (seen f (HErr v))). split; [exact S2|]. split; [|split; [|cbn; auto]].
        * cbn [high_of]. change (@nil (event (hop Op) (hres Res))) with (@nil (event (hop Op) (hres Res)) ++ []). eapply rsteps_app; [exact R|].
          apply rs_nil; cbn [hset rvals rphases]; [reflexivity|]. intros u. unfold updn. destruct (Nat.eqb_spec u (id t (length fr))) as [->|]; [now rewrite Hp|reflexivity].
        * eapply Inv_set with (l := Asked (frame_upd f) v); [exact I1|exact V2|exact O2| |].
          { intros i. cbn [fold_left log_step]. now rewrite Lg. }
          { unfold tinv. cbn [tmode tframes below length with_prev fset ffetch fprev]. split; [exact B2|]. rewrite !updn_same. split.
            - split; [reflexivity|]. split; [reflexivity|]. split; [exact Rd|]. apply below_upd; [lia|exact Bl].
            - intros d Ld. rewrite updn_other by lia. apply Id. lia. }
      + destruct Hp as [Hp Pn]. exists b2, (hset h1 (rvals h1) (id t (length fr)) RIdle). split; [exact S2|]. split; [|split].
        * cbn [high_of]. change ([@Return (hop Op) (hres Res) (id t (length fr)) HPanic]) with ([] ++ [@Return (hop Op) (hres Res) (id t (length fr)) HPanic]).
          eapply rsteps_app; [exact R|]. apply rsteps_one, high_return. right. unfold seen in Hp. eauto.
        * eapply Inv_set with (l := lg (id t (length fr))); [exact I1|exact V2|exact O2| |].
          { intros i. cbn [fold_left log_step]. destruct (Nat.eqb_spec i (id t (length fr))) as [->|]; reflexivity. }
          { unfold tinv. cbn [tmode tframes]. split; [exact B2|]. split; [apply below_upd; [lia|exact Bl]|].
            intros d Ld. destruct (Nat.eq_dec d (length fr)) as [->|N]; [apply updn_same|]. rewrite updn_other by exact N. apply Id. lia. }
        * cbn [answers_ok]. split; [exact Logic.I|]. split; [|exact Logic.I]. cbn [log_step return_ok]. right. rewrite Lg. eexists _. split; [reflexivity|exact Pn].
  Qed.

  Lemma base_of_app (l l' : list (cevent Op Res)) : base_of (l ++ l') = base_of l ++ base_of l'.
  Proof. induction l as [|[]]; cbn; congruence. Qed.
  Lemma high_of_app (l l' : list (cevent Op Res)) : high_of (l ++ l') = high_of l ++ high_of l'.
  Proof. induction l as [|[]]; cbn; congruence. Qed.
  Lemma answers_app lg (l l' : list (cevent Op Res)) : answers_ok lg l -> answers_ok (fold_left log_step l lg) l' -> answers_ok lg (l ++ l').
  Proof. revert lg. induction l as [|e l IH]; intros lg H1 H2; [exact H2|]. cbn [app answers_ok fold_left] in *. destruct H1. split; auto. Qed.

  Lemma calls_prev lg p (l : list (cevent Op Res)) : calls_ok F lg None l -> calls_ok F lg p l.
  Proof. destruct l as [|e l]; [trivial|]. cbn [calls_ok]. intros [A B]. split; [|exact B]. destruct e as [| | |[]]; try exact Logic.I. contradiction A. Qed.
  Lemma calls_app lg p (l l' : list (cevent Op Res)) : calls_ok F lg p l -> calls_ok F (fold_left log_step l lg) None l' -> calls_ok F lg p (l ++ l').
  Proof.
    revert lg p. induction l as [|e l IH]; intros lg p A B; cbn [app fold_left] in *; [now apply calls_prev|].
    cbn [calls_ok] in *. destruct A as [A A']. split; [exact A|]. now apply IH.
  Qed.
  Lemma step_calls c c' b hs lg l es : client_step F St c l = Some (c', es) -> Inv c b hs lg -> calls_ok F lg None es.
  Proof.
    destruct l as [t r]. unfold client_step. cbn [fst snd]. unfold thread_step. intros H I. pose proof (proj2 I t) as Tt. unfold tinv in Tt.
    destruct (tmode _ (c t)) as [p|a0 o0 k| |y]; destruct (tframes _ (c t)) as [|f fr]; destruct r as [r|];
      try destruct p as [s [y|]|s|a o k|a so fo s g k];
      try discriminate H; try (destruct (typed F (fa _ f) y); [|discriminate H]); try (destruct (got F r));
      try (destruct (swapped F r) as [[[|] v]|]); injection H as _ <-; cbn [calls_ok call_ok]; repeat split; auto.
    destruct Tt as (_ & (_ & Lg & _) & _). cbn [log_step]. rewrite Lg, Nat.eqb_refl. eexists _, _. split; [reflexivity|]. split; reflexivity.
  Qed.
  Lemma crun ls : forall c b hs lg c' tr bf, client_run F St c ls = Some (c', tr) -> Inv c b hs lg -> asteps sem b (base_of tr) bf ->
    exists hs' lg', rsteps hs_sem hs (high_of tr) hs' /\ Inv c' bf hs' lg' /\ answers_ok lg tr /\ calls_ok F lg None tr.
  Proof.
    induction ls as [|l ls IH]; intros c b hs lg c' tr bf H I S; cbn [client_run] in H.
    - injection H as <- <-. destruct (silent _ _ _ _ _ S I) as (h1 & R & I1). exists h1, lg. split; [exact R|]. split; [exact I1|]. split; exact Logic.I.
    - destruct (client_step F St c l) as [[c1 es]|] eqn:E1; [|discriminate H]. destruct (client_run F St c1 ls) as [[c2 es2]|] eqn:E2; [|discriminate H].
      injection H as <- <-. rewrite base_of_app in S. destruct (cstep _ _ _ _ _ _ _ _ _ E1 I S) as (b1 & h1 & S1 & R1 & I1 & A1).
      destruct (IH _ _ _ _ _ _ _ E2 I1 S1) as (h2 & lg2 & R2 & I2 & A2 & C2). exists h2, lg2. rewrite high_of_app.
      split; [eapply rsteps_app; eauto|]. split; [exact I2|]. split; [now apply answers_app|].
      apply calls_app; [exact (step_calls _ _ _ _ _ _ _ E1 I)|exact C2].
  Qed.
  Theorem client_correct progs ls c tr init fin : client_run F St (client_init St progs) ls = Some (c, tr) ->
    linearizable_to sem init (base_of tr) fin -> linearizable_to hs_sem init (high_of tr) fin /\ answers_ok (fun _ => Never) tr /\ calls_ok F (fun _ => Never) None tr.
  Proof.
    intros H (bf & S & Hf). destruct (crun ls _ (mk_astate init (fun _ => AIdle)) (mk_rstate init (fun _ => RIdle)) (fun _ => Never) _ _ bf H) as (hs & lg & R & I & A & C).
    - split; [reflexivity|]. intros t. unfold tinv, client_init. cbn. repeat split; auto.
    - exact S.
    - split; [|split; [exact A|exact C]]. eapply rsteps_linearizable_to; [exact R|]. intros a v Ev. rewrite (proj1 I). now apply Hf.
  Qed.
End Client.

Section Outside.
  Context {Op Res : Type}.
  Variable F : iface Op Res.
  Variable St : Type.
  Definition waiting (th : thread (Op := Op) (Res := Res) St) : bool := match tmode _ th with Run _ _ => false | _ => true end.
  Definition quiet (t : nat) (p : bool) (tr : list (cevent Op Res)) : Prop :=
    forall tr1 tr2 d e, tr = tr1 ++ e :: tr2 -> (exists x, e = Eval (id t d) x) \/ (exists y, e = Answer (id t d) y) -> pending t (base_of tr1) p = false.
  Lemma pending_app t (h h' : list (event Op Res)) p : pending t (h ++ h') p = pending t h' (pending t h p).
  Proof. revert p. induction h as [|[u a o|u r] h IH]; intros p; cbn; auto. Qed.
  Lemma quiet_app t p es tr : quiet t p es -> quiet t (pending t (base_of es) p) tr -> quiet t p (es ++ tr).
  Proof.
    intros A B tr1 tr2 d e E H. apply app_eq_app in E as (l & [[-> E2]|[-> E2]]).
    - destruct l as [|x l]; cbn [app] in E2.
      + rewrite app_nil_r in *. specialize (B [] tr2 d e). cbn in B. apply B; auto.
      + injection E2 as -> ->. apply (A tr1 l d x); auto.
    - rewrite base_of_app, pending_app. apply (B l tr2 d e); auto.
  Qed.
  Lemma quiet_nil t p : quiet t p [].
  Proof. intros [|] ? ? ?; discriminate. Qed.
  Lemma quiet_cons t p e tr :
    (match e with Eval i _ | Answer i _ => (exists d, i = id t d) -> p = false | _ => True end) ->
    quiet t (pending t (base_of [e]) p) tr -> quiet t p (e :: tr).
  Proof.
    intros A B. apply (quiet_app t p [e] tr); [|exact B]. intros [|x tr1] tr2 d e' E H; [|destruct tr1; discriminate E].
    injection E as <- <-. cbn. destruct H as [[x ->]|[y ->]]; eauto.
  Qed.
  Lemma own_id t u i d : i = id t d -> (exists e, i = id u e) -> t = u.
  Proof. intros -> [e E]. now destruct (id_inj _ _ _ _ E). Qed.
  Lemma step_quiet c c' l es t : client_step F St c l = Some (c', es) ->
    quiet t (waiting (c t)) es /\ pending t (base_of es) (waiting (c t)) = waiting (c' t).
  Proof.
    destruct l as [u r]. unfold client_step, thread_step. cbn [fst snd]. intros H.
    destruct (c u) as [m fs] eqn:EC. cbn [tmode tframes] in H.
    assert (N : t <> u -> forall th' es0, c' t = (if Nat.eqb t u then th' else c t) -> 
       match es0 with [e1; e2] => match e1, e2 with
         | Base (Call v _ _ | Return v _), (Eval i _ | Answer i _) => v = u /\ exists d, i = id u d
         | (Eval i _ | Answer i _), Base (Call v _ _ | Return v _) => v = u /\ exists d, i = id u d
         | Base (Call v _ _ | Return v _), High _ | High _, Base (Call v _ _ | Return v _) => v = u
         | Answer i _, High _ => exists d, i = id u d
         | _, _ => False end | _ => False end -> quiet t (waiting (c t)) es0 /\ pending t (base_of es0) (waiting (c t)) = waiting (c' t)).
    { intros Ht th' es0 Ec Hes. rewrite (proj2 (Nat.eqb_neq t u) Ht) in Ec. rewrite Ec. assert (Hu : Nat.eqb u t = false) by (apply Nat.eqb_neq; congruence).
      assert (Q : forall i, (exists d, i = id u d) -> (exists d, i = id t d) -> waiting (c t) = false).
      { intros i [d ->] E. exfalso. apply Ht. symmetry. eapply own_id; eauto. }
      destruct es0 as [|e1 [|e2 [|]]]; try contradiction.
      destruct e1 as [e1|i1 x1|i1 y1|[v1 a1 o1|v1 r1]], e2 as [e2|i2 x2|i2 y2|[v2 a2 o2|v2 r2]]; try contradiction;
        repeat match goal with H : _ /\ _ |- _ => destruct H end; subst; cbn [base_of pending]; rewrite ?Hu;
        (split; [|reflexivity]); apply quiet_cons; eauto; cbn [base_of pending]; rewrite ?Hu; apply quiet_cons; eauto; cbn [base_of pending]; apply quiet_nil. }
    destruct (Nat.eq_dec t u) as [->|Ht].
    - clear N. rewrite EC. unfold waiting at 1 2. cbn [tmode].
      destruct m as [[s [y|]|s|a o k|a so fo s f k]|a o k| |y]; destruct fs as [|f0 fs']; destruct r as [r|]; try discriminate H;
        try (destruct (typed F (fa _ f0) y); [|discriminate H]); try (destruct (got F r)); try (destruct (swapped F r) as [[[|] v]|]);
        injection H as <- <-; rewrite Nat.eqb_refl; unfold waiting; cbn [tmode base_of pending]; rewrite ?Nat.eqb_refl;
        (split; [|reflexivity]); apply quiet_cons; auto; cbn [base_of pending]; rewrite ?Nat.eqb_refl; apply quiet_cons; auto; apply quiet_nil.
    - destruct m as [[s [y|]|s|a o k|a so fo s f k]|a o k| |y]; destruct fs as [|f0 fs']; destruct r as [r|]; try discriminate H;
        try (destruct (typed F (fa _ f0) y); [|discriminate H]); try (destruct (got F r)); try (destruct (swapped F r) as [[[|] v]|]);
        injection H as <- <-; eapply N; eauto; cbn; eauto.
  Qed.
  Lemma run_quiet ls : forall c c' tr t, client_run F St c ls = Some (c', tr) -> quiet t (waiting (c t)) tr.
  Proof.
    induction ls as [|l ls IH]; intros c c' tr t H; cbn [client_run] in H; [injection H as <- <-; apply quiet_nil|].
    destruct (client_step F St c l) as [[c1 es]|] eqn:E1; [|discriminate H]. destruct (client_run F St c1 ls) as [[c2 es2]|] eqn:E2; [|discriminate H].
    injection H as <- <-. destruct (step_quiet _ _ _ _ t E1) as [Q P]. apply quiet_app; [exact Q|]. rewrite P. now apply (IH _ _ _ t E2).
  Qed.
  Theorem client_outside progs ls c tr : client_run F St (client_init St progs) ls = Some (c, tr) -> outside tr.
  Proof. intros H tr1 tr2 t d e E X. apply (run_quiet _ _ _ _ t H tr1 tr2 d e E X). Qed.
End Outside.

Section Continue.
  Context {Op Res : Type}.
  Variable F : iface Op Res.
  Variable St : Type.
  Local Notation thread := (thread (Op := Op) (Res := Res) St).
  Definition nested (th : thread) : Prop := match tmode _ th, tframes _ th with WaitLoad _, [] | WaitCas _ _, [] => False | _, _ => True end.
  Lemma step_nested t th r th' es : nested th -> thread_step F St t th r = Some (th', es) -> nested th'.
  Proof.
    unfold thread_step, nested. destruct (tmode _ th) as [p|a0 o0 k| |y]; destruct (tframes _ th) as [|f fr]; destruct r as [r|]; intros N H;
      try destruct p as [s [y|]|s|a o k|a so fo s g k];
      try discriminate H; try (destruct (typed F (fa _ f) y); [|discriminate H]); try (destruct (got F r));
      try (destruct (swapped F r) as [[[|] v]|]); injection H as <- _; cbn; trivial.
  Qed.
  Lemma run_nested ls : forall c c' tr, client_run F St c ls = Some (c', tr) -> (forall t, nested (c t)) -> forall t, nested (c' t).
  Proof.
    induction ls as [|l ls IH]; intros c c' tr H N; cbn [client_run] in H; [now injection H as <- _|].
    unfold client_step in H. destruct (thread_step F St (fst l) (c (fst l)) (snd l)) as [[th es]|] eqn:E; [|discriminate H].
    destruct (client_run F St _ ls) as [[c2 es2]|] eqn:E2 in H; [|discriminate H]. injection H as <- _. eapply IH; [exact E2|].
    intros t. cbn. destruct (Nat.eqb t (fst l)); [|apply N]. eapply step_nested; [apply (N (fst l))|exact E].
  Qed.
  Theorem client_continues progs ls c tr t : client_run F St (client_init St progs) ls = Some (c, tr) ->
    match tmode _ (c t), tframes _ (c t) with
    | Run _ (Ret _ _), [] | Run _ (Unwind _), [] => True
    | Run _ (Ret _ (Some y)), f :: _ => typed F (fa _ f) y = true -> client_step F St c (t, None) <> None
    | Run _ _, _ => client_step F St c (t, None) <> None
    | _, _ => forall r, client_step F St c (t, Some r) <> None
    end.
  Proof.
    intros H. assert (N : nested (c t)) by (eapply run_nested; [exact H|]; intros u; exact Logic.I).
    unfold nested in N. unfold client_step. cbn [fst snd]. unfold thread_step. clear H.
    destruct (tmode _ (c t)) as [p|a0 o0 k| |y]; destruct (tframes _ (c t)) as [|f fr];
      try destruct p as [s [y|]|s|a o k|a so fo s g k]; try exact Logic.I; try discriminate; try contradiction N.
    - intros ->. discriminate.
    - intros r. destruct (got F r); discriminate.
    - intros r. destruct (swapped F r) as [[[|] v]|]; discriminate.
  Qed.
End Continue.

Section Source.
  Context {Op Res : Type}.
  Variable F : iface Op Res.
  Variable St : Type.
  Local Notation frame := (frame (Op := Op) (Res := Res) St).
  Local Notation thread := (thread (Op := Op) (Res := Res) St).
  Definition src_frame (f : frame) : sframe := mk_sframe (ff _ f) (fk _ f) (fprev _ f).
  Definition srel (th : thread) (s : smode * list sframe) : Prop :=
    snd s = map src_frame (tframes _ th) /\
    match tmode _ th, tframes _ th with
    | Run _ p, _ => fst s = SRun p
    | WaitPrim _ _ _ k, _ => fst s = SPrim k
    | WaitLoad _, f :: _ => fst s = SAsk (fs _ f) None
    | WaitCas _ y, f :: _ => fst s = SAsk (fs _ f) (Some y)
    | _, [] => False
    end.
  Lemma owner_id t d u : Nat.eqb (fst (Cantor.of_nat (id t d))) u = Nat.eqb t u.
  Proof. unfold id. now rewrite Cantor.cancel_of_to. Qed.
  Lemma src_thread t th r th' es s : thread_step F St t th r = Some (th', es) -> srel th s ->
    (forall u, u <> t -> filter (of_thread u) es = []) /\
    exists s', srel th' s' /\ (src_step t s (filter (of_thread t) es) s' \/ filter (of_thread t) es = [] /\ s' = s).
  Proof.
    destruct s as [sm sfs]. unfold thread_step, srel. cbn [fst snd]. intros H [-> M].
    assert (L : forall l, length (map src_frame l) = length l) by (intros; apply map_length).
    destruct (tmode _ th) as [p|a0 o0 k| |y]; destruct (tframes _ th) as [|f fr]; destruct r as [r|];
      try destruct p as [s [y|]|s|a o k|a so fo s g k];
      try discriminate H; try contradiction M; try (destruct (typed F (fa _ f) y); [|discriminate H]); try (destruct (got F r));
      try (destruct (swapped F r) as [[[|] v]|]); injection H as <- <-; subst sm;
      (split; [intros u Hu; cbn [filter of_thread]; rewrite ?owner_id, ?(proj2 (Nat.eqb_neq t u)) by congruence; reflexivity|]);
      cbn [filter of_thread tmode tframes]; rewrite ?owner_id, ?Nat.eqb_refl; (eexists (_, _); split; [split; [reflexivity|reflexivity]|left]);
      first [rewrite <- L; constructor | cbn [map]; econstructor].
  Qed.
  Lemma src_run ls : forall c c' tr t s, client_run F St c ls = Some (c', tr) -> srel (c t) s ->
    exists s', src_steps t s (filter (of_thread t) tr) s'.
  Proof.
    induction ls as [|l ls IH]; intros c c' tr t s H R; cbn [client_run] in H; [injection H as _ <-; exists s; constructor|].
    unfold client_step in H. destruct (thread_step F St (fst l) (c (fst l)) (snd l)) as [[th es]|] eqn:E; [|discriminate H].
    destruct (client_run F St _ ls) as [[c2 es2]|] eqn:E2 in H; [|discriminate H]. injection H as <- <-. rewrite filter_app.
    destruct (Nat.eq_dec t (fst l)) as [->|N].
    - destruct (src_thread _ _ _ _ _ _ E R) as (_ & s1 & R1 & [S|[S ->]]).
      + destruct (IH _ _ _ (fst l) s1 E2) as (s2 & A); [cbn; now rewrite Nat.eqb_refl|]. exists s2. econstructor; eauto.
      + rewrite S. apply (IH _ _ _ (fst l) s E2). cbn; now rewrite Nat.eqb_refl.
    - assert (Ot : filter (of_thread t) es = []).
      { clear - E N. unfold thread_step in E.
        destruct (tmode _ (c (fst l))) as [p|a0 o0 k| |y]; destruct (tframes _ (c (fst l))) as [|f fr]; destruct (snd l) as [r|];
        try destruct p as [s [y|]|s|a o k|a so fo s g k];
        try discriminate E; try (destruct (typed F (fa _ f) y); [|discriminate E]); try (destruct (got F r));
        try (destruct (swapped F r) as [[[|] v]|]); injection E as _ <-;
        cbn [filter of_thread]; rewrite ?owner_id, ?(proj2 (Nat.eqb_neq (fst l) t)) by congruence; reflexivity. }
      rewrite Ot. apply (IH _ _ _ t s E2). cbn. destruct (Nat.eqb_spec t (fst l)); [contradiction|exact R].
  Qed.
  Theorem client_follows progs ls c tr t : client_run F St (client_init St progs) ls = Some (c, tr) -> follows (progs t) t tr.
  Proof. intros H. eapply src_run; [exact H|]. split; reflexivity. Qed.
End Source.
