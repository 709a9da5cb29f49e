(** Proofs about the lock-free machine of [LoopModel]. *)
From Coq Require Import ZArith List Bool PeanoNat Lia Permutation.
From Verif Require Import Words Spec WordsFacts LinFacts LoopModel.
Import ListNotations.
Open Scope Z_scope.

Lemma setn_same {B} (f : nat -> B) x v : setn f x v x = v.
Proof. unfold setn. now rewrite Nat.eqb_refl. Qed.
Lemma setn_other {B} (f : nat -> B) x v y : y <> x -> setn f x v y = f y.
Proof. unfold setn. intros. now rewrite (proj2 (Nat.eqb_neq y x)). Qed.
Lemma setz_same {B} (f : Z -> B) x v : setz f x v x = v.
Proof. unfold setz. now rewrite Z.eqb_refl. Qed.
Lemma setz_other {B} (f : Z -> B) x v y : y <> x -> setz f x v y = f y.
Proof. unfold setz. intros. now rewrite (proj2 (Z.eqb_neq y x)). Qed.

(** ** Pieces *)
Definition sumz (l : list Z) : Z := fold_right Z.add 0 l.
Lemma sumz_app l1 l2 : sumz (l1 ++ l2) = sumz l1 + sumz l2.
Proof. unfold sumz. induction l1; cbn [app fold_right]; lia. Qed.
Lemma sumz_perm l1 l2 : Permutation l1 l2 -> sumz l1 = sumz l2.
Proof. unfold sumz. induction 1; cbn [fold_right]; lia. Qed.
Definition gather (k : Z) (ps : list nat) (m : Z) : Z := sumz (map (fun p => piece k p m) ps).
Lemma gather_seq k n m : 0 <= k -> gather k (seq 0 n) m = m mod 2 ^ (k * Z.of_nat n).
Proof.
  intros Hk. unfold gather. induction n as [|n IH].
  - cbn. rewrite Z.mul_0_r. cbn. now rewrite Z.mod_1_r.
  - rewrite seq_S, map_app, sumz_app, IH. cbn [map sumz fold_right]. rewrite Z.add_0_r, Nat.add_0_l.
    unfold piece. replace (k * Z.of_nat (S n)) with (k * Z.of_nat n + k) by lia.
    rewrite Z.pow_add_r by lia.
    pose proof (pow2_pos (k * Z.of_nat n) ltac:(lia)). pose proof (pow2_pos k Hk).
    rewrite (Z.rem_mul_r m (2 ^ (k * Z.of_nat n)) (2 ^ k)) by lia. lia.
Qed.
Lemma gather_perm k ps n m : 0 <= k -> Permutation ps (seq 0 n) -> 0 <= m < 2 ^ (k * Z.of_nat n) ->
  gather k ps m = m.
Proof.
  intros Hk P Hm. unfold gather.
  rewrite (sumz_perm _ _ (Permutation_map (fun p => piece k p m) P)).
  change (gather k (seq 0 n) m = m). rewrite gather_seq by lia. now apply Z.mod_small.
Qed.
Lemma gather_snoc k ps p m : gather k (ps ++ [p]) m = gather k ps m + piece k p m.
Proof. unfold gather. rewrite map_app, sumz_app. cbn. lia. Qed.
Lemma firstn_snoc {A} (l : list A) n x : nth_error l n = Some x -> firstn (S n) l = firstn n l ++ [x].
Proof.
  revert n. induction l as [|y l IH]; intros [|n] H; cbn in *; try discriminate.
  - now injection H as ->.
  - f_equal. now apply IH.
Qed.

Section Lin.
  Context {Op Res : Type}.
  Variable impl_of : Z -> Op -> option (impl Res).
  (** widths of variables, the abstract value of a bit pattern, the specification *)
  Variable width : Z -> Z.
  Variable abs : Z -> Z -> Z.
  Variable sem : Z -> Op -> Z -> Z * Res -> Prop.

  Definition inr (a x : Z) : Prop := 0 <= x < 2 ^ width a.

  (** The pieces read make up the whole variable. *)
  Definition covers (a k : Z) (rs : list nat) : Prop :=
    exists n, (0 < n)%nat /\ 0 < k /\ Permutation rs (seq 0 n) /\ width a <= k * Z.of_nat n.
  (** one single untorn load *)
  Definition whole (a k : Z) (rs : list nat) : Prop := rs = [0%nat] /\ width a <= k /\ 0 < k.

  (** An implementation computes the right thing from an untorn value. *)
  Definition impl_correct (a : Z) (o : Op) (i : impl Res) : Prop :=
    match i with
    | Direct _ => True
    | CasLoop k rs _ _ _ _ => rs <> []
    | LlSc k rs _ _ _ _ => covers a k rs
    end /\
    match i with
    | Direct f => forall sp x, inr a x ->
        match f sp x with
        | (Some y, r) => inr a y /\ sem a o (abs a x) (abs a y, r)
        | (None, r) => sem a o (abs a x) (abs a x, r)
        end
    | CasLoop k rs reread body ok err =>
        (forall hist x y, inr a x -> body hist x = Some y -> inr a y /\ sem a o (abs a x) (abs a y, ok x)) /\
        (forall hist g, body hist g = None -> whole a k rs /\ (inr a g -> sem a o (abs a g) (abs a g, err g)))
    | LlSc k rs body ok err weak =>
        (forall x y, inr a x -> body x = Some y -> inr a y /\ sem a o (abs a x) (abs a y, ok x)) /\
        (forall g, body g = None -> whole a k rs /\ (inr a g -> sem a o (abs a g) (abs a g, err g))) /\
        (forall w, weak = Some w -> whole a k rs /\ forall g, inr a g -> sem a o (abs a g) (abs a g, w g))
    end.

  Hypothesis correct : forall a o i, impl_of a o = Some i -> impl_correct a o i.

  Local Notation state := (state Op Res).
  Local Notation pc := (pc Op Res).
  Local Notation rst := (@rstate Op Res).

  (** The result that must already have been observed when the attempt is made. *)
  Definition obs (i : impl Res) (hist : list Z) (g : Z) : option Res :=
    match i with
    | Direct _ => None
    | CasLoop _ _ _ body _ err => match body hist g with None => Some (err g) | _ => None end
    | LlSc _ _ body _ err weak =>
      match body g with
      | None => Some (err g)
      | Some _ => match weak with Some w => Some (w g) | None => None end
      end
    end.
  Definition pend (p : @rphase Op Res) (a : Z) (o : Op) : Prop :=
    p = RPending a o \/ exists r, p = RSeen a o r.

  Definition ph_ok (s : state) (t : nat) (p : pc) (q : @rphase Op Res) : Prop :=
    match p with
    | Idle => q = RIdle
    | Begin a o i => q = RPending a o /\ impl_of a o = Some i
    | Rd a o i hist n acc =>
        pend q a o /\ impl_of a o = Some i /\ (n < length (snd (impl_reads i)))%nat /\
        (n = 0%nat -> acc = 0) /\
        (is_ll i = true -> (0 < n)%nat -> resv s t = Some a ->
         acc = gather (fst (impl_reads i)) (firstn n (snd (impl_reads i))) (mem s a))
    | Try a o i hist g =>
        impl_of a o = Some i /\ match i with Direct _ => False | _ => True end /\
        match obs i hist g with Some r => q = RSeen a o r | None => pend q a o end /\
        (is_ll i = true -> resv s t = Some a -> g = mem s a)
    | Fin r => q = RDone r \/ exists a o, q = RSeen a o r
    end.

  Definition Rel (s : state) (A : rst) : Prop :=
    (forall a, rvals A a = abs a (mem s a)) /\ (forall a, inr a (mem s a)) /\
    forall t, ph_ok s t (pcs s t) (rphases A t).

  (** Other threads' invariants survive. *)
  Lemma ph_ok_mono (s s' : state) t p q :
    (forall a, resv s' t = Some a -> resv s t = Some a /\ mem s' a = mem s a) ->
    ph_ok s t p q -> ph_ok s' t p q.
  Proof.
    intros H. destruct p as [|a o i|a o i hist n acc|a o i hist g|r]; cbn; auto.
    - intros (P1 & P2 & P3 & P4 & P5). repeat split; auto. intros L N R.
      destruct (H a R) as [R' M]. rewrite M. auto.
    - intros (P1 & P2 & P3 & P4). repeat split; auto. intros L R.
      destruct (H a R) as [R' M]. rewrite M. auto.
  Qed.

  Lemma gather_whole a k rs m : whole a k rs -> inr a m -> gather k rs m = m.
  Proof.
    intros [-> [Hw Hk]] Hm. apply gather_perm with (n := 1%nat); [lia|reflexivity|].
    unfold inr in Hm. rewrite Z.mul_1_r. pose proof (Z.pow_le_mono_r 2 (width a) k). lia.
  Qed.

  Lemma resv_write (s : state) a y t b : resv (write s a y) t = Some b -> resv s t = Some b /\ mem (write s a y) b = mem s b.
  Proof.
    cbn. unfold drop_all. destruct (resv s t) as [c|]; [|discriminate].
    destruct (Z.eqb_spec c a) as [E|E]; [discriminate|]. intros H. injection H as <-.
    split; [reflexivity|]. now apply setz_other.
  Qed.

  Definition rset (A : rst) (t : nat) (p : @rphase Op Res) : rst := mk_rstate (rvals A) (updn (rphases A) t p).

  Lemma rset_upd A t p : fun_upd_eq (rphases A) t p (rphases (rset A t p)).
  Proof. split; cbn; [apply updn_same|]. intros. now apply updn_other. Qed.

  (** After a step of [t] to pc [p] and phase [q], everybody else is fine. *)
  Lemma rel_others (s s' : state) A A' t p q :
    Rel s A ->
    (forall u, u <> t -> forall a, resv s' u = Some a -> resv s u = Some a /\ mem s' a = mem s a) ->
    pcs s' t = p -> (forall u, u <> t -> pcs s' u = pcs s u) ->
    rphases A' t = q -> (forall u, u <> t -> rphases A' u = rphases A u) ->
    (forall a, rvals A' a = abs a (mem s' a)) -> (forall a, inr a (mem s' a)) ->
    ph_ok s' t p q -> Rel s' A'.
  Proof.
    intros (RV & RI & RP) HO P1 P2 Q1 Q2 V I Hp. split; [exact V|]. split; [exact I|].
    intros u. destruct (Nat.eq_dec u t) as [->|Hu].
    - now rewrite P1, Q1.
    - rewrite P2, Q2 by assumption. apply ph_ok_mono with (s := s); auto.
  Qed.

  (** A write by [t] that completes its call. *)
  Lemma write_case (s : state) A t a o y r :
    Rel s A -> pend (rphases A t) a o -> inr a y -> sem a o (abs a (mem s a)) (abs a y, r) ->
    exists A', rsteps sem A [] A' /\ Rel (go (write s a y) t (Fin r)) A'.
  Proof.
    intros R P Hy S. pose proof R as (RV & RI & RP).
    exists (mk_rstate (upd (rvals A) a (abs a y)) (updn (rphases A) t (RDone r))). split.
    - change (@nil (event Op Res)) with (@nil (event Op Res) ++ []).
      eapply rs_snoc; [apply rs_nil; reflexivity|].
      eapply r_effect with (t := t) (a := a) (o := o) (v' := abs a y) (r := r); cbn.
      + exact P.
      + rewrite RV. exact S.
      + split; [apply upd_same|]. intros. now apply upd_other.
      + split; [apply updn_same|]. intros. now apply updn_other.
    - eapply rel_others with (t := t) (s := s) (A := A).
      + exact R.
      + intros u Hu b. cbn. intros E. apply (resv_write s a y u b) in E. exact E.
      + cbn. apply setn_same.
      + intros. cbn. now apply setn_other.
      + cbn. apply updn_same.
      + intros. cbn. now apply updn_other.
      + intros b. cbn. unfold upd, setz. destruct (Z.eqb_spec b a) as [->|]; auto.
      + intros b. cbn. unfold setz. destruct (Z.eqb_spec b a) as [->|]; auto.
      + cbn. auto.
  Qed.

  (** A step of [t] that leaves memory alone and observes nothing. *)
  Lemma quiet_case (s s' : state) A t p :
    Rel s A -> mem s' = mem s -> (forall u, u <> t -> resv s' u = resv s u) ->
    pcs s' = setn (pcs s) t p -> ph_ok s' t p (rphases A t) -> Rel s' A.
  Proof.
    intros R M RE PE P. pose proof R as (RV & RI & RP).
    eapply rel_others with (t := t) (s := s) (A := A).
    - exact R.
    - intros u Hu b. rewrite RE, M by assumption. auto.
    - rewrite PE. apply setn_same.
    - intros. rewrite PE. now apply setn_other.
    - reflexivity.
    - reflexivity.
    - intros. now rewrite M.
    - intros. now rewrite M.
    - exact P.
  Qed.

  (** A step of [t] that leaves memory alone and observes result [r]. *)
  Lemma observe_case (s s' : state) A t a o p r :
    Rel s A -> mem s' = mem s -> (forall u, u <> t -> resv s' u = resv s u) ->
    pcs s' = setn (pcs s) t p -> pend (rphases A t) a o ->
    sem a o (abs a (mem s a)) (abs a (mem s a), r) ->
    ph_ok s' t p (RSeen a o r) ->
    exists A', rsteps sem A [] A' /\ Rel s' A'.
  Proof.
    intros R M RE PE PD S P. pose proof R as (RV & RI & RP).
    exists (rset A t (RSeen a o r)). split.
    - change (@nil (event Op Res)) with (@nil (event Op Res) ++ []).
      eapply rs_snoc; [apply rs_nil; reflexivity|].
      eapply r_observe with (t := t) (a := a) (o := o) (r := r).
      + exact PD.
      + now rewrite RV.
      + reflexivity.
      + apply rset_upd.
    - eapply rel_others with (t := t) (s := s) (A := A).
      + exact R.
      + intros u Hu b. rewrite RE, M by assumption. auto.
      + rewrite PE. apply setn_same.
      + intros. rewrite PE. now apply setn_other.
      + cbn. apply updn_same.
      + intros. cbn. now apply updn_other.
      + intros. cbn. now rewrite M.
      + intros. now rewrite M.
      + exact P.
  Qed.

  Lemma rsteps_refl A : rsteps sem A [] A.
  Proof. apply rs_nil; reflexivity. Qed.

  (** Entering an attempt with value [g]: if something must have been observed, [g] is the
      current value. *)
  Lemma enter_try (s s' : state) A t a o i hist g :
    Rel s A -> impl_of a o = Some i -> match i with Direct _ => False | _ => True end ->
    mem s' = mem s -> (forall u, u <> t -> resv s' u = resv s u) ->
    pcs s' = setn (pcs s) t (Try a o i hist g) -> pend (rphases A t) a o ->
    (obs i hist g <> None -> g = mem s a) ->
    (is_ll i = true -> resv s' t = Some a -> g = mem s a) ->
    exists A', rsteps sem A [] A' /\ Rel s' A'.
  Proof.
    intros R HI HD M RE PE PD HO HL. pose proof R as (RV & RI & RP).
    destruct (obs i hist g) as [r|] eqn:EO.
    - assert (Eg : g = mem s a) by (apply HO; discriminate).
      eapply observe_case with (t := t) (r := r); eauto.
      + pose proof (correct _ _ _ HI) as [_ C].
        destruct i as [f|k rs reread body ok err|k rs body ok err weak]; cbn in EO; [discriminate| |].
        * destruct (body hist g) as [y|] eqn:EB; [discriminate|]. injection EO as <-.
          destruct C as [_ C]. rewrite <- Eg. apply C with (hist := hist); auto. rewrite Eg. apply RI.
        * destruct C as (C1 & C2 & C3). destruct (body g) as [y|] eqn:EB.
          { destruct weak as [w|]; [|discriminate]. injection EO as <-.
            rewrite <- Eg. apply (C3 w eq_refl). rewrite Eg. apply RI. }
          { injection EO as <-. rewrite <- Eg. apply C2; auto. rewrite Eg. apply RI. }
      + cbn. rewrite EO. repeat split; auto. now rewrite M.
    - exists A. split; [apply rsteps_refl|].
      eapply quiet_case with (t := t) (p := Try a o i hist g); eauto.
      cbn. rewrite EO. repeat split; auto. now rewrite M.
  Qed.

  Ltac quiet t R P :=
    apply (quiet_case _ _ _ t P R);
    [ reflexivity | intros; cbn; try reflexivity; now apply setn_other | reflexivity | ].

  Theorem sim_step s A l s' e : Rel s A -> step impl_of s l = Some (s', e) ->
    exists A', rsteps sem A e A' /\ Rel s' A'.
  Proof.
    intros R H. pose proof R as (RV & RI & RP). unfold step in H.
    set (t := tid l) in *. specialize (RP t) as Pt.
    destruct (pcs s t) as [|a o i|a o i hist n acc|a o i hist g|r] eqn:EP.
    - (* Idle: call *)
      destruct (call l) as [[a o]|] eqn:EC; [|discriminate].
      destruct (impl_of a o) as [i|] eqn:EI; [|discriminate]. injection H as <- <-.
      exists (rset A t (RPending a o)). split.
      + change [Call t a o] with ([] ++ [@Call Op Res t a o]).
        eapply rs_snoc; [apply rsteps_refl|]. eapply r_call; [exact Pt|reflexivity|apply rset_upd].
      + eapply rel_others with (t := t) (s := s) (A := A).
        * exact R.
        * cbn. auto.
        * cbn. apply setn_same.
        * intros. cbn. now apply setn_other.
        * cbn. apply updn_same.
        * intros. cbn. now apply updn_other.
        * exact RV.
        * exact RI.
        * cbn. auto.
    - (* Begin *)
      destruct Pt as [Pq EI]. pose proof (correct _ _ _ EI) as [CA CB].
      destruct i as [f|k rs reread body ok err|k rs body ok err weak].
      + specialize (CB (spurious l) (mem s a) (RI a)).
        destruct (f (spurious l) (mem s a)) as [[y|] r]; injection H as <- <-.
        * destruct CB as [Cy CS]. apply write_case with (o := o); auto. now left.
        * eapply observe_case with (a := a) (o := o) (t := t) (r := r) (p := Fin r); eauto; cbn; auto.
          { now left. }
          right. eauto.
      + injection H as <- <-. exists A. split; [apply rsteps_refl|].
        quiet t R (Rd a o (CasLoop k rs reread body ok err) [] 0 0). cbn. repeat split; auto.
        * now left.
        * destruct rs; cbn; [congruence|lia].
      + injection H as <- <-. exists A. split; [apply rsteps_refl|].
        quiet t R (Rd a o (LlSc k rs body ok err weak) [] 0 0). cbn. repeat split; auto.
        * now left.
        * destruct CA as (m & Hm & Hk & Pm & W). rewrite (Permutation_length Pm), seq_length. lia.
    - (* Rd *)
      destruct Pt as (PD & EI & Hn & H0 & HG).
      destruct (impl_reads i) as [k rs] eqn:ER. cbn [fst snd] in *.
      destruct (nth_error rs n) as [p|] eqn:EN; [|discriminate].
      pose proof (correct _ _ _ EI) as [CA CB].
      assert (HD : match i with Direct _ => False | _ => True end).
      { destruct i; auto. cbn in ER. injection ER as <- <-. cbn in Hn. lia. }
      set (s1 := if is_ll i && Nat.eqb n 0 then set_resv s t (Some a) else s) in *.
      assert (M1 : mem s1 = mem s) by (unfold s1; destruct (is_ll i && Nat.eqb n 0); reflexivity).
      assert (P1 : pcs s1 = pcs s) by (unfold s1; destruct (is_ll i && Nat.eqb n 0); reflexivity).
      assert (R1 : forall u, u <> t -> resv s1 u = resv s u).
      { intros u Hu. unfold s1. destruct (is_ll i && Nat.eqb n 0); cbn; auto. now apply setn_other. }
      (* what has been read so far, when the reservation still stands *)
      assert (G1 : is_ll i = true -> resv s1 t = Some a ->
                   acc + piece k p (mem s a) = gather k (firstn (S n) rs) (mem s a)).
      { intros L Rv. rewrite (firstn_snoc _ _ _ EN), gather_snoc. f_equal.
        destruct (Nat.eq_dec n 0) as [->|Hn0].
        - cbn. rewrite H0 by reflexivity. reflexivity.
        - apply HG; [exact L|lia|]. unfold s1 in Rv. rewrite L in Rv.
          destruct (Nat.eqb_spec n 0); [lia|]. exact Rv. }
      destruct (Nat.eqb_spec (S n) (length rs)) as [EL|EL]; injection H as <- <-.
      + (* last piece *)
        apply (enter_try s _ A t a o i hist (acc + piece k p (mem s a)) R EI HD);
          [exact M1|exact R1|cbn; now rewrite P1|exact PD| |].
        * (* the value is the current one when it matters *)
          intros HO. assert (W : whole a k rs).
          { destruct i as [f|k' rs' reread body ok err|k' rs' body ok err weak]; cbn in HO, ER; [congruence| |];
              injection ER as -> ->.
            - destruct (body hist (acc + piece k p (mem s a))) eqn:EB; [congruence|]. eapply CB; eauto.
            - destruct CB as (C1 & C2 & C3). destruct (body (acc + piece k p (mem s a))) eqn:EB.
              + destruct weak as [w|]; [|congruence]. eapply C3; eauto.
              + eapply C2; eauto. }
          destruct W as (E1 & E2 & E3). subst rs. cbn in EL. assert (n = 0%nat) by lia. subst n.
          cbn in EN. injection EN as <-. rewrite H0 by reflexivity.
          assert (EW : gather k [0%nat] (mem s a) = mem s a).
          { apply (gather_whole a); [split; auto|apply RI]. }
          unfold gather, sumz in EW. cbn [map fold_right] in EW. lia.
        * intros L Rv. cbn in Rv. rewrite G1 by assumption.
          rewrite EL, firstn_all. destruct i as [f|k' rs' reread body ok err|k' rs' body ok err weak];
            cbn in L; try discriminate. cbn in ER. injection ER as -> ->.
          destruct CA as (m & Hm & Hk & Pm & W). apply gather_perm with (n := m); auto; [lia|].
          specialize (RI a). unfold inr in RI. pose proof (Z.pow_le_mono_r 2 (width a) (k * Z.of_nat m)). lia.
      + exists A. split; [apply rsteps_refl|].
        apply (quiet_case s _ A t (Rd a o i hist (S n) (acc + piece k p (mem s a))) R);
          [exact M1|exact R1|cbn; now rewrite P1|].
        * cbn. rewrite ER. cbn. repeat split; auto.
          { lia. }
          { discriminate. }
          { intros L _ Rv. rewrite M1. apply G1; auto. }
    - (* Try *)
      destruct Pt as (EI & HD & HO & HL). pose proof (correct _ _ _ EI) as [CA CB].
      destruct i as [f|k rs reread body ok err|k rs body ok err weak]; [discriminate| |].
      + cbn in HO. destruct CB as [C1 C2]. destruct (body hist g) as [y|] eqn:EB.
        * destruct ((mem s a =? g) && negb (spurious l)) eqn:ES.
          { apply andb_true_iff in ES as [ES _]. apply Z.eqb_eq in ES. injection H as <- <-.
            destruct (C1 hist g y) as [Iy Sy]; auto. { rewrite <- ES. apply RI. }
            apply write_case with (o := o); auto. now rewrite ES. }
          { injection H as <- <-. destruct reread.
            - exists A. split; [apply rsteps_refl|].
              quiet t R (Rd a o (CasLoop k rs true body ok err) (hist ++ [g]) 0 0).
              cbn. repeat split; auto. destruct rs; cbn; [congruence|lia].
            - apply (enter_try s _ A t a o _ (hist ++ [g]) (mem s a) R EI HD); auto. }
        * injection H as <- <-. exists A. split; [apply rsteps_refl|].
          quiet t R (@Fin Op Res (err g)). cbn. right. eauto.
      + cbn in HO. destruct CB as (C1 & C2 & C3). destruct (body g) as [y|] eqn:EB.
        * destruct (has_resv s t a && negb (spurious l)) eqn:ES.
          { apply andb_true_iff in ES as [ES _]. unfold has_resv in ES.
            destruct (resv s t) as [b|] eqn:EV; [|discriminate]. apply Z.eqb_eq in ES. subst b.
            injection H as <- <-. assert (Eg : g = mem s a) by (apply HL; auto).
            destruct (C1 g y) as [Iy Sy]; auto. { rewrite Eg. apply RI. }
            apply write_case with (o := o); auto.
            - destruct weak; [right|]; eauto.
            - now rewrite <- Eg. }
          { destruct weak as [w|]; injection H as <- <-.
            - exists A. split; [apply rsteps_refl|].
              quiet t R (@Fin Op Res (w g)). cbn. right. eauto.
            - exists A. split; [apply rsteps_refl|].
              quiet t R (Rd a o (LlSc k rs body ok err None) (hist ++ [g]) 0 0).
              cbn. repeat split; auto.
              destruct CA as (m & Hm & Hk & Pm & W). rewrite (Permutation_length Pm), seq_length. lia. }
        * injection H as <- <-. exists A. split; [apply rsteps_refl|].
          quiet t R (@Fin Op Res (err g)). cbn. right. eauto.
    - (* Fin *)
      injection H as <- <-. exists (rset A t RIdle). split.
      + change [Return t r] with ([] ++ [@Return Op Res t r]).
        eapply rs_snoc; [apply rsteps_refl|]. eapply r_return; [exact Pt|reflexivity|apply rset_upd].
      + eapply rel_others with (t := t) (s := s) (A := A).
        * exact R.
        * cbn. auto.
        * cbn. apply setn_same.
        * intros. cbn. now apply setn_other.
        * cbn. apply updn_same.
        * intros. cbn. now apply updn_other.
        * exact RV.
        * exact RI.
        * reflexivity.
  Qed.

  Lemma rstep_eq_r (s s' s'' : rst) e : rstep sem s e s' -> (forall x, rvals s'' x = rvals s' x) ->
    (forall t, rphases s'' t = rphases s' t) -> rstep sem s e s''.
  Proof.
    intros H V P.
    assert (FP : forall t q, fun_upd_eq (rphases s) t q (rphases s') -> fun_upd_eq (rphases s) t q (rphases s'')).
    { intros t q [F1 F2]. split; intros; rewrite P; auto. }
    inversion H as [? ? t a o Q1 Q2 Q3 | ? ? t a o r Q1 Q2 Q3 Q4 | ? ? t a o v' r Q1 Q2 Q3 Q4 | ? ? t r Q1 Q2 Q3]; subst.
    - eapply r_call; eauto. intros; rewrite V; auto.
    - eapply r_observe; eauto. intros; rewrite V; auto.
    - eapply r_effect; eauto. destruct Q3 as [F1 F2]. split; intros; rewrite V; auto.
    - eapply r_return; eauto. intros; rewrite V; auto.
  Qed.

  Lemma rsteps_trans A h1 B h2 C : rsteps sem A h1 B -> rsteps sem B h2 C -> rsteps sem A (h1 ++ h2) C.
  Proof.
    intros H1 H2. revert H1. induction H2 as [B C V P|B h C e D H IH S]; intros H1.
    - rewrite app_nil_r. inversion H1 as [? ? V1 P1|? h0 B0 e0 ? H0 S0]; subst.
      + apply rs_nil; intros; [rewrite V|rewrite P]; auto.
      + eapply rs_snoc; [exact H0|]. eapply rstep_eq_r; eauto.
    - rewrite app_assoc. eapply rs_snoc; eauto.
  Qed.

  Lemma sim_run ls : forall s A s' h, Rel s A -> run impl_of s ls = Some (s', h) ->
    exists A', rsteps sem A h A' /\ Rel s' A'.
  Proof.
    induction ls as [|l ls IH]; intros s A s' h R H; cbn in H.
    - injection H as <- <-. exists A. split; [apply rsteps_refl|exact R].
    - destruct (step impl_of s l) as [[s1 e]|] eqn:ES; [|discriminate].
      destruct (run impl_of s1 ls) as [[s2 es]|] eqn:ER; [|discriminate]. injection H as <- <-.
      destruct (sim_step _ _ _ _ _ R ES) as (A1 & H1 & R1).
      destruct (IH _ _ _ _ R1 ER) as (A2 & H2 & R2).
      exists A2. split; [|exact R2]. eapply rsteps_trans; eauto.
  Qed.

  Lemma init_Rel m : (forall a, inr a (m a)) ->
    Rel (init m) (mk_rstate (fun a => abs a (m a)) (fun _ => RIdle)).
  Proof. intros H. repeat split; auto; apply H. Qed.

  Theorem loops_linearizable m ls s h :
    (forall a, inr a (m a)) -> run impl_of (init m) ls = Some (s, h) ->
    linearizable_to sem (fun a => abs a (m a)) h (fun a => Some (abs a (mem s a))).
  Proof.
    intros Hm H. destruct (sim_run _ _ _ _ _ (init_Rel m Hm) H) as (A & HA & RV & _).
    eapply rsteps_linearizable_to; [exact HA|]. intros a v E. injection E as <-. apply RV.
  Qed.
  Theorem loops_linearizable_range m ls s h :
    (forall a, inr a (m a)) -> run impl_of (init m) ls = Some (s, h) ->
    linearizable_to sem (fun a => abs a (m a)) h (fun a => Some (abs a (mem s a))) /\ forall a, inr a (mem s a).
  Proof.
    intros Hm H. destruct (sim_run _ _ _ _ _ (init_Rel m Hm) H) as (A & HA & RV & RI & _). split; [|exact RI].
    eapply rsteps_linearizable_to; [exact HA|]. intros a v E. injection E as <-. apply RV.
  Qed.
End Lin.
