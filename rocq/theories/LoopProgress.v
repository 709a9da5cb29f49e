(** Progress of the retry loops: failed attempts are paid for by successful writes, and a thread
    that runs alone finishes. *)
From Coq Require Import ZArith List Bool PeanoNat Lia Permutation.
From Verif Require Import Words Spec WordsFacts LinFacts LoopModel LoopProofs.
Import ListNotations.
Open Scope Z_scope.

Lemma nth_error_skipn_cons {A} (l : list A) n x : nth_error l n = Some x -> skipn n l = x :: skipn (S n) l.
Proof. revert n. induction l as [|y l IH]; intros [|n] H; cbn in *; try discriminate; [now injection H as ->|now apply IH]. Qed.

Section Progress.
  Context {Op Res : Type}.
  Variable impl_of : Z -> Op -> option (impl Res).
  Variable width : Z -> Z.
  Variable abs : Z -> Z -> Z.
  Variable sem : Z -> Op -> Z -> Z * Res -> Prop.
  Hypothesis correct : forall a o i, impl_of a o = Some i -> impl_correct width abs sem a o i.

  (** The loop reads every part of the variable. *)
  Definition reads_all (a : Z) (i : impl Res) : Prop :=
    match i with
    | Direct _ => True
    | CasLoop k rs _ _ _ _ | LlSc k rs _ _ _ _ => covers width a k rs
    end.
  Hypothesis full : forall a o i, impl_of a o = Some i -> reads_all a i.

  Local Notation state := (state Op Res).
  Local Notation inr := (inr width).

  Definition behind (s : state) (t : nat) (a : Z) : Prop := (S (fails s t) + since s t <= nwrites s a)%nat.
  Definition within (s : state) (t : nat) (a : Z) : Prop := (fails s t + since s t <= nwrites s a)%nat.

  Definition PI1 (s : state) (t : nat) (p : pc Op Res) : Prop :=
    match p with
    | Idle | Fin _ => True
    | Begin a o i => impl_of a o = Some i /\ within s t a /\ fails s t = 0%nat
    | Rd a o i hist n acc =>
        impl_of a o = Some i /\ within s t a /\ (n < length (snd (impl_reads i)))%nat /\
        match i with
        | Direct _ => False
        | CasLoop k rs _ _ _ _ => behind s t a \/ acc = gather k (firstn n rs) (mem s a)
        | LlSc k rs _ _ _ _ => n = 0%nat \/ behind s t a \/ resv s t = Some a
        end
    | Try a o i hist g =>
        impl_of a o = Some i /\ within s t a /\
        match i with
        | Direct _ => False
        | CasLoop _ _ _ _ _ _ => behind s t a \/ g = mem s a
        | LlSc _ _ _ _ _ _ => behind s t a \/ resv s t = Some a
        end
    end.
  Definition PI (s : state) : Prop := (forall a, inr a (mem s a)) /\ forall t, PI1 s t (pcs s t).

  Lemma gather_all a k rs m : covers width a k rs -> inr a m -> gather k rs m = m.
  Proof.
    intros (n & N & K & P & W) M. apply gather_perm with (n := n); auto; [lia|]. unfold LoopProofs.inr in M.
    pose proof (Z.pow_le_mono_r 2 (width a) (k * Z.of_nat n)). lia.
  Qed.
  Lemma covers_len a k rs : covers width a k rs -> (0 < length rs)%nat.
  Proof. intros (n & N & K & P & W). apply Permutation_length in P. rewrite seq_length in P. lia. Qed.

  (** Another thread's write makes up for one more failure. *)
  Lemma PI1_write (s : state) a y t p : (forall b, inr b (mem s b)) -> PI1 s t p -> PI1 (write s a y) t p.
  Proof.
    intros HI.
    assert (NW : forall b, (nwrites s b <= nwrites (write s a y) b)%nat).
    { intros b. cbn. unfold setz. destruct (Z.eqb_spec b a) as [->|]; lia. }
    assert (WN : forall b, within s t b -> within (write s a y) t b) by (intros b; unfold within; change (fails (write s a y) t) with (fails s t); change (since (write s a y) t) with (since s t); specialize (NW b); lia).
    assert (BH : forall b, behind s t b -> behind (write s a y) t b) by (intros b; unfold behind; change (fails (write s a y) t) with (fails s t); change (since (write s a y) t) with (since s t); specialize (NW b); lia).
    assert (BA : within s t a -> behind (write s a y) t a).
    { unfold within, behind. cbn. rewrite setz_same. lia. }
    assert (ME : forall b, b <> a -> mem (write s a y) b = mem s b) by (intros b N; cbn; now apply setz_other).
    assert (RE : forall b, b <> a -> resv s t = Some b -> resv (write s a y) t = Some b).
    { intros b N E. cbn. unfold drop_all. rewrite E. now rewrite (proj2 (Z.eqb_neq b a)). }
    destruct p as [|b o i|b o i hist n acc|b o i hist g|r]; cbn [PI1]; auto.
    - intros (A & B & C). auto.
    - intros (A & B & C & D). do 3 (split; [auto|]). destruct (Z.eq_dec b a) as [->|N].
      + destruct i; auto.
      + destruct i; auto.
        * destruct D as [D|D]; auto. right. now rewrite ME.
        * destruct D as [D|[D|D]]; auto.
    - intros (A & B & D). do 2 (split; [auto|]). destruct (Z.eq_dec b a) as [->|N].
      + destruct i; auto.
      + destruct i; auto.
        * destruct D as [D|D]; auto. right. now rewrite ME.
        * destruct D as [D|D]; auto.
  Qed.

  (** Anything that leaves memory, writes and thread [t]'s own counters alone. *)
  Lemma PI1_frame (s s' : state) t p : (forall a, mem s' a = mem s a) -> (forall a, nwrites s' a = nwrites s a) ->
    fails s' t = fails s t -> since s' t = since s t -> resv s' t = resv s t -> PI1 s t p -> PI1 s' t p.
  Proof.
    intros M N F S R. destruct p as [|b o i|b o i hist n acc|b o i hist g|r]; cbn [PI1]; unfold within, behind; rewrite ?M, ?N, ?F, ?S, ?R; auto.
  Qed.

  Lemma PI_write_fin (s : state) t a y r : PI s -> inr a y -> PI (go (write s a y) t (Fin r)).
  Proof.
    intros [HI HP] Hy. split.
    - intros b. cbn. unfold setz. destruct (Z.eqb_spec b a) as [->|]; auto.
    - intros u. cbn [pcs go]. unfold setn. destruct (Nat.eqb_spec u t) as [->|N]; [exact I|].
      apply (PI1_frame (write s a y)); auto. apply PI1_write; [exact HI|]. exact (HP u).
  Qed.
  Lemma PI_local (s s' : state) t p : PI s -> (forall a, mem s' a = mem s a) -> (forall a, nwrites s' a = nwrites s a) ->
    (forall u, u <> t -> fails s' u = fails s u /\ since s' u = since s u /\ resv s' u = resv s u /\ pcs s' u = pcs s u) ->
    pcs s' t = p -> PI1 s' t p -> PI s'.
  Proof.
    intros [HI HP] M N U P Q. split.
    - intros b. rewrite M. auto.
    - intros u. destruct (Nat.eq_dec u t) as [->|NE]; [now rewrite P|].
      destruct (U u NE) as (U1 & U2 & U3 & U4). rewrite U4. apply (PI1_frame s); auto.
  Qed.

  Ltac locp s t l HPI :=
    eapply PI_local with (s := s) (t := t);
    [exact HPI|solve [auto]|solve [auto]
    |intros u NU; cbn; try destruct (spurious l); rewrite ?setn_other by assumption; auto 10
    |cbn; apply setn_same|].
  Lemma PI_step s A0 l s' e : Rel impl_of width abs s A0 -> PI s -> step impl_of s l = Some (s', e) -> PI s'.
  Proof.
    intros HR HPI H. pose proof HPI as [HI HP]. unfold step in H. set (t := tid l) in *. specialize (HP t) as HT.
    assert (OT : forall (s0 : state) p u, u <> t -> pcs (go s0 t p) u = pcs s0 u) by (intros; cbn; now apply setn_other).
    destruct (pcs s t) as [|a o i|a o i hist n acc|a o i hist g|r] eqn:EP; cbn [PI1] in HT.
    - destruct (call l) as [[a o]|]; [|discriminate]. destruct (impl_of a o) as [i|] eqn:EI; [|discriminate]. injection H as <- <-.
      locp s t l HPI.
      cbn [PI1]. unfold within. cbn. rewrite !setn_same. auto.
    - destruct HT as (A & B & C). pose proof (correct _ _ _ A) as [K1 K2]. pose proof (full _ _ _ A) as F. destruct i as [f|k rs rr body ok err|k rs body ok err w].
      + specialize (K2 (spurious l) (mem s a) (HI a)). destruct (f (spurious l) (mem s a)) as [[y|] r]; injection H as <- <-.
        * destruct K2. now apply PI_write_fin.
        * locp s t l HPI. exact I.
      + injection H as <- <-. locp s t l HPI.
        cbn [PI1]. split; [exact A|]. split; [exact B|]. cbn [impl_reads snd]. split; [now apply covers_len in F|]. right. reflexivity.
      + injection H as <- <-. locp s t l HPI.
        cbn [PI1]. split; [exact A|]. split; [exact B|]. cbn [impl_reads snd]. split; [now apply covers_len in F|]. auto.
    - destruct HT as (A & B & C & D). pose proof (full _ _ _ A) as F.
      destruct i as [f|k rs rr body ok err|k rs body ok err w]; cbn [impl_reads snd is_ll andb reads_all] in *; [contradiction| |].
      + destruct (nth_error rs n) as [p|] eqn:EN; [|discriminate].
        assert (G : behind s t a \/ acc + piece k p (mem s a) = gather k (firstn (S n) rs) (mem s a)).
        { destruct D as [D|D]; auto. right. rewrite (firstn_snoc _ _ _ EN), gather_snoc. now rewrite D. }
        destruct (Nat.eqb_spec (S n) (length rs)) as [L|L]; injection H as <- <-.
        * locp s t l HPI.
          cbn [PI1]. split; [exact A|]. split; [exact B|]. destruct G as [G|G]; auto. right. rewrite G, L, firstn_all. apply gather_all with (a := a); [exact F|exact (HI a)].
        * locp s t l HPI.
          cbn [PI1]. split; [exact A|]. split; [exact B|]. cbn [impl_reads snd]. split; [lia|]. auto.
      + destruct (nth_error rs n) as [p|] eqn:EN; [|discriminate].
        set (s1 := if Nat.eqb n 0 then set_resv s t (Some a) else s) in *.
        assert (M1 : forall b, mem s1 b = mem s b) by (intros; unfold s1; destruct (Nat.eqb n 0); reflexivity).
        assert (N1 : forall b, nwrites s1 b = nwrites s b) by (intros; unfold s1; destruct (Nat.eqb n 0); reflexivity).
        assert (F1 : forall u, fails s1 u = fails s u) by (intros; unfold s1; destruct (Nat.eqb n 0); reflexivity).
        assert (S1 : forall u, since s1 u = since s u) by (intros; unfold s1; destruct (Nat.eqb n 0); reflexivity).
        assert (P1 : forall u, pcs s1 u = pcs s u) by (intros; unfold s1; destruct (Nat.eqb n 0); reflexivity).
        assert (R1 : forall u, u <> t -> resv s1 u = resv s u).
        { intros u NU. unfold s1. destruct (Nat.eqb n 0); [cbn; now apply setn_other|reflexivity]. }
        assert (G : behind s1 t a \/ resv s1 t = Some a).
        { unfold behind. rewrite F1, S1, N1. unfold s1. destruct (Nat.eqb_spec n 0) as [->|NZ]; [right; cbn; apply setn_same|].
          destruct D as [D|[D|D]]; [lia|left; exact D|right; exact D]. }
        assert (W1 : within s1 t a) by (unfold within; now rewrite F1, S1, N1).
        destruct (Nat.eqb (S n) (length rs)) eqn:L; injection H as <- <-.
        * locp s t l HPI.
          { cbn [PI1]. split; [exact A|]. split; [exact W1|]. exact G. }
        * apply Nat.eqb_neq in L. locp s t l HPI.
          { cbn [PI1]. split; [exact A|]. split; [exact W1|]. cbn [impl_reads snd]. split; [lia|]. right. exact G. }
    - destruct HT as (A & B & D). pose proof (correct _ _ _ A) as [K1 K2]. pose proof (full _ _ _ A) as F.
      destruct i as [f|k rs rr body ok err|k rs body ok err w]; [contradiction| |]; cbn [reads_all] in F.
      + destruct (body hist g) as [y|] eqn:EB.
        2:{ injection H as <- <-. locp s t l HPI. exact I. }
        destruct (Z.eqb_spec (mem s a) g) as [EQ|NE]; cbn [andb] in H.
        * destruct (spurious l) eqn:SP; cbn [negb] in H; injection H as <- <-.
          { locp s t l HPI. destruct rr; cbn [PI1].
            - split; [exact A|]. split; [exact B|]. cbn [impl_reads snd]. split; [now apply covers_len in F|]. right. reflexivity.
            - split; [exact A|]. split; [exact B|]. right. reflexivity. }
          { apply PI_write_fin; auto. subst g. destruct (proj1 K2 hist (mem s a) y (HI a) EB); auto. }
        * injection H as <- <-.
          assert (BB : spurious l = true \/ behind s t a) by (right; destruct D; auto; congruence).
          locp s t l HPI.
          assert (W' : forall p, within (go (count_fail s t (spurious l)) t p) t a).
          { intros p. unfold within, count_fail. cbn. destruct (spurious l); [exact B|]. rewrite setn_same. destruct BB as [|BB]; [discriminate|]. exact BB. }
          destruct rr; cbn [PI1].
          { split; [exact A|]. split; [apply W'|]. cbn [impl_reads snd]. split; [now apply covers_len in F|]. right. reflexivity. }
          { split; [exact A|]. split; [apply W'|]. right. reflexivity. }
      + destruct (body g) as [y|] eqn:EB.
        2:{ injection H as <- <-. locp s t l HPI. exact I. }
        destruct (has_resv s t a && negb (spurious l)) eqn:ER.
        * injection H as <- <-. apply PI_write_fin; auto. apply andb_true_iff in ER as [ER _].
          destruct HR as (_ & _ & HR). specialize (HR t). rewrite EP in HR. destruct HR as (_ & _ & _ & HG).
          assert (E : g = mem s a).
          { apply HG; [reflexivity|]. unfold has_resv in ER. destruct (resv s t) as [b|]; [|discriminate].
            apply Z.eqb_eq in ER. now subst. }
          subst g. destruct K2 as (K2 & _). destruct (K2 (mem s a) y (HI a) EB); auto.
        * assert (BB : spurious l = true \/ behind s t a).
          { destruct D as [D|D]; auto. unfold has_resv in ER. rewrite D, Z.eqb_refl in ER. cbn in ER. left. now destruct (spurious l). }
          assert (W' : forall p, within (go (set_resv (count_fail s t (spurious l)) t None) t p) t a).
          { intros p. unfold within, count_fail. cbn. destruct (spurious l); [exact B|]. rewrite setn_same. destruct BB as [|BB]; [discriminate|]. exact BB. }
          destruct w as [w|]; injection H as <- <-.
          { locp s t l HPI. exact I. }
          { locp s t l HPI.
            cbn [PI1]. split; [exact A|]. split; [apply W'|]. cbn [impl_reads snd]. split; [now apply covers_len in F|]. auto. }
    - injection H as <- <-. locp s t l HPI. exact I.
  Qed.

  Lemma PI_run ls : forall s A0 s' h, Rel impl_of width abs s A0 -> PI s -> run impl_of s ls = Some (s', h) ->
    PI s' /\ exists A, Rel impl_of width abs s' A.
  Proof.
    induction ls as [|l ls IH]; intros s A0 s' h HR HP H; cbn in H.
    - injection H as <- <-. eauto.
    - destruct (step impl_of s l) as [[s1 e]|] eqn:E; [|discriminate].
      destruct (run impl_of s1 ls) as [[s2 es]|] eqn:E2; [|discriminate]. injection H as <- <-.
      destruct (sim_step impl_of width abs sem correct _ _ _ _ _ HR E) as (A1 & _ & R1).
      eapply (IH s1 A1); [exact R1|exact (PI_step s A0 l s1 e HR HP E)|exact E2].
  Qed.
  Lemma PI_init m : (forall a, inr a (m a)) -> PI (init m).
  Proof. intros H. split; [exact H|]. intros t. exact I. Qed.

  (** Failed attempts of the running call never outnumber the writes to its variable since the
      call was made. *)
  Theorem failures_bounded m ls s h t : (forall a, inr a (m a)) -> run impl_of (init m) ls = Some (s, h) ->
    forall a o i, (exists hist n acc, pcs s t = Rd a o i hist n acc) \/ (exists hist g, pcs s t = Try a o i hist g) ->
    (fails s t + since s t <= nwrites s a)%nat.
  Proof.
    intros Hm H a o i P. destruct (PI_run ls _ _ _ _ (init_Rel impl_of width abs m Hm) (PI_init m Hm) H) as [[_ K] _].
    specialize (K t). destruct P as [(hist & n & acc & E)|(hist & g & E)]; rewrite E in K; cbn in K; apply K.
  Qed.

  (** ** A thread running alone *)
  Definition alone (t : nat) (n : nat) : list (label Op) := repeat (mk_label t None false) n.
  Definition finishes (s : state) (t : nat) (n : nat) : Prop :=
    exists k s' r, (k <= n)%nat /\ run impl_of s (alone t k) = Some (s', [Return t r]).

  Lemma finish_step s s1 t n : step impl_of s (mk_label t None false) = Some (s1, []) -> finishes s1 t n -> finishes s t (S n).
  Proof.
    intros H (k & s' & r & K & R). exists (S k), s', r. split; [lia|]. cbn. rewrite H. unfold alone in R. now rewrite R.
  Qed.
  Lemma finish_mono s t n m : (n <= m)%nat -> finishes s t n -> finishes s t m.
  Proof. intros L (k & s' & r & K & R). exists k, s', r. split; [lia|exact R]. Qed.
  Lemma finish_fin s t r : pcs s t = Fin r -> finishes s t 1.
  Proof. intros E. exists 1%nat, (go s t Idle), r. split; [lia|]. cbn. unfold step. cbn [tid]. now rewrite E. Qed.

  Lemma good_try s t a o i hist g : pcs s t = Try a o i hist g ->
    match i with Direct _ => False | CasLoop _ _ _ _ _ _ => mem s a = g | LlSc _ _ _ _ _ _ => resv s t = Some a end ->
    finishes s t 2.
  Proof.
    intros E G. destruct i as [f|k rs rr body ok err|k rs body ok err w]; [contradiction| |].
    - eapply finish_step.
      + unfold step. cbn [tid spurious]. rewrite E. rewrite (proj2 (Z.eqb_eq _ _) G). cbn [andb negb].
        instantiate (1 := match body hist g with None => go s t (Fin (err g)) | Some y => go (write s a y) t (Fin (ok g)) end).
        now destruct (body hist g).
      + destruct (body hist g) as [y|]; eapply finish_fin; cbn; apply setn_same.
    - eapply finish_step.
      + unfold step. cbn [tid spurious]. rewrite E. unfold has_resv. rewrite G, Z.eqb_refl. cbn [andb negb].
        instantiate (1 := match body g with None => go s t (Fin (err g)) | Some y => go (write s a y) t (Fin (ok g)) end).
        now destruct (body g).
      + destruct (body g) as [y|]; eapply finish_fin; cbn; apply setn_same.
  Qed.

  (** Reading the remaining pieces. *)
  Lemma read_rest k : forall s t a o i hist n acc, pcs s t = Rd a o i hist n acc ->
    (length (snd (impl_reads i)) = n + S k)%nat ->
    exists s' g, run impl_of s (alone t (S k)) = Some (s', []) /\ pcs s' t = Try a o i hist g /\
      (forall b, mem s' b = mem s b) /\
      (g = acc + gather (fst (impl_reads i)) (skipn n (snd (impl_reads i))) (mem s a)) /\
      (is_ll i = true -> n = 0%nat -> resv s' t = Some a) /\ (n <> 0%nat -> resv s' t = resv s t).
  Proof.
    induction k as [|k IH]; intros s t a o i hist n acc E L.
    - destruct (impl_reads i) as [kk rs] eqn:EI. cbn [fst snd] in *.
      assert (Hn : exists p, nth_error rs n = Some p).
      { destruct (nth_error rs n) eqn:Q; [eauto|]. apply nth_error_None in Q. lia. }
      destruct Hn as [p Hp].
      eexists _, _. cbn [alone repeat run]. unfold step. cbn [tid]. rewrite E, EI, Hp.
      rewrite (proj2 (Nat.eqb_eq (S n) (length rs))) by lia. split; [reflexivity|].
      split; [cbn; apply setn_same|]. split; [intros; destruct (is_ll i && Nat.eqb n 0); reflexivity|].
      split.
      { f_equal. assert (SK : skipn n rs = [p]).
        { rewrite (nth_error_skipn_cons rs n p Hp). f_equal. apply skipn_all2. lia. }
        rewrite SK. unfold gather. cbn. lia. }
      split.
      { intros -> ->. cbn. apply setn_same. }
      { intros NZ. rewrite (proj2 (Nat.eqb_neq n 0) NZ), andb_false_r. reflexivity. }
    - destruct (impl_reads i) as [kk rs] eqn:EI. cbn [fst snd] in *.
      assert (Hn : exists p, nth_error rs n = Some p).
      { destruct (nth_error rs n) eqn:Q; [eauto|]. apply nth_error_None in Q. lia. }
      destruct Hn as [p Hp].
      set (s0 := if is_ll i && Nat.eqb n 0 then set_resv s t (Some a) else s).
      set (s1 := go s0 t (Rd a o i hist (S n) (acc + piece kk p (mem s a)))).
      assert (ST : step impl_of s (mk_label t None false) = Some (s1, [])).
      { unfold step. cbn [tid]. rewrite E, EI, Hp. rewrite (proj2 (Nat.eqb_neq (S n) (length rs))) by lia. reflexivity. }
      assert (M0 : forall b, mem s0 b = mem s b) by (intros; unfold s0; destruct (is_ll i && Nat.eqb n 0); reflexivity).
      destruct (IH s1 t a o i hist (S n) (acc + piece kk p (mem s a))) as (s' & g & R1 & R2 & R3 & R4 & R5 & R6).
      { cbn. apply setn_same. }
      { rewrite EI. cbn [snd]. lia. }
      exists s', g. split.
      { change (alone t (S (S k))) with (mk_label t (@None (Z * Op)) false :: alone t (S k)). cbn [run]. rewrite ST. now rewrite R1. }
      split; [exact R2|]. split; [intros b; rewrite R3; cbn; apply M0|]. split.
      { rewrite R4, EI. cbn [fst snd]. rewrite (nth_error_skipn_cons rs n p Hp).
        replace (mem s1 a) with (mem s a) by (symmetry; cbn; apply M0). unfold gather. cbn [map sumz fold_right]. fold (sumz (map (fun q => piece kk q (mem s a)) (skipn (S n) rs))). lia. }
      split.
      { intros LL ->. rewrite R6 by lia. cbn. unfold s0. rewrite LL. cbn. apply setn_same. }
      { intros NZ. rewrite R6 by lia. cbn. unfold s0. rewrite (proj2 (Nat.eqb_neq n 0) NZ), andb_false_r. reflexivity. }
  Qed.

  Lemma finish_run s s1 t k n : run impl_of s (alone t k) = Some (s1, []) -> finishes s1 t n -> finishes s t (k + n).
  Proof.
    revert s. induction k as [|k IH]; intros s H F.
    - cbn in H. injection H as <-. exact F.
    - change (alone t (S k)) with (mk_label t (@None (Z * Op)) false :: alone t k) in H. cbn [run] in H.
      destruct (step impl_of s (mk_label t None false)) as [[s2 e]|] eqn:E; [|discriminate].
      destruct (run impl_of s2 (alone t k)) as [[s3 es]|] eqn:E2; [|discriminate]. injection H as H1 H2.
      apply app_eq_nil in H2 as [-> ->]. subst s3. change (S k + n)%nat with (S (k + n)). eapply finish_step; eauto.
  Qed.

  (** An attempt started afresh succeeds. *)
  Lemma fresh_rd s t a o i hist : (forall b, inr b (mem s b)) -> reads_all a i ->
    match i with Direct _ => False | _ => True end ->
    pcs s t = Rd a o i hist 0 0 -> finishes s t (length (snd (impl_reads i)) + 2).
  Proof.
    intros HI F ND E.
    assert (L : (0 < length (snd (impl_reads i)))%nat) by (destruct i; [contradiction| |]; cbn; now apply covers_len in F).
    destruct (read_rest (pred (length (snd (impl_reads i)))) s t a o i hist 0 0 E) as (s' & g & R1 & R2 & R3 & R4 & R5 & R6); [lia|].
    replace (S (pred (length (snd (impl_reads i))))) with (length (snd (impl_reads i))) in R1 by lia.
    eapply finish_run; [exact R1|]. eapply good_try; [exact R2|].
    destruct i as [f|k rs rr body ok err|k rs body ok err w]; [contradiction| |]; cbn [impl_reads fst snd skipn is_ll] in *.
    - rewrite R3, R4. symmetry. apply gather_all with (a := a); auto.
    - now apply R5.
  Qed.

  Lemma any_try s t a o i hist g : (forall b, inr b (mem s b)) -> reads_all a i ->
    match i with Direct _ => False | _ => True end ->
    pcs s t = Try a o i hist g -> finishes s t (length (snd (impl_reads i)) + 3).
  Proof.
    intros HI F ND E. destruct i as [f|k rs rr body ok err|k rs body ok err w]; [contradiction| |]; cbn [impl_reads snd].
    - destruct (Z.eq_dec (mem s a) g) as [Q|Q].
      { eapply finish_mono; [|eapply good_try; [exact E|exact Q]]. lia. }
      destruct (body hist g) as [y|] eqn:EB.
      2:{ eapply finish_mono with (n := 2%nat); [lia|]. eapply finish_step.
          - unfold step. cbn [tid]. rewrite E, EB. reflexivity.
          - eapply finish_fin. cbn. apply setn_same. }
      rewrite Nat.add_succ_r. eapply finish_step.
      { unfold step. cbn [tid spurious]. rewrite E, EB, (proj2 (Z.eqb_neq _ _) Q). cbn [andb]. reflexivity. }
      destruct rr.
      + eapply (fresh_rd _ t a o (CasLoop k rs true body ok err)); auto. cbn. apply setn_same.
      + eapply finish_mono; [|eapply good_try; [cbn; apply setn_same|reflexivity]]. lia.
    - destruct (resv s t) as [b|] eqn:ER.
      1: destruct (Z.eq_dec b a) as [->|Q].
      { eapply finish_mono; [|eapply good_try; [exact E|exact ER]]. lia. }
      all: destruct (body g) as [y|] eqn:EB; [|eapply finish_mono with (n := 2%nat); [lia|]; eapply finish_step;
          [unfold step; cbn [tid]; rewrite E, EB; reflexivity|eapply finish_fin; cbn; apply setn_same]].
      all: rewrite Nat.add_succ_r.
      all: eapply finish_step; [unfold step; cbn [tid spurious]; rewrite E, EB; unfold has_resv; rewrite ER, ?(proj2 (Z.eqb_neq _ _) Q); cbn [andb];
         instantiate (1 := match w with Some w => _ | None => _ end); destruct w; reflexivity|].
      all: destruct w as [w|]; [eapply finish_mono with (n := 1%nat); [lia|]; eapply finish_fin; cbn; apply setn_same|].
      all: eapply (fresh_rd _ t a o (LlSc k rs body ok err None)); auto; cbn; apply setn_same.
  Qed.

  (** Number of pieces the loop of the running call reads. *)
  Definition pieces (p : pc Op Res) : nat :=
    match p with
    | Begin _ _ i | Rd _ _ i _ _ _ | Try _ _ i _ _ => length (snd (impl_reads i))
    | _ => 0%nat
    end.

  Theorem solo_finishes m ls s h t : (forall a, inr a (m a)) -> run impl_of (init m) ls = Some (s, h) ->
    pcs s t <> Idle ->
    exists k s' r, (k <= 2 * pieces (pcs s t) + 4)%nat /\ run impl_of s (alone t k) = Some (s', [Return t r]).
  Proof.
    intros Hm H NI. change (finishes s t (2 * pieces (pcs s t) + 4)).
    destruct (PI_run ls _ _ _ _ (init_Rel impl_of width abs m Hm) (PI_init m Hm) H) as [[HI K] _]. specialize (K t).
    destruct (pcs s t) as [|a o i|a o i hist n acc|a o i hist g|r] eqn:EP; cbn [PI1 pieces] in *; [congruence| | | |].
    - destruct K as (A & _ & _). pose proof (full _ _ _ A) as F. destruct i as [f|k rs rr body ok err|k rs body ok err w].
      + eapply finish_mono with (n := 2%nat); [lia|]. eapply finish_step.
        * unfold step. cbn [tid spurious]. rewrite EP.
          instantiate (1 := match f false (mem s a) with (Some y, r) => go (write s a y) t (Fin r) | (None, r) => go s t (Fin r) end).
          destruct (f false (mem s a)) as [[y|] r]; reflexivity.
        * destruct (f false (mem s a)) as [[y|] r]; eapply finish_fin; cbn; apply setn_same.
      + eapply finish_mono with (n := S (length rs + 2)); [cbn; lia|]. eapply finish_step.
        * unfold step. cbn [tid]. rewrite EP. reflexivity.
        * eapply (fresh_rd _ t a o (CasLoop k rs rr body ok err)); auto. cbn. apply setn_same.
      + eapply finish_mono with (n := S (length rs + 2)); [cbn; lia|]. eapply finish_step.
        * unfold step. cbn [tid]. rewrite EP. reflexivity.
        * eapply (fresh_rd _ t a o (LlSc k rs body ok err w)); auto. cbn. apply setn_same.
    - destruct K as (A & _ & C & D). pose proof (full _ _ _ A) as F.
      destruct (read_rest (length (snd (impl_reads i)) - S n) s t a o i hist n acc EP) as (s' & g & R1 & R2 & R3 & _); [lia|].
      eapply finish_mono with (n := (S (length (snd (impl_reads i)) - S n) + (length (snd (impl_reads i)) + 3))%nat); [lia|].
      eapply finish_run; [exact R1|]. eapply any_try; [|exact F| |exact R2].
      + intros b. rewrite R3. auto.
      + destruct i; auto.
    - destruct K as (A & _ & D). pose proof (full _ _ _ A) as F.
      eapply finish_mono; [|eapply any_try; eauto; destruct i; auto]. lia.
    - eapply finish_mono; [|eapply finish_fin; exact EP]. lia.
  Qed.

  (** A write ends the call that makes it. *)
  Theorem write_completes s l s' e a : step impl_of s l = Some (s', e) -> nwrites s' a <> nwrites s a ->
    (exists r, pcs s' (tid l) = Fin r) /\ nwrites s' a = S (nwrites s a).
  Proof.
    intros H N. unfold step in H. set (t := tid l) in *.
    assert (WR : forall b y r, s' = go (write s b y) t (Fin r) -> (exists r, pcs s' t = Fin r) /\ nwrites s' a = S (nwrites s a)).
    { intros b y r ->. split; [exists r; cbn; apply setn_same|]. revert N. cbn. unfold setz. destruct (Z.eqb_spec a b) as [->|]; congruence. }
    destruct (pcs s t) as [|b o i|b o i hist n acc|b o i hist g|r] eqn:EP.
    - destruct (call l) as [[b o]|]; [|discriminate]. destruct (impl_of b o); [|discriminate]. injection H as <- <-. cbn in N. congruence.
    - destruct i; try (injection H as <- <-; cbn in N; congruence).
      destruct (f (spurious l) (mem s b)) as [[y|] r]; injection H as <- <-; [eapply WR; reflexivity|cbn in N; congruence].
    - destruct (impl_reads i) as [k rs]. destruct (nth_error rs n); [|discriminate].
      destruct (is_ll i && Nat.eqb n 0), (Nat.eqb (S n) (length rs)); injection H as <- <-; cbn in N; congruence.
    - destruct i as [f|k rs rr body ok err|k rs body ok err w]; [discriminate| |].
      + destruct (body hist g); [|injection H as <- <-; cbn in N; congruence].
        destruct ((mem s b =? g) && negb (spurious l)); injection H as <- <-; [eapply WR; reflexivity|cbn in N; congruence].
      + destruct (body g); [|injection H as <- <-; cbn in N; congruence].
        destruct (has_resv s t b && negb (spurious l)); [injection H as <- <-; eapply WR; reflexivity|].
        destruct w; injection H as <- <-; cbn in N; congruence.
    - injection H as <- <-. cbn in N. congruence.
  Qed.
End Progress.
