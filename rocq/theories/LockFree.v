(** System-wide progress: any number of running threads, scheduled in any way without spurious
    failures, cannot take arbitrarily many steps without one of them returning. *)
From Coq Require Import ZArith List Bool PeanoNat Lia.
From Verif Require Import Words Spec WordsFacts LoopModel LoopProofs LoopProgress AsmModel AsmProofs AsmProgress.
Import ListNotations.
Open Scope Z_scope.

Section Loop.
  Context {Op Res : Type}.
  Variable impl_of : Z -> Op -> option (impl Res).
  Variable width : Z -> Z.
  Variable abs : Z -> Z -> Z.
  Variable sem : Z -> Op -> Z -> Z * Res -> Prop.
  Hypothesis correct : forall a o i, impl_of a o = Some i -> impl_correct width abs sem a o i.
  Hypothesis full : forall a o i, impl_of a o = Some i -> reads_all width a i.
  Local Notation state := (state Op Res).
  Local Notation PI := (PI impl_of width).

  (** The attempt under way will succeed unless somebody writes. *)
  Definition fresh (s : state) (t : nat) (p : pc Op Res) : bool :=
    match p with
    | Rd a o i hist n acc =>
      match i with
      | CasLoop k rs _ _ _ _ => acc =? gather k (firstn n rs) (mem s a)
      | LlSc _ _ _ _ _ _ => Nat.eqb n 0 || has_resv s t a
      | Direct _ => false
      end
    | Try a o i hist g =>
      match i with
      | CasLoop _ _ _ _ _ _ => g =? mem s a
      | LlSc _ _ _ _ _ _ => has_resv s t a
      | Direct _ => false
      end
    | _ => true
    end.
  Definition len (i : impl Res) : nat := length (snd (impl_reads i)).
  Definition mu (s : state) (t : nat) (p : pc Op Res) : nat :=
    match p with
    | Idle | Fin _ => 0
    | Begin _ _ i => len i + 3
    | Rd _ _ i _ n _ => (len i - n) + 2 + (if fresh s t p then 0 else len i + 3)
    | Try _ _ i _ _ => 1 + (if fresh s t p then 0 else len i + 3)
    end%nat.
  Definition active (p : pc Op Res) : nat := match p with Idle | Fin _ => 0 | _ => 1 end.

  Definition sumt (f : nat -> nat) (T : list nat) : nat := fold_right (fun t n => (f t + n)%nat) 0%nat T.
  Lemma sumt_ext f g T : (forall t, In t T -> f t = g t) -> sumt f T = sumt g T.
  Proof. induction T as [|t T IH]; intros H; cbn; [reflexivity|]. rewrite (H t) by (now left). f_equal. apply IH. intros u Hu. apply H. now right. Qed.
  Lemma sumt_lt f g T t : In t T -> NoDup T -> (forall u, u <> t -> f u = g u) -> (f t < g t)%nat -> (sumt f T < sumt g T)%nat.
  Proof.
    intros I N E L. induction T as [|u T' IH]; [contradiction|].
    change (f u + sumt f T' < g u + sumt g T')%nat. inversion N as [|u0 T0 N1 N2]; subst u0 T0. destruct I as [->|H].
    - rewrite (sumt_ext f g T'); [lia|]. intros v Hv. apply E. congruence.
    - specialize (IH H N2). rewrite (E u); [lia|]. congruence.
  Qed.

  Variable T : list nat.
  Hypothesis NT : NoDup T.
  Definition phi (s : state) : nat * nat := (sumt (fun t => active (pcs s t)) T, sumt (fun t => mu s t (pcs s t)) T).
  Definition lex (x y : nat * nat) : Prop := (fst x < fst y)%nat \/ (fst x = fst y /\ (snd x < snd y)%nat).

  (** A step that keeps memory and other threads' state. *)
  Lemma phi_keep (s s' : state) t p : In t T -> (forall a, mem s' a = mem s a) ->
    (forall u, u <> t -> pcs s' u = pcs s u /\ resv s' u = resv s u) -> pcs s' t = p ->
    (active p = 0%nat /\ active (pcs s t) = 1%nat \/ active p = active (pcs s t) /\ (mu s' t p < mu s t (pcs s t))%nat) ->
    lex (phi s') (phi s).
  Proof.
    intros I M O P D. unfold lex, phi. cbn [fst snd]. destruct D as [[D1 D2]|[D1 D2]].
    - left. apply sumt_lt with (t := t); auto; [|rewrite P; lia]. intros u N. now rewrite (proj1 (O u N)).
    - right. split.
      + apply sumt_ext. intros u _. destruct (Nat.eq_dec u t) as [->|N]; [now rewrite P|]. now rewrite (proj1 (O u N)).
      + apply sumt_lt with (t := t); auto; [|now rewrite P]. intros u N. destruct (O u N) as [-> R].
        assert (F : fresh s' u (pcs s u) = fresh s u (pcs s u)).
        { unfold fresh, has_resv. destruct (pcs s u) as [|a o i|a o i hist n acc|a o i hist g|r]; auto; rewrite ?M, ?R; reflexivity. }
        unfold mu. destruct (pcs s u); auto; now rewrite F.
  Qed.
  Lemma phi_write (s s' : state) t r : In t T -> active (pcs s t) = 1%nat ->
    (forall u, u <> t -> pcs s' u = pcs s u) -> pcs s' t = Fin r -> lex (phi s') (phi s).
  Proof.
    intros I A O P. left. cbn [phi fst]. apply sumt_lt with (t := t); auto; [|rewrite P; cbn; lia].
    intros u N. now rewrite O.
  Qed.

  Lemma phi_step s t s' : PI s -> In t T -> step impl_of s (mk_label t None false) = Some (s', []) -> lex (phi s') (phi s).
  Proof.
    intros [HI HP] I H. specialize (HP t). unfold step in H. cbn [tid spurious call] in H.
    assert (OT : forall (s0 : state) p u, u <> t -> pcs (go s0 t p) u = pcs s0 u) by (intros; cbn; now apply setn_other).
    destruct (pcs s t) as [|a o i|a o i hist n acc|a o i hist g|r] eqn:EP; cbn [PI1] in HP; [discriminate| | | |discriminate].
    - destruct HP as (A & B & _). pose proof (full _ _ _ A) as F. destruct i as [f|k rs rr body ok err|k rs body ok err w].
      + destruct (f false (mem s a)) as [[y|] r]; injection H as <-.
        * eapply phi_write; [exact I|now rewrite EP|intros u N; cbn; now apply setn_other|cbn; apply setn_same].
        * eapply phi_keep; [exact I|try reflexivity; try (intros b; cbn; apply M1)| |cbn; apply setn_same|].
          { intros u N. cbn. now rewrite setn_other. }
          { left. rewrite EP. auto. }
      + injection H as <-. eapply phi_keep; [exact I|try reflexivity; try (intros b; cbn; apply M1)| |cbn; apply setn_same|].
        { intros u N. cbn. now rewrite setn_other. }
        right. rewrite EP. split; [reflexivity|]. unfold mu, fresh, len. cbn [impl_reads snd firstn mem go].
        change (gather k [] (mem s a)) with 0. cbn [Z.eqb]. lia.
      + injection H as <-. eapply phi_keep; [exact I|try reflexivity; try (intros b; cbn; apply M1)| |cbn; apply setn_same|].
        { intros u N. cbn. now rewrite setn_other. }
        right. rewrite EP. split; [reflexivity|]. unfold mu, fresh, len. cbn [impl_reads snd Nat.eqb orb]. lia.
    - destruct HP as (A & B & C & D). pose proof (full _ _ _ A) as F.
      destruct i as [f|k rs rr body ok err|k rs body ok err w]; cbn [impl_reads snd is_ll andb reads_all] in *; [contradiction| |].
      + destruct (nth_error rs n) as [p|] eqn:EN; [|discriminate].
        set (v := piece k p (mem s a)) in *.
        assert (FR : acc = gather k (firstn n rs) (mem s a) -> acc + v = gather k (firstn (S n) rs) (mem s a)).
        { intros E. rewrite (firstn_snoc _ _ _ EN), gather_snoc. now rewrite E. }
        destruct (Nat.eqb_spec (S n) (length rs)) as [L|L]; injection H as <-.
        * eapply phi_keep; [exact I|try reflexivity; try (intros b; cbn; apply M1)| |cbn; apply setn_same|].
          { intros u N. cbn. now rewrite setn_other. }
          right. rewrite EP. split; [reflexivity|]. unfold mu, fresh, len. cbn [impl_reads snd mem go].
          destruct (Z.eqb_spec acc (gather k (firstn n rs) (mem s a))) as [E|NE].
          { assert (Q : acc + v = mem s a).
            { rewrite (FR E), L, firstn_all. eapply gather_all; [exact F|apply HI]. }
            rewrite (proj2 (Z.eqb_eq _ _) Q). lia. }
          { destruct (acc + v =? mem s a); lia. }
        * eapply phi_keep; [exact I|try reflexivity; try (intros b; cbn; apply M1)| |cbn; apply setn_same|].
          { intros u N. cbn. now rewrite setn_other. }
          right. rewrite EP. split; [reflexivity|]. unfold mu, fresh, len. cbn [impl_reads snd mem go].
          destruct (Z.eqb_spec acc (gather k (firstn n rs) (mem s a))) as [E|NE].
          { rewrite (proj2 (Z.eqb_eq _ _) (FR E)). lia. }
          { destruct (acc + v =? _); lia. }
      + destruct (nth_error rs n) as [p|] eqn:EN; [|discriminate].
        set (s1 := if Nat.eqb n 0 then set_resv s t (Some a) else s) in *.
        assert (M1 : forall b, mem s1 b = mem s b) by (intros; unfold s1; destruct (Nat.eqb n 0); reflexivity).
        assert (P1 : forall u, pcs s1 u = pcs s u) by (intros; unfold s1; destruct (Nat.eqb n 0); reflexivity).
        assert (R1 : forall u, u <> t -> resv s1 u = resv s u).
        { intros u NU. unfold s1. destruct (Nat.eqb n 0); [cbn; now apply setn_other|reflexivity]. }
        assert (FR : forall p', (Nat.eqb n 0 || has_resv s t a) = true -> has_resv (go s1 t p') t a = true).
        { intros p' Q. unfold has_resv, go, s1. cbn [resv]. destruct (Nat.eqb n 0) eqn:Z; cbn.
          - rewrite setn_same. apply Z.eqb_refl.
          - cbn in Q. exact Q. }
        destruct (Nat.eqb (S n) (length rs)) eqn:L; injection H as <-.
        * eapply phi_keep; [exact I|try reflexivity; try (intros b; cbn; apply M1)| |cbn; apply setn_same|].
          { intros u N. cbn. rewrite setn_other by assumption. auto. }
          right. rewrite EP. split; [reflexivity|]. unfold mu, fresh, len. cbn [impl_reads snd].
          destruct (Nat.eqb n 0 || has_resv s t a) eqn:Q.
          { rewrite FR by reflexivity. lia. }
          { match goal with |- context [if ?b then _ else _] => destruct b end; clear - C; lia. }
        * apply Nat.eqb_neq in L. eapply phi_keep; [exact I|try reflexivity; try (intros b; cbn; apply M1)| |cbn; apply setn_same|].
          { intros u N. cbn. rewrite setn_other by assumption. auto. }
          right. rewrite EP. split; [reflexivity|]. unfold mu, fresh, len. cbn [impl_reads snd].
          destruct (Nat.eqb n 0 || has_resv s t a) eqn:Q.
          { rewrite FR by reflexivity. rewrite orb_true_r. lia. }
          { match goal with |- context [if ?b then _ else _] => destruct b end; clear - C; lia. }
    - destruct HP as (A & B & D). pose proof (full _ _ _ A) as F.
      destruct i as [f|k rs rr body ok err|k rs body ok err w]; [contradiction| |].
      + destruct (body hist g) as [y|] eqn:EB.
        2:{ injection H as <-. eapply phi_keep; [exact I|try reflexivity; try (intros b; cbn; apply M1)| |cbn; apply setn_same|].
            { intros u N. cbn. now rewrite setn_other. } left. rewrite EP. auto. }
        cbn [negb] in H. rewrite andb_true_r in H. destruct (Z.eqb_spec (mem s a) g) as [E|NE]; injection H as <-.
        * eapply phi_write; [exact I|now rewrite EP|intros u N; cbn; now apply setn_other|cbn; apply setn_same].
        * eapply phi_keep; [exact I|try reflexivity; try (intros b; cbn; apply M1)| |cbn; apply setn_same|].
          { intros u N. cbn. now rewrite setn_other. }
          right. rewrite EP. split; [now destruct rr|].
          assert (NF : fresh s t (Try a o (CasLoop k rs rr body ok err) hist g) = false) by (cbn; apply Z.eqb_neq; congruence).
          unfold mu at 2. rewrite NF. destruct rr; unfold mu, fresh, len; cbn [impl_reads snd firstn mem go count_fail].
          { change (gather k [] (mem s a)) with 0. cbn [Z.eqb]. lia. }
          { rewrite Z.eqb_refl. lia. }
      + destruct (body g) as [y|] eqn:EB.
        2:{ injection H as <-. eapply phi_keep; [exact I|try reflexivity; try (intros b; cbn; apply M1)| |cbn; apply setn_same|].
            { intros u N. cbn. now rewrite setn_other. } left. rewrite EP. auto. }
        cbn [negb] in H. rewrite andb_true_r in H. destruct (has_resv s t a) eqn:R; [injection H as <-|].
        * eapply phi_write; [exact I|now rewrite EP|intros u N; cbn; now apply setn_other|cbn; apply setn_same].
        * destruct w as [w|]; injection H as <-.
          { eapply phi_keep; [exact I|try reflexivity; try (intros b; cbn; apply M1)| |cbn; apply setn_same|].
            - intros u N. cbn. now rewrite !setn_other.
            - left. rewrite EP. auto. }
          { eapply phi_keep; [exact I|try reflexivity; try (intros b; cbn; apply M1)| |cbn; apply setn_same|].
            - intros u N. cbn. now rewrite !setn_other.
            - right. rewrite EP. split; [reflexivity|]. unfold mu at 2. cbn [fresh]. rewrite R.
              unfold mu, fresh, len. cbn [impl_reads snd Nat.eqb orb]. lia. }
  Qed.

  Lemma lex_wf : well_founded lex.
  Proof.
    assert (K : forall x y, Acc lex (x, y)).
    { induction x as [x IHx] using (well_founded_induction lt_wf). induction y as [y IHy] using (well_founded_induction lt_wf).
      constructor. intros [a b] [H|[H1 H2]]; cbn in *; [now apply IHx|]. subst. now apply IHy. }
    intros [x y]. apply K.
  Qed.
  Lemma lex_trans x y z : lex x y -> lex y z -> lex x z.
  Proof. unfold lex. lia. Qed.
End Loop.

Section Asm.
  Context {C Op Res : Type}.
  Variable next : C -> action C Res.
  Variable code_of : Z -> Op -> option C.
  Variable impl_of : Z -> Op -> option (impl Res).
  Variable width : Z -> Z.
  Variable abs : Z -> Z -> Z.
  Variable sem : Z -> Op -> Z -> Z * Res -> Prop.
  Hypothesis correct : forall a o i, impl_of a o = Some i -> impl_correct width abs sem a o i.
  Hypothesis full : forall a o i, impl_of a o = Some i -> reads_all width a i.
  Hypothesis code_refines : forall a o c, code_of a o = Some c ->
    exists i, impl_of a o = Some i /\ refines next width a o c i.
  Local Notation lstate := (state Op Res).
  Local Notation sim := (Sim (Op := Op) next width).
  Local Notation similar := (similar (Op := Op) next width).
  Local Notation PI := (PI impl_of width).
  Local Notation Rel := (Rel impl_of width abs).

  (** [settle] with the number of instructions. *)
  Inductive settle_n : nat -> C -> pc Op Res -> Prop :=
  | n_act n c p : act next width similar c p -> settle_n n c p
  | n_local n c c' p q : next c = ALocal c' -> locals p q -> settle_n n c' q -> settle_n (S n) c p
  | n_read n c a k m kont p : next c = ARead a k m kont -> 0 <= k ->
      (forall v, 0 <= v < 2 ^ k -> settle_n n (kont v) p) -> settle_n (S n) c p.
  Lemma settle_n_mono n m c p : (n <= m)%nat -> settle_n n c p -> settle_n m c p.
  Proof.
    intros L H. revert m L. induction H as [n c p A|n c c' p q N L0 H IH|n c a k m0 kont p N K H IH]; intros m L.
    - now apply n_act.
    - destruct m as [|m]; [lia|]. eapply n_local; eauto. apply IH. lia.
    - destruct m as [|m]; [lia|]. eapply n_read; eauto. intros v Hv. apply IH; [exact Hv|lia].
  Qed.
  Lemma bound_range (P : nat -> Z -> Prop) K : (forall n m v, (n <= m)%nat -> P n v -> P m v) ->
    (forall v, 0 <= v < K -> exists n, P n v) -> exists n, forall v, 0 <= v < K -> P n v.
  Proof.
    intros M H. assert (G : forall j, (exists n, forall v, 0 <= v < Z.of_nat j -> v < K -> P n v)).
    { induction j as [|j [n IH]].
      - exists 0%nat. intros. lia.
      - destruct (Z_lt_dec (Z.of_nat j) K) as [L|L].
        + destruct (H (Z.of_nat j)) as [n' H']; [lia|]. exists (max n n'). intros v V1 V2.
          destruct (Z.eq_dec v (Z.of_nat j)) as [->|N]; [apply (M n'); [lia|exact H']|].
          apply (M n); [lia|]. apply IH; lia.
        + exists n. intros v V1 V2. apply IH; lia. }
    destruct (G (Z.to_nat K)) as [n Hn]. exists n. intros v V. apply Hn; lia.
  Qed.
  Lemma settle_rank c p : settle next width similar c p -> exists n, settle_n n c p.
  Proof.
    induction 1 as [c p A|c c' p q N L H [n IH]|c a k m kont p N K H IH].
    - exists 0%nat. now apply n_act.
    - exists (S n). eapply n_local; eauto.
    - destruct (bound_range (fun n v => settle_n n (kont v) p) (2 ^ k)) as [n Hn]; [|exact IH|].
      + intros n n' v. apply settle_n_mono.
      + exists (S n). eapply n_read; eauto.
  Qed.
  Lemma rank_settle n c p : settle_n n c p -> settle next width similar c p.
  Proof. induction 1; [now apply st_act|eapply st_local; eauto|eapply st_read; eauto]. Qed.

  Variable T : list nat.
  Hypothesis NT : NoDup T.
  Definition ranked (s : asm_state C) (l : lstate) (r : nat -> nat) : Prop :=
    forall t c, In t T -> athr s t = Some c -> settle_n (r t) c (pcs l t).
  Lemma ranks_exist s l : sim s l -> exists r, ranked s l r.
  Proof.
    intros (_ & _ & S). unfold ranked.
    assert (G : forall L : list nat, exists r, forall t c, In t L -> athr s t = Some c -> settle_n (r t) c (pcs l t)).
    { induction L as [|t L [r IH]].
      - exists (fun _ => 0%nat). intros t c [].
      - destruct (S t) as [_ St]. destruct (athr s t) as [c|] eqn:E.
        + apply similar_settle in St. apply settle_rank in St as [n Hn].
          exists (fun u => if Nat.eqb u t then n else r u). intros u c' [<-|I] E'.
          * rewrite Nat.eqb_refl. congruence.
          * destruct (Nat.eqb_spec u t) as [->|]; [congruence|auto].
        + exists r. intros u c' [<-|I] E'; [congruence|auto]. }
    apply G.
  Qed.

  (** Loop steps of one thread. *)
  Lemma phi_reach ls : forall (l l' : lstate) A t, In t T -> Rel l A -> PI l ->
    Forall (fun x => tid x = t /\ (spurious x = true -> false = true)) ls -> active (pcs l t) = 1%nat \/ (exists r, pcs l t = Fin r) ->
    run impl_of l ls = Some (l', []) -> (ls = [] /\ l' = l) \/ lex (phi T l') (phi T l).
  Proof.
    induction ls as [|x ls IH]; intros l l' A t I R P F NI H; cbn in H.
    - injection H as <-. auto.
    - right. destruct (step impl_of l x) as [[l1 e]|] eqn:E; [|discriminate].
      destruct (run impl_of l1 ls) as [[l2 es]|] eqn:E2; [|discriminate]. injection H as -> H.
      apply app_eq_nil in H as [-> ->]. inversion F as [|x0 ls0 [Tx Sx] F']; subst x0 ls0.
      assert (SX : spurious x = false) by (destruct (spurious x); [now specialize (Sx eq_refl)|reflexivity]).
      assert (NID : pcs l t <> Idle) by (intros X; rewrite X in NI; destruct NI as [NI|[r NI]]; discriminate).
      assert (E' : step impl_of l (mk_label t None false) = Some (l1, [])).
      { revert E. unfold step. cbn [tid spurious call]. rewrite Tx, SX. destruct (pcs l t); [congruence|auto|auto|auto|auto]. }
      assert (D : lex (phi T l1) (phi T l)) by (eapply phi_step; eauto).
      destruct (sim_step impl_of width abs sem correct _ _ _ _ _ R E) as (A1 & _ & R1).
      assert (P1 : PI l1) by exact (PI_step impl_of width abs sem correct full l A x l1 [] R P E).
      assert (NI1 : active (pcs l1 t) = 1%nat \/ (exists r, pcs l1 t = Fin r)).
      { revert E'. unfold step. cbn [tid spurious call]. destruct (pcs l t) as [|a o i|a o i hist n acc|a o i hist g|r]; [congruence| | | |discriminate].
        - destruct i as [f|k rs rr body ok err|k rs body ok err w].
          + destruct (f false (mem l a)) as [[y|] r]; intros X; injection X as <-; right; exists r; cbn; apply setn_same.
          + intros X; injection X as <-; left; cbn; now rewrite setn_same.
          + intros X; injection X as <-; left; cbn; now rewrite setn_same.
        - destruct (impl_reads i) as [k rs]. destruct (nth_error rs n); [|discriminate].
          destruct (Nat.eqb (S n) (length rs)); intros X; injection X as <-; left; cbn; now rewrite setn_same.
        - destruct i as [f|k rs rr body ok err|k rs body ok err w]; [discriminate| |].
          + destruct (body hist g) as [y|].
            * destruct ((mem l a =? g) && negb false); intros X; injection X as <-; [right; eexists; cbn; apply setn_same|].
              left; cbn; rewrite setn_same; now destruct rr.
            * intros X; injection X as <-; right; eexists; cbn; apply setn_same.
          + destruct (body g) as [y|].
            * destruct (has_resv l t a && negb false); [intros X; injection X as <-; right; eexists; cbn; apply setn_same|].
              destruct w as [w|]; intros X; injection X as <-; [right; eexists; cbn; apply setn_same|].
              left; cbn; now rewrite setn_same.
            * intros X; injection X as <-; right; eexists; cbn; apply setn_same. }
      destruct (IH l1 l' A1 t I R1 P1 F' NI1 E2) as [[-> ->]|D2]; [exact D|]. eapply lex_trans; eauto.
  Qed.

  Lemma busy s l t c : sim s l -> athr s t = Some c -> active (pcs l t) = 1%nat \/ exists r, pcs l t = Fin r.
  Proof.
    intros (_ & _ & S) E. destruct (S t) as [_ T2]. rewrite E in T2. apply similar_settle in T2.
    destruct (pcs l t) as [|a o i|a o i hist n acc|a o i hist g|r] eqn:EP; eauto.
    exfalso. clear - T2. remember (@Idle Op Res) as p eqn:EP. revert EP.
    induction T2 as [c p A|c c' p q N L Q IHQ|c a k n0 kont p N K Q IHQ]; intros ->.
    - assert (LI : forall q, locals (@Idle Op Res) q -> q = Idle) by (intros q L; inversion L; [reflexivity|contradiction]).
      unfold act in A. destruct (next c) as [c'|a k n kont|a f kont|fi a k n kont|a v kont|r|]; try contradiction.
      + destruct A as [(o & i & hist & m & acc & L & _)|(o & g & L & _)]; apply LI in L; discriminate.
      + destruct A as [(o & g & L & _)|(o & k & rs & rr & body & ok & err & hist & g & y & L & _)]; apply LI in L; discriminate.
      + destruct A as (o & i & hist & m & acc & L & _). apply LI in L; discriminate.
      + destruct A as (o & k & rs & body & ok & err & weak & hist & g & L & _). apply LI in L; discriminate.
      + apply LI in A. discriminate.
    - apply IHQ. inversion L; [reflexivity|contradiction].
    - apply (IHQ 0); [|reflexivity]. split; [lia|]. now apply pow2_pos.
  Qed.

  (** Steps of running threads that return nothing. *)
  Definition quiet_step (s' s : asm_state C) : Prop :=
    exists t, In t T /\ asm_step next code_of s (mk_label t None false) = Some (s', []).

  Lemma reach_inv ls : forall (l l' : lstate) A h, Rel l A -> PI l -> run impl_of l ls = Some (l', h) -> PI l' /\ exists A', Rel l' A'.
  Proof. intros l l' A h R P H. eapply PI_run; eauto. Qed.

  Lemma quiet_acc : forall ph l A, phi T l = ph -> Rel l A -> PI l ->
    forall n s r, sim s l -> ranked s l r -> sumt r T = n -> Acc quiet_step s.
  Proof.
    intros ph. induction ph as [ph IHph] using (well_founded_induction lex_wf). intros l A Eph R P n.
    induction n as [n IHn] using (well_founded_induction lt_wf). intros s r S K En. constructor. intros s' (t & I & H).
    assert (E : exists c, athr s t = Some c).
    { unfold asm_step in H. cbn [tid call] in H. destruct (athr s t); [eauto|discriminate]. }
    destruct E as [c EA]. pose proof (K t c I EA) as Kt.
    assert (DONE : forall l', lex (phi T l') (phi T l) -> sim s' l' -> (exists A', Rel l' A') -> PI l' -> Acc quiet_step s').
    { intros l' D S' [A' R'] P'. destruct (ranks_exist s' l' S') as [r' K']. eapply (IHph (phi T l')); eauto. now rewrite <- Eph. }
    inversion Kt as [n0 c0 p0 Q|n0 c0 c' p0 q N L Q Er|n0 c0 a k m kont p0 N Hk Q Er]; subst c0 p0.
    - destruct (sim_act next code_of impl_of width s l (mk_label t None false) s' [] c S EA Q H) as (l' & (ls & R1 & R2 & R3) & S').
      cbn [tid spurious] in *. destruct (phi_reach ls l l' A t I R P R2 (busy s l t c S EA) R1) as [[-> _]|D]; [now specialize (R3 eq_refl)|].
      destruct (reach_inv ls l l' A _ R P R1) as [P' A']. eauto.
    - destruct (sim_local next code_of impl_of width s l (mk_label t None false) s' [] c c' q S EA N L
          (settle_is_similar _ _ _ _ (rank_settle _ _ _ Q)) H) as (_ & EA' & l' & (ls & R1 & R2 & R3) & P' & S'). cbn [tid spurious] in *.
      destruct (phi_reach ls l l' A t I R P R2 (busy s l t c S EA) R1) as [[-> ->]|D].
      + set (r' := fun u => if Nat.eqb u t then n0 else r u).
        apply (IHn (sumt r' T)) with (r := r'); auto.
        * subst n. apply sumt_lt with (t := t); auto; unfold r'.
          { intros u NU. now rewrite (proj2 (Nat.eqb_neq u t) NU). }
          { rewrite Nat.eqb_refl. lia. }
        * intros u c1 Iu Eu. unfold r'. destruct (Nat.eqb_spec u t) as [->|NU].
          { rewrite EA' in Eu. injection Eu as <-. now rewrite P'. }
          { apply K; auto. rewrite <- Eu. unfold asm_step in H. cbn [tid] in H. rewrite EA, N in H. injection H as <-.
            cbn. now rewrite setn_other. }
      + destruct (reach_inv ls l l' A _ R P R1) as [P'' A'']. eauto.
    - destruct (sim_read next code_of width s l (mk_label t None false) s' [] c a k m kont S EA N Hk
          (fun v Hv => settle_is_similar _ _ _ _ (rank_settle _ _ _ (Q v Hv))) H) as (_ & S' & v & Hv & EA'). cbn [tid spurious] in *.
      set (r' := fun u => if Nat.eqb u t then n0 else r u).
      apply (IHn (sumt r' T)) with (r := r'); auto.
      + subst n. apply sumt_lt with (t := t); auto; unfold r'.
        { intros u NU. now rewrite (proj2 (Nat.eqb_neq u t) NU). }
        { rewrite Nat.eqb_refl. lia. }
      + intros u c1 Iu Eu. unfold r'. destruct (Nat.eqb_spec u t) as [->|NU].
        { rewrite EA' in Eu. injection Eu as <-. now apply Q. }
        { apply K; auto. rewrite <- Eu. unfold asm_step in H. cbn [tid] in H. rewrite EA, N in H. injection H as <-.
          cbn. now rewrite setn_other. }
  Qed.

  (** A bound on the length of such executions. *)
  Lemma acc_bound s : Acc quiet_step s -> exists n, forall ls s' h,
    Forall (fun t => In t T) ls -> (n <= length ls)%nat ->
    asm_run next code_of s (map (fun t => mk_label t None false) ls) = Some (s', h) -> h <> [].
  Proof.
    induction 1 as [s _ IH].
    assert (G : forall L, (forall t, In t L -> In t T) -> exists n, forall t s1 ls s' h, In t L ->
      asm_step next code_of s (mk_label t None false) = Some (s1, []) -> Forall (fun t => In t T) ls -> (n <= length ls)%nat ->
      asm_run next code_of s1 (map (fun t => mk_label t None false) ls) = Some (s', h) -> h <> []).
    { induction L as [|t L IHL]; intros HL.
      - exists 0%nat. intros t s1 ls s' h [].
      - destruct IHL as [n Hn]; [intros; apply HL; now right|].
        destruct (asm_step next code_of s (mk_label t None false)) as [[s1 [|e es]]|] eqn:E.
        + destruct (IH s1) as [m Hm]; [exists t; split; [apply HL; now left|exact E]|].
          exists (max n m). intros u s2 ls s' h [<-|I] E' F Ln X.
          * rewrite E in E'. injection E' as <-. eapply Hm; eauto. lia.
          * eapply Hn; eauto. lia.
        + exists n. intros u s2 ls s' h [<-|I] E' F Ln X; [congruence|eapply Hn; eauto].
        + exists n. intros u s2 ls s' h [<-|I] E' F Ln X; [congruence|eapply Hn; eauto]. }
    destruct (G T (fun _ H => H)) as [n Hn]. exists (S n). intros ls s' h F Ln X.
    destruct ls as [|t ls]; [cbn in Ln; lia|]. cbn in X. inversion F; subst.
    destruct (asm_step next code_of s (mk_label t None false)) as [[s1 e]|] eqn:E; [|discriminate].
    destruct (asm_run next code_of s1 (map (fun t => mk_label t None false) ls)) as [[s2 es]|] eqn:E2; [|discriminate].
    injection X as <- <-. destruct e as [|e0 e]; [|discriminate]. cbn. eapply Hn; eauto. cbn in Ln. lia.
  Qed.

  Theorem asm_lock_free m ls s h : (forall a, LoopProofs.inr width a (m a)) ->
    asm_run next code_of (asm_init m) ls = Some (s, h) ->
    exists n, forall ts s' h', Forall (fun t => In t T) ts -> (n <= length ts)%nat ->
      asm_run next code_of s (map (fun t => mk_label t None false) ts) = Some (s', h') -> h' <> [].
  Proof.
    intros Hm H. assert (S : sim (asm_init m) (init m)).
    { split; [reflexivity|]. split; [exact Hm|]. intros u. split; [reflexivity|reflexivity]. }
    destruct (asm_sim_run next code_of impl_of width code_refines _ _ _ _ _ S H) as (l & [ls' R] & S').
    pose proof (init_Rel impl_of width abs m Hm) as R0.
    destruct (reach_inv ls' (init m) l _ h R0 (PI_init impl_of width m Hm) R) as [P [A RA]].
    destruct (ranks_exist s l S') as [r K]. apply acc_bound. eapply quiet_acc; eauto.
  Qed.
End Asm.
