(** Progress of the assembly-level programs: a thread inside a block that runs alone returns. *)
From Coq Require Import ZArith List Bool PeanoNat Lia.
From Verif Require Import Words Spec WordsFacts LoopModel LoopProofs LoopProgress AsmModel AsmProofs.
Import ListNotations.
Open Scope Z_scope.

Section Progress.
  Context {C Op Res : Type}.
  Variable next : C -> action C Res.
  Variable code_of : Z -> Op -> option C.
  Variable impl_of : Z -> Op -> option (impl Res).
  Variable width : Z -> Z.
  Variable abs : Z -> Z -> Z.
  Variable sem : Z -> Op -> Z -> Z * Res -> Prop.
  Hypothesis correct : forall a o i, impl_of a o = Some i -> impl_correct width abs sem a o i.
  Hypothesis full : forall a o i, impl_of a o = Some i -> reads_all width a i.
  Hypothesis code_refines : forall a o c, code_of a o = Some c ->
    exists i, impl_of a o = Some i /\ refines next width a o c i.

  Local Notation lstate := (state Op Res).
  Local Notation fin := (finishes impl_of).
  Local Notation sim := (Sim (Op := Op) next width).

  Definition aalone (t n : nat) : list (label Op) := repeat (mk_label t None false) n.
  Definition afinishes (s : asm_state C) (t : nat) : Prop :=
    exists j s' r, asm_run next code_of s (aalone t j) = Some (s', [Return t r]).

  (** Steps of [t] without spurious failures use up its solo run. *)
  Lemma fin_step (l l1 : lstate) t n x : fin l t n -> tid x = t -> spurious x = false ->
    step impl_of l x = Some (l1, []) -> exists m, n = S m /\ fin l1 t m.
  Proof.
    intros (k & s' & r & K & R) T P H. destruct k as [|k]; [discriminate R|].
    change (alone t (S k)) with (mk_label t (@None (Z * Op)) false :: alone t k) in R. cbn [run] in R.
    assert (E : step impl_of l (mk_label t None false) = Some (l1, [])).
    { unfold step in R |- *. cbn [tid call spurious] in *. unfold step in H. rewrite T in H.
      destruct (pcs l t) as [|a o i|a o i hist p acc|a o i hist g|y]; [discriminate R| | | |exact H];
        rewrite ?P in H; exact H. }
    rewrite E in R. destruct (run impl_of l1 (alone t k)) as [[s2 es]|] eqn:E2; [|discriminate].
    injection R as -> R. cbn in R. subst es. destruct n as [|m]; [lia|]. exists m. split; [reflexivity|].
    exists k, s', r. split; [lia|exact E2].
  Qed.
  Lemma fin_run ls : forall (l l1 : lstate) t n, fin l t n -> Forall (fun x => tid x = t /\ (spurious x = true -> false = true)) ls ->
    run impl_of l ls = Some (l1, []) -> exists m, (n = length ls + m)%nat /\ fin l1 t m.
  Proof.
    induction ls as [|x ls IH]; intros l l1 t n F A H; cbn in H.
    - injection H as <-. exists n. auto.
    - destruct (step impl_of l x) as [[l2 e]|] eqn:E; [|discriminate].
      destruct (run impl_of l2 ls) as [[l3 es]|] eqn:E2; [|discriminate]. injection H as -> H.
      apply app_eq_nil in H as [-> ->]. inversion A as [|x0 ls0 [T P] A']; subst x0 ls0.
      destruct (fin_step l l2 t n x F T) as (m & -> & F2); [destruct (spurious x); [now specialize (P eq_refl)|reflexivity]|exact E|].
      destruct (IH l2 l1 t m F2 A' E2) as (m' & -> & F3). exists m'. split; [reflexivity|exact F3].
  Qed.

  Lemma afin_step s s1 t : asm_step next code_of s (mk_label t None false) = Some (s1, []) -> afinishes s1 t -> afinishes s t.
  Proof. intros H (j & s' & r & R). exists (S j), s', r. cbn. rewrite H. unfold aalone in R. now rewrite R. Qed.

  Lemma step_exists s l t c sp : sim s l -> athr s t = Some c ->
    exists s' e, asm_step next code_of s (mk_label t None sp) = Some (s', e).
  Proof.
    intros (_ & _ & T) E. destruct (T t) as [_ T2]. rewrite E in T2. apply similar_settle in T2.
    unfold asm_step. cbn [tid spurious call]. rewrite E.
    assert (NS : next c <> AStuck).
    { inversion T2 as [c0 p0 A|c0 c' p0 q N L Q|c0 a k n kont p0 N K Q]; try congruence. unfold act in A. intros X. now rewrite X in A. }
    destruct (next c) as [c'|a k n kont|a f kont|fi a k n kont|a v kont|r|]; eauto; [| |congruence].
    - destruct (f sp (amem s a)) as [[y|] r]; eauto.
    - destruct (ahas_resv s t a && negb sp); eauto.
  Qed.

  Lemma solo t : forall n s l c, sim s l -> athr s t = Some c -> fin l t n -> afinishes s t.
  Proof.
    induction n as [n IH] using (well_founded_induction lt_wf). intros s l c S EA F.
    pose proof S as (_ & _ & T). destruct (T t) as [_ T2]. rewrite EA in T2. apply similar_settle in T2.
    remember (pcs l t) as p eqn:EP. revert s l S EA F EP T.
    induction T2 as [c p A|c c' p q N L Q IHQ|c a k n0 kont p N K Q IHQ]; intros s l S EA F EP T; subst p.
    - destruct (step_exists s l t c false S EA) as (s' & e & H).
      destruct (sim_act next code_of impl_of width s l (mk_label t None false) s' e c S EA A H) as (l' & (ls & R1 & R2 & R3) & S').
      cbn [tid spurious] in *. specialize (R3 eq_refl).
      destruct (next c) eqn:EN; try (unfold act in A; rewrite EN in A; contradiction).
      5:{ unfold asm_step in H. cbn [tid] in H. rewrite EA, EN in H. injection H as <- <-.
          exists 1%nat. eexists _, _. cbn. unfold asm_step. cbn [tid]. rewrite EA, EN. reflexivity. }
      all: assert (e = [] /\ exists c1, athr s' t = Some c1) as (-> & c1 & EA');
        [unfold asm_step in H; cbn [tid spurious] in H; rewrite EA, EN in H;
         repeat match type of H with context [match ?f false ?x with _ => _ end] => destruct (f false x) as [[?|] ?] end;
         repeat match type of H with context [if ?b then _ else _] => destruct b end;
         injection H as <- <-; (split; [reflexivity|]); eexists; cbn; apply setn_same|].
      all: destruct (fin_run ls l l' t n F R2 R1) as (m & Em & F');
        eapply afin_step; [exact H|]; eapply (IH m); [|exact S'|exact EA'|exact F'];
        destruct ls; [congruence|cbn in Em; lia].
    - destruct (step_exists s l t c false S EA) as (s' & e & H).
      destruct (sim_local next code_of impl_of width s l (mk_label t None false) s' e c c' q S EA N L (settle_is_similar _ _ _ _ Q) H)
        as (-> & EA' & l' & (ls & R1 & R2 & R3) & P' & S'). cbn [tid spurious] in *.
      destruct (fin_run ls l l' t n F R2 R1) as (m & Em & F').
      eapply afin_step; [exact H|]. eapply (IHQ s' l'); auto.
      + eapply finish_mono; [|exact F']. lia.
      + apply S'.
    - destruct (step_exists s l t c false S EA) as (s' & e & H).
      destruct (sim_read next code_of width s l (mk_label t None false) s' e c a k n0 kont S EA N K (fun v Hv => settle_is_similar _ _ _ _ (Q v Hv)) H)
        as (-> & S' & v & Hv & EA'). cbn [tid spurious] in *.
      eapply afin_step; [exact H|]. eapply (IHQ v Hv s' l); auto. apply S'.
  Qed.

  (** From every reachable state, a thread inside a block that gets to run alone, without spurious
      failures, returns after finitely many instructions. *)
  Theorem asm_solo_finishes m ls s h t c : (forall a, LoopProofs.inr width a (m a)) ->
    asm_run next code_of (asm_init m) ls = Some (s, h) -> athr s t = Some c ->
    exists j s' r, asm_run next code_of s (repeat (mk_label t None false) j) = Some (s', [Return t r]).
  Proof.
    intros Hm H E. assert (S : sim (asm_init m) (init m)).
    { split; [reflexivity|]. split; [exact Hm|]. intros u. split; [reflexivity|reflexivity]. }
    destruct (asm_sim_run next code_of impl_of width code_refines _ _ _ _ _ S H) as (l & [ls' R] & S').
    assert (NI : pcs l t <> Idle).
    { destruct S' as (_ & _ & T). destruct (T t) as [_ T2]. rewrite E in T2. apply similar_settle in T2.
      intros X. rewrite X in T2. clear - T2. remember (@Idle Op Res) as p eqn:EP. revert EP.
      induction T2 as [c p A|c c' p q N L Q IHQ|c a k n0 kont p N K Q IHQ]; intros ->.
      - assert (LI : forall q, locals (@Idle Op Res) q -> q = Idle) by (intros q L; inversion L; [reflexivity|contradiction]).
        unfold act in A. destruct (next c) as [c'|a k n kont|a f kont|fi a k n kont|a v kont|r|]; try contradiction.
        + destruct A as [(o & i & hist & m & acc & L & _)|(o & g & L & _)]; apply LI in L; discriminate.
        + destruct A as [(o & g & L & _)|(o & k & rs & rr & body & ok & err & hist & g & y & L & _)]; apply LI in L; discriminate.
        + destruct A as (o & i & hist & m & acc & L & _). apply LI in L; discriminate.
        + destruct A as (o & k & rs & body & ok & err & weak & hist & g & L & _). apply LI in L; discriminate.
        + apply LI in A. discriminate.
      - apply IHQ. inversion L; [reflexivity|contradiction].
      - apply (IHQ 0); [|reflexivity]. split; [lia|]. now apply pow2_pos. }
    destruct (solo_finishes impl_of width abs sem correct full m ls' l h t Hm R NI) as (k & l' & r & K & F).
    eapply solo; [exact S'|exact E|]. exists k, l', r. split; [apply Nat.le_refl|exact F].
  Qed.
End Progress.
