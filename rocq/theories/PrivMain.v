(** Consequences: refinement of the fallback's machine, restored interrupt state, progress with interrupt handlers; and the
    deadlock without the cfg. *)
From Coq Require Import ZArith Lia Bool List PeanoNat.
From Verif Require Import Words Spec WordsFacts LinFacts OrderingModel FallbackModel FallbackFacts FallbackProofs FallbackStruct
  FallbackProgress RiscvModel IntModel IntProofs PrivModel PrivProofs.
Import ListNotations.
Open Scope Z_scope.

(** ** Every run is a run of the fallback alone *)
Lemma plain_proj c s x cl s' e : plain_step c s x cl = Some (s', e) ->
  step c (inner s) (mk_label (thread x) cl) = Some (inner s', phistory e).
Proof.
  unfold plain_step, phistory. destruct (step c (inner s) _) as [[i ev]|]; [|discriminate]. intros [= <- <-]. cbn.
  rewrite map_map. cbn. now rewrite map_id.
Qed.
Lemma step_proj ar c pv s l s' e : pstep ar c pv s l = Some (s', e) ->
  (inner s' = inner s /\ e = []) \/ exists l', step c (inner s) l' = Some (inner s', phistory e).
Proof.
  unfold pstep. destruct (stacks s (core l)) as [|x below]; [discriminate|]. intros E.
  repeat match type of E with
  | plain_step _ _ _ _ = _ => right; eexists; exact (plain_proj _ _ _ _ _ _ E)
  | context [match ?d with _ => _ end] => destruct d; try discriminate E
  end; injection E as <- <-; auto.
Qed.
Lemma step_plain ar c pv s l s' e : pstep ar c pv s l = Some (s', e) ->
  (inner s' = inner s /\ e = []) \/ exists x below cl, stacks s (core l) = x :: below /\ plain_step c s x cl = Some (s', e).
Proof.
  unfold pstep. destruct (stacks s (core l)) as [|x below]; [discriminate|]. intros E.
  repeat match type of E with
  | plain_step _ _ _ _ = _ => right; eexists x, below, _; split; [reflexivity | exact E]
  | context [match ?d with _ => _ end] => destruct d; try discriminate E
  end; injection E as <- <-; auto.
Qed.
Lemma run_proj ar c pv ls : forall s s' h, prun ar c pv s ls = Some (s', h) ->
  exists ls', run c (inner s) ls' = Some (inner s', phistory h) /\ (length ls' <= length ls)%nat.
Proof.
  induction ls as [|l ls IH]; intros s s' h; cbn [prun].
  - intros [= <- <-]. exists []. auto.
  - destruct (pstep ar c pv s l) as [[s1 e]|] eqn:E; [|discriminate].
    destruct (prun ar c pv s1 ls) as [[s2 es]|] eqn:E2; [|discriminate]. intros [= <- <-].
    destruct (IH _ _ _ E2) as (ls' & R & L). unfold phistory in *. rewrite map_app.
    destruct (step_proj _ _ _ _ _ _ _ E) as [(Q & ->)|(l' & Q)].
    + exists ls'. rewrite <- Q. cbn. split; [exact R | lia].
    + exists (l' :: ls'). cbn [run]. rewrite Q, R. cbn. split; [reflexivity | lia].
Qed.

Section Main.
  Variables (ar : arch) (c : config) (n : nat) (m : Z -> Z) (s0 : nat -> Z).
  Lemma reach ls s h : prun ar c true (pinit n m s0) ls = Some (s, h) -> PInv ar c h s.
  Proof. intros R. exact (proj1 (PInv_run ar c ls [] _ _ _ (PInv_init ar c n m s0) R)). Qed.

  (** ** The interrupt state *)
  Lemma status_restored ls s h h1 t r after h2 :
    prun ar c true (pinit n m s0) ls = Some (s, h) -> h = h1 ++ (Return t r, after) :: h2 ->
    called ar h1 t after.
  Proof. intros R. exact (proj2 (PInv_run ar c ls [] _ _ _ (PInv_init ar c n m s0) R) h1 t r after h2). Qed.

  (** ** Who holds a lock runs, with interrupts disabled *)
  Lemma holder_place h s t j : PInv ar c h s -> holder (pcs (inner s) t) j ->
    exists k x below, stacks s k = x :: below /\ thread x = t /\ ph x = Guarded /\ deliverable ar (status (regs x)) = false.
  Proof.
    intros (I1 & I2 & I3 & I4 & I5 & I6) H.
    destruct (I4 t) as (k & i & x & P & T). { intros Q. now rewrite Q in H. }
    pose proof (I1 _ _ _ P) as X. unfold ctx_ok in X. rewrite T in X.
    assert (G : ph x = Guarded).
    { destruct (ph x); [destruct X as [X _]..| |]; try reflexivity; [| |destruct X as [X _]]; destruct (pcs (inner s) t); contradiction. }
    rewrite G in X. destruct X as (_ & s1 & _ & XG). destruct XG as [XD _]. destruct i as [|i].
    - unfold place in P. destruct (stacks s k) as [|y below] eqn:E; [discriminate|]. injection P as ->. exists k, x, below. auto.
    - destruct (I5 _ _ _ P G).
  Qed.
  (** likewise for who waits for a lock *)
  Lemma waiter_place h s t a o : PInv ar c h s -> pcs (inner s) t = Spin a o ->
    exists k x below, stacks s k = x :: below /\ thread x = t /\ ph x = Guarded /\ deliverable ar (status (regs x)) = false.
  Proof.
    intros (I1 & I2 & I3 & I4 & I5 & I6) H.
    destruct (I4 t) as (k & i & x & P & T). { intros Q. congruence. }
    pose proof (I1 _ _ _ P) as X. unfold ctx_ok in X. rewrite T, H in X.
    assert (G : ph x = Guarded).
    { destruct (ph x); [destruct X as [X _]..| |]; try reflexivity; [| |destruct X as [X _]]; contradiction. }
    rewrite G in X. destruct X as (_ & s1 & _ & XG). destruct XG as [XD _]. destruct i as [|i].
    - unfold place in P. destruct (stacks s k) as [|y below] eqn:E; [discriminate|]. injection P as ->. exists k, x, below. auto.
    - destruct (I5 _ _ _ P G).
  Qed.

  (** ** Progress *)
  Definition phase_rem (p : FallbackModel.pc) (q : phase) : nat :=
    match q with
    | Unguarded => match p with Idle | Fin _ => 0 | _ => 14 end
    | Disabling rest => 8 + length rest
    | Guarded => 7
    | Restoring rest => 1 + length rest
    end.
  Definition cost (i : state) (x : context) : nat := 1 + 20 * todo c (pcs i (thread x)) + phase_rem (pcs i (thread x)) (ph x).
  Definition core_cost (s : pstate) (k : nat) : nat := list_sum (map (cost (inner s)) (stacks s k)).
  Definition total (N : nat) (s : pstate) : nat := list_sum (map (core_cost s) (seq 0 N)).

  Lemma sum_lt (f g : nat -> nat) k l : In k l -> (f k < g k)%nat -> (forall k', k' <> k -> (f k' <= g k')%nat) ->
    (list_sum (map f l) < list_sum (map g l))%nat.
  Proof.
    intros I L OT. assert (LE : forall l', (list_sum (map f l') <= list_sum (map g l'))%nat).
    { induction l' as [|a l' IH]; [auto|]. cbn. destruct (Nat.eq_dec a k) as [Q|N]; [rewrite Q; unfold list_sum in IH; lia|]. specialize (OT a N). unfold list_sum in IH. lia. }
    induction l as [|a l IH]; [destruct I|]. cbn. pose proof (LE l) as LL. unfold list_sum in LL, IH. destruct I as [Q|I]; [rewrite Q; lia|].
    specialize (IH I). destruct (Nat.eq_dec a k) as [Q|N]; [rewrite Q; lia|]. specialize (OT a N). lia.
  Qed.

  (** a step on core [k] that replaces the running context, and at most its thread's program counter *)
  Lemma total_lt h N s s' k x below x' :
    PInv ar c h s -> stacks s k = x :: below -> (k < N)%nat ->
    stacks s' k = x' :: below -> (forall k', k' <> k -> stacks s' k' = stacks s k') -> thread x' = thread x ->
    (forall u, u <> thread x -> pcs (inner s') u = pcs (inner s) u) ->
    (cost (inner s') x' < cost (inner s) x)%nat -> (total N s' < total N s)%nat.
  Proof.
    intros (I1 & I2 & I3 & I4 & I5 & I6) E K E' OT T P L.
    assert (E0 : place s k 0 x) by (unfold place; now rewrite E).
    assert (C : forall k' i y, place s k' i y -> (k', i) <> (k, 0%nat) -> cost (inner s') y = cost (inner s) y).
    { intros k' i y Hy N'. unfold cost. rewrite P; [reflexivity|]. intros Q. destruct (I3 _ _ _ _ _ _ Hy E0 Q) as [-> ->]. auto. }
    apply sum_lt with k.
    - apply in_seq. lia.
    - unfold core_cost. rewrite E, E'. unfold list_sum. cbn [map fold_right].
      assert (Q : map (cost (inner s')) below = map (cost (inner s)) below).
      { apply map_ext_in. intros y Hy. apply In_nth_error in Hy as (i & Hy). apply (C k (S i)); [unfold place; now rewrite E | discriminate]. }
      rewrite Q. lia.
    - intros k' N'. unfold core_cost. rewrite OT by exact N'.
      assert (Q : map (cost (inner s')) (stacks s k') = map (cost (inner s)) (stacks s k')).
      { apply map_ext_in. intros y Hy. apply In_nth_error in Hy as (i & Hy). apply (C k' i); [exact Hy | congruence]. }
      rewrite Q. lia.
  Qed.

  Definition quiet (l : plabel) : Prop := act l = AStep None \/ act l = AReturn.

  (** the fallback's own step of an unblocked running context *)
  Lemma plain_progress h N s k x below :
    PInv ar c h s -> stacks s k = x :: below -> (k < N)%nat ->
    (ph x = Unguarded /\ ~ is_acq (pcs (inner s) (thread x)) \/ ph x = Guarded /\ ~ is_fin (pcs (inner s) (thread x))) ->
    pcs (inner s) (thread x) <> Idle ->
    (holder (pcs (inner s) (thread x)) (match pc_obj (pcs (inner s) (thread x)) with Some (a, _) => lock_index a | None => 0 end) \/
     (forall a o, pc_obj (pcs (inner s) (thread x)) = Some (a, o) -> forall u, u <> thread x -> ~ holder (pcs (inner s) u) (lock_index a))) ->
    exists s' e, pstep ar c true s (on k (AStep None)) = Some (s', e) /\ (total N s' < total N s)%nat /\
      (forall k', length (stacks s' k') = length (stacks s k')).
  Proof.
    intros I E K B NI NH. pose proof I as (_ & _ & _ & _ & _ & I6).
    destruct (unblocked_step c (inner s) (thread x) I6 NI NH) as (i' & ev & ST & TD & PO).
    assert (PS : exists e, plain_step c s x None = Some (mk_pstate i' (stacks s) (fresh s), e)).
    { unfold plain_step. unfold solo in ST. rewrite ST. eauto. }
    destruct PS as (e & PS). exists (mk_pstate i' (stacks s) (fresh s)), e.
    split; [|split; [|reflexivity]].
    - unfold pstep. cbn [core act]. rewrite E. destruct B as [[U B]|[U B]]; rewrite U.
      + destruct (pcs (inner s) (thread x)); try exact PS. destruct B. exact Logic.I.
      + destruct (pcs (inner s) (thread x)); try exact PS. destruct B. exact Logic.I.
    - eapply total_lt with (x' := x); [exact I|exact E|exact K|exact E| | | |]; auto. cbn [inner]. unfold cost.
      assert (R : (phase_rem (pcs i' (thread x)) (ph x) <= phase_rem (pcs (inner s) (thread x)) (ph x) + 14)%nat).
      { destruct B as [[-> _]|[-> _]]; cbn; [|lia]. destruct (pcs i' (thread x)); lia. }
      lia.
  Qed.

  Lemma top_progress h N s k x below p' (r' : sregs) :
    PInv ar c h s -> stacks s k = x :: below -> (k < N)%nat ->
    pstep ar c true s (on k (AStep None)) = Some (with_top s k (mk_context (thread x) r' p') below, []) ->
    (phase_rem (pcs (inner s) (thread x)) p' < phase_rem (pcs (inner s) (thread x)) (ph x))%nat ->
    exists s' e, pstep ar c true s (on k (AStep None)) = Some (s', e) /\ (total N s' < total N s)%nat.
  Proof.
    intros I E K P L. eexists _, _. split; [exact P|]. eapply total_lt; [exact I | exact E | exact K | | | | |].
    - cbn. now rewrite set_n_same.
    - intros k' N'. cbn. now rewrite set_n_other.
    - reflexivity.
    - reflexivity.
    - cbn [inner with_top]. unfold cost. cbn [thread ph]. lia.
  Qed.

  Lemma codes_short : (length (disable_code ar) <= 5)%nat /\ (length (restore_code ar) <= 5)%nat.
  Proof. destruct ar; cbn; lia. Qed.

  Definition finished (s : pstate) (k : nat) : Prop := stacks s k = [] \/ exists x, stacks s k = [x] /\ idle s x = true.

  Lemma progress_step h N s k :
    PInv ar c h s -> (forall k', (N <= k')%nat -> stacks s k' = []) -> ~ finished s k ->
    exists l s' e, quiet l /\ pstep ar c true s l = Some (s', e) /\ (total N s' < total N s)%nat.
  Proof.
    intros I Z NF. pose proof I as (I1 & I2 & I3 & I4 & I5 & I6).
    assert (KN : forall k' x below, stacks s k' = x :: below -> (k' < N)%nat).
    { intros k' x below E. destruct (Nat.lt_ge_cases k' N) as [L|L]; [exact L|]. rewrite Z in E by exact L. discriminate. }
    (* a holder can always go on *)
    assert (HO : forall t j, holder (pcs (inner s) t) j -> exists l s' e, quiet l /\ pstep ar c true s l = Some (s', e) /\ (total N s' < total N s)%nat).
    { intros t j H. destruct (holder_place h s t j I H) as (k' & y & below & E & T & G & _).
      destruct (plain_progress h N s k' y below I E (KN _ _ _ E)) as (s' & e & P & L & _).
      - right. split; [exact G|]. rewrite T. destruct (pcs (inner s) t); cbn in *; auto.
      - rewrite T. intros Q. now rewrite Q in H.
      - left. rewrite T. destruct (holder_pc_obj _ _ H) as (a & o & -> & ->). exact H.
      - exists (on k' (AStep None)), s', e. split; [now left | auto]. }
    destruct (stacks s k) as [|x below] eqn:E; [destruct NF; now left|].
    assert (E0 : place s k 0 x) by (unfold place; now rewrite E).
    pose proof (I1 _ _ _ E0) as X. unfold ctx_ok in X. pose proof (KN _ _ _ E) as K. destruct codes_short as [CD CR].
    (* a step of this context's code: if its lock is taken, let the holder go on *)
    assert (PL : (ph x = Unguarded /\ ~ is_acq (pcs (inner s) (thread x)) \/ ph x = Guarded /\ ~ is_fin (pcs (inner s) (thread x))) ->
                 pcs (inner s) (thread x) <> Idle ->
                 exists l s' e, quiet l /\ pstep ar c true s l = Some (s', e) /\ (total N s' < total N s)%nat).
    { intros B NI. destruct (pc_obj (pcs (inner s) (thread x))) as [[a o]|] eqn:Eo.
      - destruct (Z.eq_dec (lo (locks (inner s) (lock_index a))) LOCKED) as [Q|Q].
        + destruct I6 as (_ & _ & _ & I64 & _). destruct (I64 _ Q) as (t & H). exact (HO t _ H).
        + destruct (plain_progress h N s k x below I E K B NI) as (s' & e & P & L & _).
          * right. rewrite Eo. intros ? ? [= <- <-] u _ H. destruct I6 as (_ & I62 & _). exact (Q (I62 _ _ H)).
          * exists (on k (AStep None)), s', e. split; [now left | auto].
      - destruct (plain_progress h N s k x below I E K B NI) as (s' & e & P & L & _).
        + right. rewrite Eo. discriminate.
        + exists (on k (AStep None)), s', e. split; [now left | auto]. }
    assert (TP : forall p' r', pstep ar c true s (on k (AStep None)) = Some (with_top s k (mk_context (thread x) r' p') below, []) ->
                 (phase_rem (pcs (inner s) (thread x)) p' < phase_rem (pcs (inner s) (thread x)) (ph x))%nat ->
                 exists l s' e, quiet l /\ pstep ar c true s l = Some (s', e) /\ (total N s' < total N s)%nat).
    { intros p' r' P L. destruct (top_progress h N s k x below p' r' I E K P L) as (s' & e & P' & L').
      exists (on k (AStep None)), s', e. split; [now left | auto]. }
    destruct (ph x) as [|[|i rest]| |[|i rest]] eqn:Ph.
    - destruct (pcs (inner s) (thread x)) eqn:Ep; try (apply PL; [left; cbn; auto | discriminate]; fail).
      + (* idle: return from the handler *)
        destruct below as [|y below].
        { destruct NF. right. exists x. split; [exact E|]. unfold idle. now rewrite Ph, Ep. }
        assert (D : idle s x = true) by (unfold idle; now rewrite Ph, Ep).
        eexists (on k AReturn), _, _. split; [now right|]. split; [unfold pstep; cbn [core act]; rewrite E, D; reflexivity|].
        apply sum_lt with k; [apply in_seq; lia| |].
        * unfold core_cost. cbn [inner stacks]. rewrite set_n_same, E. unfold list_sum. cbn [map fold_right]. unfold cost. lia.
        * intros k' N'. unfold core_cost. cbn [inner stacks]. rewrite set_n_other by exact N'. lia.
      + eapply TP with (r' := regs x) (p' := Disabling (disable_code ar)).
        * unfold pstep. cbn [core act]. rewrite E, Ph, Ep. reflexivity.
        * cbn. lia.
    - eapply TP with (r' := regs x) (p' := Guarded).
      + unfold pstep. cbn [core act]. rewrite E, Ph. reflexivity.
      + cbn. lia.
    - eapply TP with (r' := sexec i (regs x)) (p' := Disabling rest).
      + unfold pstep. cbn [core act]. rewrite E, Ph. reflexivity.
      + cbn. lia.
    - destruct (pcs (inner s) (thread x)) eqn:Ep; try (apply PL; [right; cbn; auto | discriminate]; fail).
      + destruct X as [[] _].
      + eapply TP with (r' := regs x) (p' := Restoring (restore_code ar)).
        * unfold pstep. cbn [core act]. rewrite E, Ph, Ep. reflexivity.
        * cbn. lia.
    - destruct X as (XF & _). destruct (pcs (inner s) (thread x)) eqn:Ep; try contradiction.
      eapply TP with (r' := regs x) (p' := Unguarded).
      + unfold pstep. cbn [core act]. rewrite E, Ph. reflexivity.
      + cbn. lia.
    - eapply TP with (r' := sexec i (regs x)) (p' := Restoring rest).
      + unfold pstep. cbn [core act]. rewrite E, Ph. reflexivity.
      + cbn. lia.
  Qed.
End Main.

(** ** Which contexts exist *)
Lemma plain_stacks c s x cl s' e : plain_step c s x cl = Some (s', e) -> stacks s' = stacks s /\ fresh s' = fresh s.
Proof. unfold plain_step. destruct (step c (inner s) _) as [[i ev]|]; [|discriminate]. intros [= <- _]. auto. Qed.

Lemma pstep_stacks ar c pv s l s' e : pstep ar c pv s l = Some (s', e) ->
  ((forall k, map thread (stacks s' k) = map thread (stacks s k)) /\ fresh s' = fresh s) \/
  (exists x below v, stacks s (core l) = x :: below /\ inner s' = inner s /\ fresh s' = S (fresh s) /\
     stacks s' = set_n (stacks s) (core l) (mk_context (fresh s) (mk_sregs v 0 0) Unguarded :: x :: below)) \/
  (exists x y below, stacks s (core l) = x :: y :: below /\ inner s' = inner s /\ fresh s' = fresh s /\
     stacks s' = set_n (stacks s) (core l) (y :: below) /\ pcs (inner s) (thread x) = Idle).
Proof.
  unfold pstep. destruct (stacks s (core l)) as [|x below] eqn:E; [discriminate|]. intros H.
  assert (W : forall y k, thread y = thread x -> map thread (set_n (stacks s) (core l) (y :: below) k) = map thread (stacks s k)).
  { intros y k T. unfold set_n. destruct (Nat.eqb_spec k (core l)) as [->|_]; [|reflexivity]. rewrite E. cbn. now rewrite T. }
  repeat match type of H with
  | plain_step _ _ _ _ = _ => destruct (plain_stacks _ _ _ _ _ _ H) as [-> ->]; now left
  | idle _ _ = true => fail 1
  | context [match ?d with _ => _ end] => destruct d eqn:?; try discriminate H
  end; injection H as <- <-; try (left; split; [intros k; apply W; reflexivity | reflexivity]).
  - right. left. exists x, below, s0. auto.
  - right. right. match goal with D : idle _ _ = true |- _ => unfold idle in D; destruct (ph x), (pcs (inner s) (thread x)) eqn:?; try discriminate D end.
    eexists x, _, _. split; [reflexivity|]. auto.
Qed.

Lemma stacks_nil ar c pv s l s' e k : pstep ar c pv s l = Some (s', e) -> (stacks s' k = [] <-> stacks s k = []).
Proof.
  intros H. destruct (pstep_stacks _ _ _ _ _ _ _ H) as [(M & _)|[(x & below & v & E & _ & _ & ->)|(x & y & below & E & _ & _ & -> & _)]].
  - specialize (M k). destruct (stacks s' k), (stacks s k); cbn in M; try discriminate M; split; congruence.
  - unfold set_n. destruct (Nat.eqb_spec k (core l)) as [->|_]; [rewrite E; split; discriminate | reflexivity].
  - unfold set_n. destruct (Nat.eqb_spec k (core l)) as [->|_]; [rewrite E; split; discriminate | reflexivity].
Qed.
Lemma stacks_nil_run ar c pv ls : forall s s' h k, prun ar c pv s ls = Some (s', h) -> (stacks s' k = [] <-> stacks s k = []).
Proof.
  induction ls as [|l ls IH]; intros s s' h k; cbn [prun].
  - intros [= <- <-]. reflexivity.
  - destruct (pstep ar c pv s l) as [[s1 e]|] eqn:E; [|discriminate].
    destruct (prun ar c pv s1 ls) as [[s2 es]|] eqn:E2; [|discriminate]. intros [= <- <-].
    rewrite (IH _ _ _ k E2). exact (stacks_nil _ _ _ _ _ _ _ k E).
Qed.
Lemma init_nil n m s0 k : stacks (pinit n m s0) k = [] <-> (n <= k)%nat.
Proof. unfold pinit. cbn [stacks]. destruct (Nat.ltb_spec k n); split; try discriminate; auto; lia. Qed.

(** ** All pending calls can complete *)
Lemma prun_app ar c pv ls1 : forall s s1 h1 ls2 s2 h2,
  prun ar c pv s ls1 = Some (s1, h1) -> prun ar c pv s1 ls2 = Some (s2, h2) -> prun ar c pv s (ls1 ++ ls2) = Some (s2, h1 ++ h2).
Proof.
  induction ls1 as [|l ls1 IH]; intros s s1 h1 ls2 s2 h2; cbn [prun app].
  - intros [= <- <-]. auto.
  - destruct (pstep ar c pv s l) as [[s' e]|]; [|discriminate].
    destruct (prun ar c pv s' ls1) as [[s'' es]|] eqn:E; [|discriminate]. intros [= <- <-] H2.
    rewrite (IH _ _ _ _ _ _ E H2). now rewrite app_assoc.
Qed.

Lemma finished_dec s k : finished s k \/ ~ finished s k.
Proof.
  unfold finished. destruct (stacks s k) as [|x [|y b]].
  - left. now left.
  - destruct (idle s x) eqn:D; [left; right; eauto|]. right. intros [Q|(z & [= <-] & Q)]; congruence.
  - right. intros [Q|(z & Q & _)]; discriminate.
Qed.

Lemma can_complete ar c N b : forall h s, (total c N s <= b)%nat -> PInv ar c h s -> (forall k, (N <= k)%nat -> stacks s k = []) ->
  exists ls s' h', Forall quiet ls /\ prun ar c true s ls = Some (s', h') /\ (forall k, finished s' k).
Proof.
  induction b as [b IH] using lt_wf_ind. intros h s B I Zn.
  assert (D : (forall k, finished s k) \/ exists k, ~ finished s k).
  { assert (D : forall M, (forall k, (k < M)%nat -> finished s k) \/ exists k, ~ finished s k).
    { induction M as [|M [IHM|IHM]]; [left; lia| |now right]. destruct (finished_dec s M) as [F|F]; [|right; eauto].
      left. intros k L. destruct (Nat.eq_dec k M) as [->|Q]; [exact F | apply IHM; lia]. }
    destruct (D N) as [F|F]; [|now right]. left. intros k. destruct (Nat.lt_ge_cases k N) as [L|L]; [auto|]. left. auto. }
  destruct D as [D|(k & D)].
  { exists [], s, []. split; [constructor | split; [reflexivity | exact D]]. }
  destruct (progress_step ar c h N s k I Zn D) as (l & s1 & e & Q & P & L).
  destruct (IH (total c N s1)) with (h := h ++ e) (s := s1) as (ls & s' & h' & QS & R & F); [lia | lia | |  |].
  - exact (proj1 (PInv_step ar c h s l s1 e I P)).
  - intros k' K. apply (stacks_nil _ _ _ _ _ _ _ k' P). auto.
  - exists (l :: ls), s', (e ++ h'). split; [now constructor|]. split; [|exact F]. cbn [prun]. now rewrite P, R.
Qed.

(** ** One core: the lock is always free *)
Lemma no_spin_step ar c h s l s' e : PInv ar c h s -> (forall k, k <> 0%nat -> stacks s k = []) ->
  (forall t a o, pcs (inner s) t <> Spin a o) -> pstep ar c true s l = Some (s', e) ->
  forall t a o, pcs (inner s') t <> Spin a o.
Proof.
  intros I Zn NS H.
  assert (PL : forall x below cl, stacks s (core l) = x :: below -> plain_step c s x cl = Some (s', e) ->
            forall t a o, pcs (inner s') t <> Spin a o).
  { intros x below cl E P t a o Q. pose proof (plain_proj _ _ _ _ _ _ P) as ST.
    destruct (step_shape _ _ _ _ _ ST) as (p' & U & _). cbn [tid] in U. rewrite U in Q. unfold set_n in Q.
    destruct (Nat.eqb_spec t (thread x)) as [->|N]; [|exact (NS _ _ _ Q)]. subst p'.
    (* the step from Acq to Spin: somebody holds the lock *)
    assert (LK : exists a' o', pcs (inner s) (thread x) = Acq a' o' /\ lo (locks (inner s) (lock_index a')) = LOCKED).
    { specialize (U (thread x)). unfold set_n in U. rewrite Nat.eqb_refl in U. revert ST U. unfold step. cbn [tid call].
      destruct (pcs (inner s) (thread x)) eqn:Ep; intros ST U;
        repeat match type of ST with
        | context [match ?d with _ => _ end] => destruct d eqn:?; try discriminate ST
        end; apply (f_equal (fun z => match z with Some (i, _) => pcs i (thread x) | None => Idle end)) in ST; cbn in ST;
        rewrite U in ST; unfold set_n in ST; try rewrite Nat.eqb_refl in ST; try discriminate ST; try congruence.
      - eexists _, _. split; [reflexivity|]. now apply Z.eqb_eq.
      - exfalso. exact (NS _ _ _ Ep). }
    destruct LK as (a' & o' & Ep & LK). destruct (proj2 (proj2 (proj2 (proj2 (proj2 I))))) as (_ & _ & _ & I64 & _).
    destruct (I64 _ LK) as (u & Hu). destruct (holder_place ar c h s u _ I Hu) as (k' & y & below' & E' & T & _).
    assert (K : forall k2 z b, stacks s k2 = z :: b -> k2 = 0%nat).
    { intros k2 z b Q. destruct (Nat.eq_dec k2 0) as [->|N2]; [reflexivity|]. rewrite Zn in Q by exact N2. discriminate. }
    rewrite (K _ _ _ E') in E'. rewrite (K _ _ _ E) in E. rewrite E in E'. injection E' as -> _. rewrite <- T, Ep in Hu. exact Hu. }
  unfold pstep in H. destruct (stacks s (core l)) as [|x below] eqn:E; [discriminate|].
  repeat match type of H with
  | plain_step _ _ _ _ = _ => exact (PL _ _ _ eq_refl H)
  | context [match ?d with _ => _ end] => destruct d; try discriminate H
  end; injection H as <- _; exact NS.
Qed.
Lemma no_spin ar c m s0 ls s h : prun ar c true (pinit 1 m s0) ls = Some (s, h) -> forall t a o, pcs (inner s) t <> Spin a o.
Proof.
  assert (G : forall ls h0 s1 s h, PInv ar c h0 s1 -> (forall k, k <> 0%nat -> stacks s1 k = []) ->
            (forall t a o, pcs (inner s1) t <> Spin a o) -> prun ar c true s1 ls = Some (s, h) -> forall t a o, pcs (inner s) t <> Spin a o).
  { clear. induction ls as [|l ls IH]; intros h0 s1 s h I Zn NS; cbn [prun].
    - intros [= <- _]. exact NS.
    - destruct (pstep ar c true s1 l) as [[s2 e]|] eqn:E; [|discriminate].
      destruct (prun ar c true s2 ls) as [[s3 es]|] eqn:E2; [|discriminate]. intros [= <- _].
      eapply IH; [exact (proj1 (PInv_step ar c h0 s1 l s2 e I E)) | | exact (no_spin_step _ _ _ _ _ _ _ I Zn NS E) | exact E2].
      intros k K. apply (stacks_nil _ _ _ _ _ _ _ k E). auto. }
  eapply G; [apply PInv_init| |discriminate].
  intros k K. apply init_nil. lia.
Qed.

(** ** The deadlock without the cfg *)
Definition distinct (s : pstate) : Prop :=
  (forall k t, In t (map thread (stacks s k)) -> (t < fresh s)%nat) /\
  (forall k k' i i' t, nth_error (map thread (stacks s k)) i = Some t -> nth_error (map thread (stacks s k')) i' = Some t -> k = k' /\ i = i').

Lemma distinct_step ar c pv s l s' e : pstep ar c pv s l = Some (s', e) -> distinct s -> distinct s'.
Proof.
  intros H [D1 D2]. destruct (pstep_stacks _ _ _ _ _ _ _ H) as [(M & F)|[(x & below & v & E & _ & F & Q)|(x & y & below & E & _ & F & Q & _)]].
  - split; [intros k t; rewrite M, F; apply D1 | intros k k' i i' t; rewrite !M; apply D2].
  - assert (P : forall k i t, nth_error (map thread (stacks s' k)) i = Some t ->
              (k = core l /\ i = O /\ t = fresh s) \/ ((t < fresh s)%nat /\ exists i0, nth_error (map thread (stacks s k)) i0 = Some t /\
                 i = if Nat.eqb k (core l) then S i0 else i0)).
    { intros k i t. rewrite Q. unfold set_n. destruct (Nat.eqb_spec k (core l)) as [->|N].
      - destruct i as [|i]; cbn [map nth_error]; [intros [= <-]; auto|]. intros G. right. rewrite E.
        split; [|now exists i]. apply (D1 (core l)). rewrite E. exact (nth_error_In _ _ G).
      - intros G. right. split; [exact (D1 _ _ (nth_error_In _ _ G)) | now exists i]. }
    split.
    + intros k t Hi. apply In_nth_error in Hi as (i & Hi). apply P in Hi as [(_ & _ & ->)|(L & _)]; lia.
    + intros k k' i i' t G G'. apply P in G, G'. destruct G as [(-> & -> & ->)|(L & i0 & G & ->)], G' as [(-> & -> & Q')|(L' & i0' & G' & ->)]; try lia; auto.
      destruct (D2 _ _ _ _ _ G G') as [-> ->]. auto.
  - assert (P : forall k i t, nth_error (map thread (stacks s' k)) i = Some t ->
              exists i0, nth_error (map thread (stacks s k)) i0 = Some t /\ i0 = if Nat.eqb k (core l) then S i else i).
    { intros k i t. rewrite Q. unfold set_n. destruct (Nat.eqb_spec k (core l)) as [->|N]; [rewrite E; intros G; exists (S i); split; [exact G | reflexivity] | intros G; exists i; auto]. }
    split.
    + intros k t Hi. apply In_nth_error in Hi as (i & Hi). apply P in Hi as (i0 & Hi & _). rewrite F. exact (D1 _ _ (nth_error_In _ _ Hi)).
    + intros k k' i i' t G G'. apply P in G, G'. destruct G as (i0 & G & Q0), G' as (i0' & G' & Q0').
      destruct (D2 _ _ _ _ _ G G') as [<- <-]. split; [reflexivity|]. destruct (Nat.eqb k (core l)); congruence.
Qed.

(** thread [t2] waits, above [t1] on core 0, for the lock that [t1] holds *)
Definition dead (c : config) (t1 t2 : nat) (a : Z) (s : pstate) : Prop :=
  distinct s /\ SInv c (inner s) /\ holder (pcs (inner s) t1) (lock_index a) /\ (exists o, pcs (inner s) t2 = Spin a o) /\
  exists pre, map thread (stacks s 0%nat) = pre ++ [t2; t1].

Lemma dead_step ar c pv t1 t2 a s l s' e : dead c t1 t2 a s -> pstep ar c pv s l = Some (s', e) ->
  dead c t1 t2 a s' /\ forall r v, ~ In (Return t1 r, v) e /\ ~ In (Return t2 r, v) e.
Proof.
  intros (D & SI & HO & (o & SP) & pre & ST) H.
  pose proof (distinct_step _ _ _ _ _ _ _ H D) as D'.
  (* the running contexts are neither [t1] nor, unless it is the handler itself, [t2] *)
  assert (TOP : forall x below, stacks s (core l) = x :: below -> thread x <> t1).
  { intros x below E Q. destruct D as [_ D2].
    destruct (D2 (core l) 0%nat 0%nat (S (length pre)) t1) as [K I].
    - rewrite E. cbn. now rewrite Q.
    - rewrite ST, nth_error_app2 by lia. now replace (S (length pre) - length pre)%nat with 1%nat by lia.
    - discriminate I. }
  assert (PL : forall x below cl, stacks s (core l) = x :: below -> plain_step c s x cl = Some (s', e) ->
            dead c t1 t2 a s' /\ forall r v, ~ In (Return t1 r, v) e /\ ~ In (Return t2 r, v) e).
  { intros x below cl E P. pose proof (TOP _ _ E) as N1. pose proof (plain_proj _ _ _ _ _ _ P) as PS.
    destruct (plain_stacks _ _ _ _ _ _ P) as [QS QF].
    destruct (step_shape _ _ _ _ _ PS) as (p' & U & SH). cbn [tid] in *.
    assert (H1 : pcs (inner s') t1 = pcs (inner s) t1) by (rewrite U; apply set_n_other; congruence).
    assert (SI' : SInv c (inner s')) by exact (SInv_step _ _ _ _ _ SI PS).
    assert (H2 : pcs (inner s') t2 = pcs (inner s) t2 /\ (thread x = t2 -> e = [])).
    { destruct (Nat.eq_dec (thread x) t2) as [Q|Q].
      - subst t2. assert (LK : lo (locks (inner s) (lock_index a)) = LOCKED) by (destruct SI as (_ & S2 & _); exact (S2 _ _ HO)).
        revert P. unfold plain_step, step. cbn [tid]. rewrite SP, LK. change (LOCKED =? LOCKED) with true. cbn iota. intros [= <- <-]. auto.
      - split; [rewrite U; apply set_n_other; congruence | contradiction]. }
    destruct H2 as [H2 HE]. split.
    - split; [exact D'|]. split; [exact SI'|]. rewrite H1, H2, QS. eauto.
    - (* events belong to the running thread *)
      assert (EV : forall t r v, In (Return t r, v) e -> t = thread x).
      { intros t r v Hi. assert (Hi' : In (Return t r) (phistory e)) by exact (in_map fst _ _ Hi).
        destruct (pcs (inner s) (thread x)).
        2-14: destruct SH as (Q & _); rewrite Q in Hi'; destruct Hi'.
        - destruct SH as (? & ? & _ & _ & Q). rewrite Q in Hi'. destruct Hi' as [Hi'|[]]. discriminate.
        - destruct SH as (_ & Q). rewrite Q in Hi'. destruct Hi' as [Hi'|[]]. congruence. }
      intros r v. split; intros Hi; pose proof (EV _ _ _ Hi) as Q; [congruence|]. rewrite HE in Hi by auto. destruct Hi. }
  assert (NP : forall A, inner s' = inner s -> e = [] -> (exists pre', map thread (stacks s' 0%nat) = pre' ++ [t2; t1]) -> A ->
            dead c t1 t2 a s' /\ forall r v, ~ In (Return t1 r, v) e /\ ~ In (Return t2 r, v) e).
  { intros A QI -> P _. split; [|intros r v; split; intros []]. split; [exact D'|]. rewrite QI. eauto. }
  destruct (step_plain _ _ _ _ _ _ _ H) as [(QI & QE)|(x & below & cl & E & P)].
  - apply (NP True); [exact QI | exact QE | | exact Logic.I].
    destruct (pstep_stacks _ _ _ _ _ _ _ H) as [(M & _)|[(x & below & v & E & _ & _ & Q)|(x & y & below & E & _ & _ & Q & ID)]].
    + rewrite M. eauto.
    + rewrite Q. unfold set_n. destruct (Nat.eqb_spec 0 (core l)) as [K|_]; [|eauto].
      rewrite K, E in ST. exists (fresh s :: pre). cbn [map thread app]. cbn [map] in ST. now rewrite ST.
    + rewrite Q. unfold set_n. destruct (Nat.eqb_spec 0 (core l)) as [K|_]; [|eauto].
      rewrite K, E in ST. destruct pre as [|p pre]; cbn [map app] in ST; injection ST as T1 T2; [|eauto].
      rewrite T1, SP in ID. discriminate.
  - exact (PL _ _ _ E P).
Qed.
Lemma dead_run ar c pv t1 t2 a ls : forall s s' h, dead c t1 t2 a s -> prun ar c pv s ls = Some (s', h) ->
  dead c t1 t2 a s' /\ forall r v, ~ In (Return t1 r, v) h /\ ~ In (Return t2 r, v) h.
Proof.
  induction ls as [|l ls IH]; intros s s' h D; cbn [prun].
  - intros [= <- <-]. split; [exact D|]. intros r v. split; intros [].
  - destruct (pstep ar c pv s l) as [[s1 e]|] eqn:E; [|discriminate].
    destruct (prun ar c pv s1 ls) as [[s2 es]|] eqn:E2; [|discriminate]. intros [= <- <-].
    destruct (dead_step _ _ _ _ _ _ _ _ _ _ D E) as [D1 N1]. destruct (IH _ _ _ D1 E2) as [D2 N2].
    split; [exact D2|]. intros r v. destruct (N1 r v), (N2 r v). split; rewrite in_app_iff; tauto.
Qed.

Lemma distinct_init n m s0 : distinct (pinit n m s0).
Proof.
  assert (P : forall k i t, nth_error (map thread (stacks (pinit n m s0) k)) i = Some t -> (k < n)%nat /\ i = O /\ t = k).
  { intros k i t. unfold pinit. cbn [stacks]. destruct (Nat.ltb_spec k n); [|now destruct i].
    destruct i as [|[|i]]; cbn; try discriminate. intros [= <-]. auto. }
  split.
  - intros k t Hi. apply In_nth_error in Hi as (i & Hi). apply P in Hi as (L & _ & ->). exact L.
  - intros k k' i i' t G G'. apply P in G as (_ & -> & ->). apply P in G' as (_ & -> & ->). auto.
Qed.
Lemma SInv_prun ar c pv ls : forall s s' h, SInv c (inner s) -> prun ar c pv s ls = Some (s', h) -> SInv c (inner s').
Proof.
  induction ls as [|l ls IH]; intros s s' h D; cbn [prun].
  - now intros [= <- <-].
  - destruct (pstep ar c pv s l) as [[s1 e]|] eqn:E; [|discriminate].
    destruct (prun ar c pv s1 ls) as [[s2 es]|] eqn:E2; [|discriminate]. intros [= <- <-].
    eapply IH; [|exact E2]. destruct (step_proj _ _ _ _ _ _ _ E) as [(-> & _)|(l' & Q)]; [exact D | exact (SInv_step _ _ _ _ _ D Q)].
Qed.
Lemma distinct_prun ar c pv ls : forall s s' h, distinct s -> prun ar c pv s ls = Some (s', h) -> distinct s'.
Proof.
  induction ls as [|l ls IH]; intros s s' h D; cbn [prun].
  - now intros [= <- <-].
  - destruct (pstep ar c pv s l) as [[s1 e]|] eqn:E; [|discriminate].
    destruct (prun ar c pv s1 ls) as [[s2 es]|] eqn:E2; [|discriminate]. intros [= <- <-].
    eapply IH; [|exact E2]. exact (distinct_step _ _ _ _ _ _ _ E D).
Qed.
Lemma deadlock_reach ar c n m s0 a ty v : objs c a = Some ty -> deliverable ar (s0 0%nat) = true ->
  exists ls s, prun ar c false (pinit (S n) m s0) ls =
      Some (s, [(Call 0 a (ORmw Not SeqCst), s0 0%nat); (Call (S n) a (ORmw Not SeqCst), v)]) /\ dead c 0 (S n) a s.
Proof.
  intros Ho De. set (o := ORmw Not SeqCst).
  set (ls := [on 0 (AStep (Some (a, o))); on 0 (AStep None); on 0 (AStep None); on 0 (AInterrupt v); on 0 (AStep (Some (a, o)));
              on 0 (AStep None); on 0 (AStep None)]).
  assert (R : exists s, prun ar c false (pinit (S n) m s0) ls = Some (s, [(Call 0 a o, s0 0%nat); (Call (S n) a o, v)]) /\
            holder (pcs (inner s) 0%nat) (lock_index a) /\ pcs (inner s) (S n) = Spin a o /\ map thread (stacks s 0%nat) = [] ++ [S n; 0%nat]).
  { subst ls. eexists. unfold prun, pstep, pinit, plain_step, step.
    cbn [core act stacks Nat.ltb Nat.leb ph thread inner init pcs tid call regs status].
    repeat (first [rewrite Ho | rewrite De | progress cbn [core act stacks Nat.ltb Nat.leb ph thread inner init pcs tid call regs status op_typedb rmw_typedb order_ok go set_n Nat.eqb locks set_z lo hi with_top o app map mem writes fresh in_phase] | rewrite set_n_same | rewrite set_n_other by lia | rewrite Nat.eqb_refl | rewrite Z.eqb_refl | progress change (LOCKED =? LOCKED) with true | progress unfold set_z | progress change (0 =? LOCKED) with false]).
    split; [reflexivity|]. cbn [inner pcs go stacks]. repeat (first [rewrite set_n_same | rewrite set_n_other by lia]). split; [reflexivity|]. split; reflexivity. }
  destruct R as (s & R & HO & SP & ST). exists ls, s. split; [exact R|].
  split; [exact (distinct_prun _ _ _ _ _ _ _ (distinct_init _ _ _) R)|].
  split; [exact (SInv_prun ar c false ls (pinit (S n) m s0) _ _ (SInv_init c m) R)|]. split; [exact HO|]. split; [eauto | eauto].
Qed.
