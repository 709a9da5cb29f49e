(** * Checking all event sequences of a block (proofs for C31)

    A block has finitely many (position, abstract state, summary) triples; a closed set of them is
    computed, and checked to be one. *)
From Coq Require Import ZArith List Bool Lia.
From Verif Require Import Words Spec WideSpec LoopModel AsmModel BlockModel TraceSpec TraceModel TraceFacts.
Import ListNotations.

Definition sum_eqb (a b : sum) : bool :=
  lvl_eqb (lo a) (lo b) && lvl_eqb (hi a) (hi b) && Bool.eqb (relf a) (relf b) && Bool.eqb (wb a) (wb b) &&
  lvl_eqb (w a) (w b) && Bool.eqb (lf a) (lf b) && Bool.eqb (asc a) (asc b) && lvl_eqb (lr a) (lr b) && lvl_eqb (hr a) (hr b).
Lemma sum_eqb_eq a b : sum_eqb a b = true -> a = b.
Proof.
  destruct a, b. unfold sum_eqb. cbn. intros Q. repeat (apply andb_true_iff in Q; destruct Q as [Q ?]).
  repeat match goal with H : lvl_eqb _ _ = true |- _ => apply lvl_eqb_eq in H | H : Bool.eqb _ _ = true |- _ => apply eqb_prop in H end.
  congruence.
Qed.

Section Check.
  Context {I J M S Res X : Type}.
  Variable exec1 : I -> S -> S.
  Variable test : J -> S -> bool.
  Variable access : M -> S -> action S Res.
  Variable ann_i : I -> list ev.
  Variable ann_m : M -> bool -> list ev.
  Variable tso : bool.
  (** abstraction of the registers, its possible values after an instruction, and what it says about a branch *)
  Variable ab : S -> X.
  Variable xeqb : X -> X -> bool.
  Variable xall : list X.
  Variable xi : I -> X -> list X.
  Variable xj : J -> X -> option bool.
  Variable xm : M -> bool -> X -> list X.
  Hypothesis xeqb_eq : forall a b, xeqb a b = true -> a = b.
  Hypothesis xall_all : forall s, In (ab s) xall.
  Hypothesis xi_ok : forall i s, In (ab (exec1 i s)) (xi i (ab s)).
  Hypothesis xj_ok : forall j s b, xj j (ab s) = Some b -> test j s = b.
  Definition xm_sound : Prop := forall m s,
    match access m s with
    | ALocal s' => In (ab s') (xm m false (ab s))
    | ARead _ _ _ f | ALoadLinked _ _ _ _ f => forall v, In (ab (f v)) (xm m false (ab s))
    | AAtomic _ g f => forall sp x, In (ab (f (snd (g sp x)))) (xm m (match fst (g sp x) with Some _ => true | None => false end) (ab s))
    | AStoreCond _ _ f => forall ok, In (ab (f ok)) (xm m ok (ab s))
    | ADone _ => False
    | AStuck => True
    end.
  Hypothesis xm_ok : xm_sound.
  Local Notation binstr := (binstr I J M).
  Local Notation node := (nat * X * sum)%type.
  Definition succ (P : list binstr) (n : node) : list node :=
    let '(pc, x, s) := n in
    match nth_error P pc with
    | None => []
    | Some (BI i) => map (fun x' => (Datatypes.S pc, x', absorbs tso s (ann_i i))) (xi i x)
    | Some (BJ j n) =>
      let s' := absorbs tso s [Branch] in
      match xj j x with
      | Some true => [(n, x, s')]
      | Some false => [(Datatypes.S pc, x, s')]
      | None => [(n, x, s'); (Datatypes.S pc, x, s')]
      end
    | Some (BM m) =>
      map (fun x' => (Datatypes.S pc, x', absorbs tso s (ann_m m true))) (xm m true x) ++
      map (fun x' => (Datatypes.S pc, x', absorbs tso s (ann_m m false))) (xm m false x)
    end.
  Definition node_eqb (a b : node) : bool :=
    let '(p, x, s) := a in let '(p', x', s') := b in Nat.eqb p p' && xeqb x x' && sum_eqb s s'.
  Definition mem (n : node) (V : list node) : bool := existsb (node_eqb n) V.
  Lemma mem_In n V : mem n V = true -> In n V.
  Proof.
    unfold mem. intros Q. apply existsb_exists in Q. destruct Q as ([[p x] s] & Qi & Q). destruct n as [[p' x'] s'].
    cbn in Q. apply andb_true_iff in Q. destruct Q as [Q Q3]. apply andb_true_iff in Q. destruct Q as [Q1 Q2].
    apply Nat.eqb_eq in Q1. apply xeqb_eq in Q2. apply sum_eqb_eq in Q3. subst. exact Qi.
  Qed.
  Fixpoint explore (P : list binstr) (fuel : nat) (todo V : list node) : list node :=
    match fuel with
    | O => V
    | Datatypes.S k =>
      match todo with
      | [] => V
      | n :: todo' => if mem n V then explore P k todo' V else explore P k (succ P n ++ todo') (n :: V)
      end
    end.
  Definition start : list node := map (fun x => (0%nat, x, sum0)) xall.
  Definition visited (P : list binstr) : list node := explore P 2000 start [].
  Definition check (P : list binstr) (ok : X -> sum -> bool) : bool :=
    let V := visited P in
    forallb (fun n => mem n V) start &&
    forallb (fun n => forallb (fun n' => mem n' V) (succ P n)) V &&
    forallb (fun n => let '(pc, x, s) := n in match nth_error P pc with None => ok x s | Some _ => true end) V.

  Local Notation next := (bnext exec1 test access).
  Local Notation ann := (@block_ann I J M S Res ann_i ann_m).
  Lemma step_succ c c' es s : tstep next ann c es c' ->
    bprog c' = bprog c /\ bret c' = bret c /\
    In (bpos c', ab (bst c'), absorbs tso s es) (succ (bprog c) (bpos c, ab (bst c), s)).
  Proof.
    intros H. unfold succ.
    assert (Bi : forall i, nth_error (bprog c) (bpos c) = Some (BI i) ->
      next c = ALocal (bgoto c (1 + bpos c) (exec1 i (bst c)))) by (intros i E; unfold bnext; rewrite E; reflexivity).
    destruct (nth_error (bprog c) (bpos c)) as [[i|j n|m]|] eqn:E.
    - specialize (Bi _ eq_refl). inversion H; subst; try congruence.
      rewrite H0 in Bi. injection Bi as ->. cbn. repeat split. apply in_map_iff.
      exists (ab (exec1 i (bst c))). split; [|apply xi_ok]. unfold block_ann. rewrite E. reflexivity.
    - assert (Bj : next c = ALocal (if test j (bst c) then bgoto c n (bst c) else bgoto c (1 + bpos c) (bst c)))
        by (unfold bnext; rewrite E; reflexivity).
      inversion H; subst; try congruence. rewrite H0 in Bj. injection Bj as ->.
      unfold block_ann. rewrite E.
      destruct (xj j (ab (bst c))) as [b|] eqn:Xj.
      + apply xj_ok in Xj. rewrite Xj. destruct b; cbn; repeat split; left; reflexivity.
      + destruct (test j (bst c)); cbn; repeat split; [left|right; left]; reflexivity.
    - specialize (xm_ok m (bst c)).
      assert (K : forall b x', In (ab x') (xm m b (ab (bst c))) ->
        In (Datatypes.S (bpos c), ab x', absorbs tso s (ann_m m b))
         (map (fun x' => (Datatypes.S (bpos c), x', absorbs tso s (ann_m m true))) (xm m true (ab (bst c))) ++
          map (fun x' => (Datatypes.S (bpos c), x', absorbs tso s (ann_m m false))) (xm m false (ab (bst c))))).
      { intros b x' Q. apply in_or_app. destruct b; [left|right]; apply in_map_iff; exists (ab x'); auto. }
      assert (An : forall b, ann c b = ann_m m b) by (intros b; unfold block_ann; rewrite E; reflexivity).
      assert (Nx : next c = match access m (bst c) with
        | ALocal s => ALocal (bgoto c (1 + bpos c) s)
        | ARead a w p f => ARead a w p (fun v => bgoto c (1 + bpos c) (f v))
        | AAtomic a g f => AAtomic a g (fun v => bgoto c (1 + bpos c) (f v))
        | ALoadLinked b a w p f => ALoadLinked b a w p (fun v => bgoto c (1 + bpos c) (f v))
        | AStoreCond a v f => AStoreCond a v (fun b => bgoto c (1 + bpos c) (f b))
        | ADone r => ADone r
        | AStuck => AStuck end) by (unfold bnext; rewrite E; reflexivity).
      destruct (access m (bst c)) eqn:Am; inversion H; subst;
        match goal with H0 : next c = _ |- _ => rewrite Nx in H0; try discriminate H0; injection H0; clear H0; intros; subst end;
        rewrite An; cbn; (repeat split); apply K; auto.
    - assert (Nx : next c = ADone (bret c (bst c))) by (unfold bnext; rewrite E; reflexivity).
      exfalso. inversion H; subst; congruence.
  Qed.
  Lemma traces_in P V (Vs : forall x, In x xall -> In (0%nat, x, sum0) V)
      (Vc : forall n n', In n V -> In n' (succ P n) -> In n' V) c tr c' :
    bprog c = P -> bpos c = 0%nat -> traces next ann c tr c' ->
    bprog c' = P /\ bret c' = bret c /\ In (bpos c', ab (bst c'), summary tso tr) V.
  Proof.
    intros Hp H0 T. induction T as [|tr c1 es c2 T IH H].
    - repeat split; [exact Hp|]. rewrite H0. apply Vs, xall_all.
    - destruct IH as (I1 & I2 & I3). destruct (step_succ _ _ _ (summary tso tr) H) as (J1 & J2 & J3).
      rewrite I1 in *. split; [exact J1|]. split; [congruence|].
      unfold summary. rewrite absorbs_app. eapply Vc; [exact I3|exact J3].
  Qed.
  Theorem check_sound P ok : check P ok = true -> forall c tr r,
    bprog c = P -> bpos c = 0%nat -> completes next ann c tr r ->
    exists s, r = bret c s /\ ok (ab s) (summary tso tr) = true.
  Proof.
    unfold check. intros Q c tr r Hp H0 (c' & T & D).
    apply andb_true_iff in Q. destruct Q as [Q Q3]. apply andb_true_iff in Q. destruct Q as [Q1 Q2].
    rewrite forallb_forall in Q1, Q2, Q3.
    destruct (traces_in P (visited P)) with (c := c) (tr := tr) (c' := c') as (I1 & I2 & I3); auto.
    - intros x Hx. apply mem_In, Q1. unfold start. apply in_map_iff. exists x. auto.
    - intros n n' Hn Hn'. apply mem_In. specialize (Q2 _ Hn). rewrite forallb_forall in Q2. auto.
    - specialize (Q3 _ I3). cbn in Q3. unfold bnext in D. rewrite I1 in D.
      destruct (nth_error P (bpos c')) as [[i|j n|m]|] eqn:E; try discriminate.
      + specialize (xm_ok m (bst c')). destruct (access m (bst c')); try discriminate. contradiction.
      + injection D as <-. exists (bst c'). split; [congruence|exact Q3].
  Qed.
End Check.

Global Opaque explore visited check.

(** Requirements on a summary, by the ordering asked for.  How a backend orders a SeqCst write before a later
    SeqCst read: a fence before every read ([Lead]), after every write ([Trail]), or either, or RCsc accesses. *)
Inductive mode := Lead | Trail | Mixed.
Definition le1 (l : lvl) : bool := match l with L2 => false | _ => true end.
Definition mode_ok (m : mode) (s : sum) : bool :=
  match m with
  | Lead => lvl_eqb (lr s) L0 && lvl_eqb (hr s) L0
  | Trail => lvl_eqb (w s) L0
  | Mixed => le1 (w s) && le1 (lr s) && le1 (hr s)
  end.
Definition is_sc (ord : ordering) : bool := match ord with SeqCst => true | _ => false end.
Definition meets (m : mode) (ord : ordering) (s : sum) : bool :=
  implb (acquire_asked ord) (acq_ok s) && implb (release_asked ord) (rel_ok s) && implb (is_sc ord) (mode_ok m s).
Lemma mode_wr m s1 s2 : mode_ok m s1 = true -> mode_ok m s2 = true -> wr_ok s1 s2 = true.
Proof. unfold wr_ok. destruct m, s1 as [? ? ? ? [] ? ? [] []], s2 as [? ? ? ? [] ? ? [] []]; cbn; auto. Qed.
Theorem meets_provides tso m (does : wop -> list ev -> res -> Prop) :
  (forall o tr r, does o tr r -> meets m (asked o r) (summary tso tr) = true) -> provides tso does.
Proof.
  intros Q. unfold meets in Q.
  assert (Q' : forall o tr r, does o tr r -> (acquire_asked (asked o r) = true -> acq_ok (summary tso tr) = true) /\
    (release_asked (asked o r) = true -> rel_ok (summary tso tr) = true) /\
    (asked o r = SeqCst -> mode_ok m (summary tso tr) = true)).
  { intros o tr r D. specialize (Q _ _ _ D). apply andb_true_iff in Q. destruct Q as [Q Q3]. apply andb_true_iff in Q.
    destruct Q as [Q1 Q2]. repeat split; intros E; rewrite E in *; cbn in *; assumption. }
  repeat split.
  - intros o tr r D A. apply acq_sound. apply (Q' _ _ _ D). exact A.
  - intros o tr r D A. apply rel_sound. apply (Q' _ _ _ D). exact A.
  - intros o1 tr1 r1 o2 tr2 r2 D1 D2 A1 A2. apply sc_sound.
    + apply (Q' _ _ _ D1). rewrite A1. reflexivity.
    + apply (Q' _ _ _ D2). rewrite A2. reflexivity.
    + eapply mode_wr; [apply (Q' _ _ _ D1); exact A1|apply (Q' _ _ _ D2); exact A2].
Qed.
(** [meets] is monotone in the ordering. *)
Definition no_weaker (a b : ordering) : bool :=
  implb (acquire_asked b) (acquire_asked a) && implb (release_asked b) (release_asked a) && implb (is_sc b) (is_sc a).
Lemma meets_mono m a b s : no_weaker a b = true -> meets m a s = true -> meets m b s = true.
Proof.
  unfold meets, no_weaker. destruct a, b; cbn; intros N Q; try discriminate N; try reflexivity;
    repeat (apply andb_true_iff in Q; destruct Q as [Q ?]); repeat (apply andb_true_iff; split); auto.
Qed.
