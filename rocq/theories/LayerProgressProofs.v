(** Proofs about system-wide progress of the public operations: see LayerProgressSpec. *)
From Coq Require Import ZArith List Bool Lia PeanoNat.
From Verif Require Import Words Spec WordsFacts LinFacts FrontSpec FloatSpec ByteSpec OrderSpec OrderingModel FrontModel FrontMain LayerSpec LayerModel LayerProofs PublicProofs RetrySpec LayerProgressSpec RetryProofs RetryMain.
From Verif Require ProgressProofs.
Import ListNotations.
Open Scope Z_scope.

Section Log.
  Context {HOp HRes Op Res : Type}.
  Variable code_of : Z -> HOp -> option (code HRes Op Res).
  Local Notation run := (layer_run code_of).
  Local Notation log := (llog (HOp := HOp) (Op := Op) (Res := Res)).
  Local Notation trace := (list (levent HOp HRes Op Res)).
  Lemma log_run ls : forall s lg s' tr, (forall u, log_rel (s u) (lg u)) -> run s ls = Some (s', tr) -> forall u, log_rel (s' u) (fold_left llog_step tr lg u).
  Proof.
    induction ls as [|l ls IH]; intros s lg s' tr H R; cbn [layer_run] in R; [injection R as <- <-; exact H|].
    destruct (layer_step code_of s l) as [[s1 e]|] eqn:E; [|discriminate R]. destruct (run s1 ls) as [[s2 tr1]|] eqn:R1; [|discriminate R].
    injection R as <- <-. cbn [fold_left]. refine (IH s1 _ s2 tr1 _ R1). intros u.
    destruct l as [t a o|t|t r]; cbn [layer_step] in E; pose proof (H t) as Ht; destruct (s t) as [|a' c|a' k] eqn:Es; try discriminate E.
    - destruct (code_of a o) as [c|]; [|discriminate E]. injection E as <- <-. unfold lset, llog_step. destruct (Nat.eqb_spec u t); [cbn; eauto|apply H].
    - destruct c as [r|i k]; injection E as <- <-; unfold lset, llog_step.
      + destruct (Nat.eqb_spec u t); [reflexivity|apply H].
      + destruct Ht as (o & cs & ->). destruct (Nat.eqb_spec u t); [cbn; eauto|apply H].
    - injection E as <- <-. unfold lset, llog_step. destruct Ht as (o & cs & i & ->). destruct (Nat.eqb_spec u t); [cbn; eauto|apply H].
  Qed.
  Lemma inner_keeps (lg : log) e u : (forall x, e <> Outer x) -> (@llog_step HOp HRes Op Res lg e u = None <-> lg u = None).
  Proof.
    intros N. destruct e as [e|[t a o|t r]]; [now elim (N e)| |]; cbn [llog_step].
    - destruct (lg t) as [b|] eqn:L; [|reflexivity]. destruct (Nat.eqb_spec u t) as [->|]; [rewrite L; split; discriminate|reflexivity].
    - destruct (lg t) as [[ba bo bc [o|]]|] eqn:L; [|reflexivity|reflexivity]. destruct (Nat.eqb_spec u t) as [->|]; [rewrite L; split; discriminate|reflexivity].
  Qed.
  Lemma stays (tr : trace) : forall lg u, (forall v r, ~ In (Outer (Return v r)) tr) -> lg u <> None -> fold_left llog_step tr lg u <> None.
  Proof.
    induction tr as [|e tr IH]; intros lg u NR H; [exact H|]. cbn [fold_left]. apply IH; [intros v r X; apply (NR v r); now right|].
    destruct e as [[t a o|t r]|e].
    - cbn [llog_step]. destruct (u =? t)%nat; congruence.
    - exfalso. apply (NR t r). now left.
    - rewrite inner_keeps by discriminate. exact H.
  Qed.
  Lemma finite (tr : trace) : forall lg l, (forall u, lg u <> None -> In u l) -> exists l', forall u, fold_left llog_step tr lg u <> None -> In u l'.
  Proof.
    induction tr as [|e tr IH]; intros lg l H; [exists l; exact H|]. cbn [fold_left]. destruct e as [[t a o|t r]|e].
    - apply (IH _ (t :: l)). intros u. cbn [llog_step]. destruct (Nat.eqb_spec u t) as [->|]; [now left|]. intros X. right. now apply H.
    - apply (IH _ l). intros u. cbn [llog_step]. destruct (Nat.eqb_spec u t) as [->|]; [congruence|apply H].
    - apply (IH _ l). intros u. rewrite inner_keeps by discriminate. apply H.
  Qed.
  Lemma find_call u (tr : trace) : fold_left llog_step tr (fun _ => None) u <> None -> exists x a o y, tr = x ++ Outer (Call u a o) :: y /\ forall r, ~ In (Outer (Return u r)) y.
  Proof.
    induction tr as [|e tr IH] using rev_ind; [intros H; now elim H|]. rewrite fold_left_app. cbn [fold_left]. intros H.
    assert (Go : fold_left llog_step tr (fun _ => None) u <> None -> (forall r, e <> Outer (Return u r)) -> exists x a o y, tr ++ [e] = x ++ Outer (Call u a o) :: y /\ forall r, ~ In (Outer (Return u r)) y).
    { intros H' Ne. destruct (IH H') as (x & a & o & y & -> & Ny). exists x, a, o, (y ++ [e]). split; [now rewrite <- app_assoc|]. intros r X. apply in_app_iff in X as [X|[X|[]]]; [now apply (Ny r)|now apply (Ne r)]. }
    destruct e as [[t a o|t r]|e].
    - cbn [llog_step] in H. destruct (Nat.eqb_spec u t) as [->|N]; [|apply Go; [exact H|discriminate]]. exists tr, a, o, []. auto.
    - cbn [llog_step] in H. destruct (Nat.eqb_spec u t) as [->|N]; [now elim H|]. apply Go; [exact H|]. intros r' X. congruence.
    - apply Go; [|discriminate]. intros X. apply H. now rewrite inner_keeps by discriminate.
  Qed.

  Variables (T : nat) (A : Z) (reads : HOp -> bool).
  Definition isbusy (lg : log) (u : nat) : bool := negb (Nat.eqb u T) && match lg u with Some _ => true | None => false end.
  Definition isidle (lg : log) (u : nat) : bool := negb (Nat.eqb u T) && match lg u with Some _ => false | None => true end.
  Lemma isidle_eq (lg lg' : log) : (forall u, u <> T -> (lg' u = None <-> lg u = None)) -> forall u, isidle lg' u = isidle lg u.
  Proof.
    intros H u. unfold isidle. destruct (Nat.eqb_spec u T) as [->|N]; [reflexivity|]. specialize (H u N). cbn [negb andb].
    destruct (lg' u), (lg u); try reflexivity; destruct H as [H1 H2]; [discriminate (H2 eq_refl)|discriminate (H1 eq_refl)].
  Qed.
  Lemma starts ls : forall s lg s' tr ids, (forall u, log_rel (s u) (lg u)) -> run s ls = Some (s', tr) -> (forall v r, ~ In (Outer (Return v r)) tr) ->
    (forall u, fold_left llog_step tr lg u <> None -> In u ids) -> (rivals reads A T tr <= length (filter (isidle lg) ids))%nat.
  Proof.
    induction ls as [|l ls IH]; intros s lg s' tr ids H R NR C; cbn [layer_run] in R; [injection R as <- <-; cbn; lia|].
    destruct (layer_step code_of s l) as [[s1 e]|] eqn:E; [|discriminate R]. destruct (run s1 ls) as [[s2 tr1]|] eqn:R1; [|discriminate R].
    injection R as <- <-. cbn [fold_left] in C.
    assert (H1 : forall u, log_rel (s1 u) (llog_step lg e u)).
    { apply (log_run [l] s lg s1 [e] H). cbn [layer_run]. now rewrite E. }
    assert (NR1 : forall v r, ~ In (Outer (Return v r)) tr1) by (intros v r X; apply (NR v r); now right).
    pose proof (IH _ _ _ _ _ H1 R1 NR1 C) as Le.
    destruct e as [[t a o|t r]|e]; [|exfalso; apply (NR t r); now left|].
    - assert (Id : lg t = None).
      { destruct l as [t' a' o'|t'|t' r']; cbn [layer_step] in E; pose proof (H t') as Ht; destruct (s t') as [|a1 c|a1 k] eqn:Es; try discriminate E.
        - destruct (code_of a' o'); [|discriminate E]. injection E as _ <- _ _. exact Ht.
        - destruct c; discriminate E. }
      cbn [rivals]. destruct (Nat.eqb_spec t T) as [->|N]; cbn [negb andb].
      + rewrite (filter_ext _ (isidle lg)) in Le; [exact Le|]. apply isidle_eq. intros u N. cbn [llog_step]. destruct (Nat.eqb_spec u T); [contradiction|reflexivity].
      + assert (It : In t ids) by (apply C, stays; [exact NR1|]; cbn [llog_step]; rewrite Nat.eqb_refl; discriminate).
        assert (length (filter (isidle (@llog_step HOp HRes Op Res lg (Outer (Call t a o)))) ids) + 1 <= length (filter (isidle lg) ids))%nat.
        { apply (ProgressProofs.fewer _ _ _ t It); unfold isidle; cbn [llog_step].
          - destruct (Nat.eqb_spec t T); [contradiction|]. now rewrite Id.
          - rewrite Nat.eqb_refl. apply andb_false_r.
          - intros k. destruct (Nat.eqb_spec k t) as [->|]; [rewrite andb_false_r; discriminate|auto]. }
        destruct ((a =? A)%Z && negb (reads o)); lia.
    - rewrite (filter_ext _ (isidle lg)) in Le; [|apply isidle_eq; intros u _; apply inner_keeps; discriminate]. destruct e; exact Le.
  Qed.
  Lemma together (lg : log) ids : In T ids -> (length (filter (isbusy lg) ids) + length (filter (isidle lg) ids) + 1 <= length ids)%nat.
  Proof.
    assert (Le : forall l, (length (filter (isbusy lg) l) + length (filter (isidle lg) l) <= length l)%nat).
    { induction l as [|k l IH]; [auto|]. cbn [filter length]. unfold isbusy at 1, isidle at 1. destruct (k =? T)%nat, (lg k); cbn [negb andb length]; lia. }
    induction ids as [|k l IH]; intros I; [contradiction I|]. destruct I as [->|I].
    - cbn [filter length]. unfold isbusy at 1, isidle at 1. rewrite Nat.eqb_refl. cbn [negb andb]. specialize (Le l). lia.
    - specialize (IH I). cbn [filter length]. unfold isbusy at 1, isidle at 1. destruct (k =? T)%nat, (lg k); cbn [negb andb length]; lia.
  Qed.
  Lemma spurious_app (spur : Op -> Res -> bool) (x y : trace) : forall cur, spurious spur T cur (x ++ y) = (spurious spur T cur x + spurious spur T (doing T cur x) y)%nat.
  Proof. induction x as [|[e|[u a o|u r]] x IH]; intros cur; cbn [app spurious doing]; rewrite ?IH; lia. Qed.
End Log.

Section M.
  Variable g : pcfg.
  Variable kd : Z -> kind.
  Variable ev : Z -> fop -> list Z -> Z -> Z.
  Hypothesis kok : forall a, kind_ok (kd a).
  Hypothesis unit_ok : float_unit kd ev.
  Context {Op : Type}.
  Variable base : Z -> Op -> Z -> Z * res -> Prop.
  Variable enc : bop -> Op.
  Hypothesis base_ok : backend_ok (fun a => int_of (kd a)) base enc.
  Local Notation sem := (fun a o => base a (enc o)).
  Local Notation valid := (fun a => value_ok (kd a)).
  Local Notation code_of := (public_code ev g kd).
  Local Notation lstep := (@llog_step pop (option pres) bop res).

  Lemma stretch ls q tr init fin : (forall x, value_ok (kd x) (init x)) ->
    layer_run code_of layer_init ls = Some (q, tr) -> linearizable_to base init (rename enc (inner_of tr)) fin ->
    forall tr1 t a o tr2 tr3 tr4 ids, tr = tr1 ++ Outer (Call t a o) :: tr2 ++ tr3 ++ tr4 ->
      (forall r, ~ In (Outer (Return t r)) tr2) -> (forall u r, ~ In (Outer (Return u r)) tr3) ->
      (forall u, log_after (tr1 ++ Outer (Call t a o) :: tr2 ++ tr3) u <> None -> In u ids) ->
      (answers t tr3 <= 2 + length ids + spurious for_no_reason t (doing t None tr2) tr3)%nat.
  Proof.
    intros V R L tr1 t a o tr2 tr3 tr4 ids -> NR NR3 Cov. apply linearizable_rename in L as (bf & S & _).
    pose proof (public_good g kd ev kok unit_ok base enc base_ok) as PG.
    destruct (run_split _ tr1 _ _ _ _ R) as (ls1 & ls2 & s1 & -> & R1 & R2). rewrite inner_app in S.
    destruct (before _ _ valid _ _ only_reads (reads_same kd) code_of PG ls1 layer_init (mk_astate init (fun _ => AIdle)) (fun _ => None) s1 tr1 (inner_of (Outer (Call t a o) :: tr2 ++ tr3 ++ tr4)) bf) as (b & (W & Th) & Sb); [|exact R1|exact S|].
    { split; [exact V|]. intros u. split; reflexivity. }
    assert (LR1 : forall u, log_rel (s1 u) (fold_left lstep tr1 (fun _ => None) u)) by (intros u; apply (Th u)).
    destruct ls2 as [|l ls2]; cbn [layer_run] in R2; [discriminate R2|]. destruct (layer_step code_of s1 l) as [[s2 e]|] eqn:E; [|discriminate R2].
    destruct (layer_run code_of s2 ls2) as [[s3 tr]|] eqn:R3; [|discriminate R2]. injection R2 as -> -> ->.
    assert (LR2 : forall u, log_rel (s2 u) (lstep (fold_left lstep tr1 (fun _ => None)) (Outer (Call t a o)) u)).
    { apply (log_run code_of [l] s1 _ s2 [Outer (Call t a o)] LR1). cbn [layer_run]. now rewrite E. }
    assert (C : s1 t = LIdle /\ exists c, code_of a o = Some c /\ s2 = lset s1 t (LRun a c)).
    { destruct l as [t' a' o'|t'|t' r']; cbn [layer_step] in E; destruct (s1 t') as [|? c|] eqn:Es; try discriminate E.
      - destruct (code_of a' o') as [c|] eqn:C; [|discriminate E]. injection E as <- -> -> ->. eauto.
      - destruct c; discriminate E. }
    destruct C as (Id & c & C & E2). cbn [inner_of] in Sb. pose proof (proj2 (Th t)) as Tt. rewrite Id in Tt.
    destruct (finite (HRes := option pres) tr1 (fun _ => None) [] (fun u X => X eq_refl)) as (others & Fin).
    assert (I0 : I2 (fsem kd (ieee kd)) sem valid (front_call (miri g) kd) front_return for_no_reason only_reads t a s2 b None 0 0 (length others)).
    { rewrite E2. split; [exact W|]. exists 0%nat, others. split; [cbn; lia|]. split.
      - unfold lset. rewrite Nat.eqb_refl. exists 0%nat, None. split; [reflexivity|]. split; [exact Tt|]. split; [reflexivity|]. left. split; [exists o, []; now apply PG|].
        split; [eapply public_prog; eassumption|]. split; [lia|cbn; lia].
      - intros u N. unfold lset. rewrite (proj2 (Nat.eqb_neq u t) N). eapply oinv_mono; [|exact (proj2 (Th u))].
        intros x (bb & X & _) _. apply Fin. congruence. }
    destruct (run_split _ tr2 _ _ _ _ R3) as (la & lb & s4 & -> & Ra & Rb). rewrite inner_app in Sb.
    destruct (during_I _ _ valid _ _ for_no_reason only_reads (reads_same kd) code_of PG t a la _ _ _ _ _ _ _ _ _ _ I0 Ra Sb NR) as (b4 & I4 & S4).
    pose proof (log_run code_of la _ _ _ _ LR2 Ra) as LR4.
    destruct (run_split _ tr3 _ _ _ _ Rb) as (lc & ld & s5 & -> & Rc & Rd). rewrite inner_app in S4.
    unfold log_after in Cov. rewrite fold_left_app in Cov. cbn [fold_left] in Cov. rewrite fold_left_app in Cov.
    set (lg2 := fold_left lstep tr2 (lstep (fold_left lstep tr1 (fun _ => None)) (Outer (Call t a o)))) in *.
    assert (Busy : forall u, s4 u <> LIdle -> lg2 u <> None).
    { intros u X. specialize (LR4 u). destruct (s4 u) as [|x k|x k]; [congruence| |]; cbn in LR4; destruct LR4 as (? & ? & LR4); [|destruct LR4 as (? & LR4)]; congruence. }
    assert (Cov2 : forall u, lg2 u <> None -> In u ids) by (intros u X; apply Cov; now apply stays).
    assert (It : In t ids).
    { apply Cov2, Busy. destruct I4 as (_ & ? & ? & _ & (? & ? & Si) & _). intros X. now rewrite X in Si. }
    apply (restart _ _ valid _ _ for_no_reason only_reads t a _ _ _ _ _ _ (filter (isbusy t lg2) ids)) in I4.
    2: { intros u N X. apply filter_In. pose proof (Busy u X) as B. split; [now apply Cov2|]. unfold isbusy. destruct (Nat.eqb_spec u t); [contradiction|]. destruct (lg2 u); [reflexivity|congruence]. }
    assert (NR3t : forall r, ~ In (Outer (Return t r)) tr3) by (intros r; apply NR3).
    destruct (during_I _ _ valid _ _ for_no_reason only_reads (reads_same kd) code_of PG t a lc _ _ _ _ _ _ _ _ _ _ I4 Rc S4 NR3t) as (b5 & I5 & _).
    apply I2_le in I5. pose proof (starts code_of t a only_reads lc _ _ _ _ _ LR4 Rc NR3 Cov) as Le. pose proof (together (Op := bop) (Res := res) t lg2 ids It) as Le2. lia.
  Qed.

  Lemma never_spurs ls q tr init fin : (forall x, value_ok (kd x) (init x)) ->
    (forall a o x x' r, base a (enc o) x (x', r) -> for_no_reason o r = false) ->
    layer_run code_of layer_init ls = Some (q, tr) -> linearizable_to base init (rename enc (inner_of tr)) fin ->
    forall tr1 t a o tr2 tr3, tr = tr1 ++ Outer (Call t a o) :: tr2 ++ tr3 -> (forall r, ~ In (Outer (Return t r)) tr2) -> spurious for_no_reason t None tr2 = 0%nat.
  Proof.
    intros V St R L tr1 t a o tr2 tr3 -> NR.
    destruct (finite (HRes := option pres) (Res := res) (Op := bop) tr1 (fun _ : nat => @None (busy pop bop res)) [] (fun u X => X eq_refl)) as (others & Fin).
    change (Outer (Call t a o) :: tr2 ++ tr3) with ((Outer (Call t a o) :: tr2) ++ tr3) in R, L. rewrite app_assoc in R, L.
    destruct L as (bf & S & _). rewrite inner_app in S. unfold rename in S. rewrite map_app in S. destruct (asteps_prefix _ _ _ _ S _ _ eq_refl) as [c P].
    destruct (run_split _ (tr1 ++ Outer (Call t a o) :: tr2) _ _ _ _ R) as (ls1 & ls2 & s1 & _ & R1 & _).
    refine (proj2 (public_retries g kd ev kok unit_ok base enc base_ok ls1 s1 tr1 t a o tr2 init (fun _ => None) others V R1 _ NR _) St).
    - exists c. split; [exact P|discriminate].
    - intros u _ (bb & X & _). apply Fin. unfold log_after in X. congruence.
  Qed.
  Lemma doing_call ls q tr : layer_run code_of layer_init ls = Some (q, tr) -> forall y1 u r y2, tr = y1 ++ Inner (Return u r) :: y2 -> fold_left lstep y1 (fun _ => None) u <> None.
  Proof.
    intros R y1 u r y2 ->. destruct (run_split _ y1 _ _ _ _ R) as (ls1 & ls2 & s1 & -> & R1 & R2).
    assert (LR : forall u, log_rel (s1 u) (fold_left lstep y1 (fun _ => None) u)) by (apply (log_run code_of ls1 layer_init (fun _ => None) s1 y1); [intros x; reflexivity|exact R1]).
    destruct ls2 as [|l ls2]; cbn [layer_run] in R2; [discriminate R2|]. destruct (layer_step code_of s1 l) as [[s2 e]|] eqn:E; [|discriminate R2].
    destruct (layer_run code_of s2 ls2) as [[s3 tr]|] eqn:R3; [|discriminate R2]. injection R2 as -> -> ->.
    destruct l as [t' a' o'|t'|t' r']; cbn [layer_step] in E; destruct (s1 t') as [|? c|] eqn:Es; try discriminate E.
    - destruct (code_of a' o'); discriminate E.
    - destruct c; discriminate E.
    - injection E as _ -> ->. specialize (LR u). rewrite Es in LR. destruct LR as (? & ? & ? & ->). discriminate.
  Qed.
  Lemma first_answer u (tr : list (levent pop (option pres) bop res)) : answers u tr = 0%nat \/ exists y1 r y2, tr = y1 ++ Inner (Return u r) :: y2 /\ answers u tr = answers u (@Inner pop (option pres) bop res (Return u r) :: y2).
  Proof.
    induction tr as [|e tr IH]; [now left|].
    assert (Go : answers u (e :: tr) = answers u tr -> answers u (e :: tr) = 0%nat \/ exists y1 r y2, e :: tr = y1 ++ Inner (Return u r) :: y2 /\ answers u (e :: tr) = answers u (@Inner pop (option pres) bop res (Return u r) :: y2)).
    { intros E. rewrite E. destruct IH as [IH|(y1 & r & y2 & -> & IH)]; [now left|]. right. exists (e :: y1), r, y2. split; [reflexivity|exact IH]. }
    destruct e as [e|[v a o|v r]]; try (apply Go; reflexivity). destruct (Nat.eq_dec v u) as [->|N].
    - right. exists [], r, tr. auto.
    - apply Go. cbn [answers]. now destruct (Nat.eqb_spec v u).
  Qed.
  Lemma total (tr : list (levent pop (option pres) bop res)) ids k : (forall u, (answers u tr <= k)%nat /\ (answers u tr <> 0%nat -> In u ids)) -> (all_answers tr <= length ids * k)%nat.
  Proof.
    intros H. assert (LC : forall x l, list_sum (x :: l) = (x + list_sum l)%nat) by reflexivity.
    assert (G : forall ids (tr : list (levent pop (option pres) bop res)), (forall u, answers u tr <> 0%nat -> In u ids) -> (all_answers tr <= list_sum (map (fun u => answers u tr) ids))%nat).
    { clear - LC. intros ids tr. induction tr as [|e tr IH]; intros H; [cbn; lia|].
      assert (H' : forall u, answers u tr <> 0%nat -> In u ids) by (intros u X; apply H; destruct e as [e|[v a o|v r]]; cbn [answers]; lia). specialize (IH H').
      destruct e as [e|[v a o|v r]]; cbn [all_answers answers]; try exact IH.
      assert (Ij : In v ids) by (apply H; cbn [answers]; rewrite Nat.eqb_refl; lia).
      assert (1 + list_sum (map (fun u => answers u tr) ids) <= list_sum (map (fun u => (if Nat.eqb v u then 1 else 0) + answers u tr) ids))%nat; [|lia].
      clear - Ij LC.
      assert (Le : forall l, (list_sum (map (fun u => answers u tr) l) <= list_sum (map (fun u => (if Nat.eqb v u then 1 else 0) + answers u tr) l))%nat)
        by (induction l as [|q l IH]; [cbn; lia|]; cbn [map]; rewrite !LC; destruct (v =? q)%nat; cbn [Nat.add]; lia).
      induction ids as [|k ids IH]; [contradiction Ij|]. destruct Ij as [->|Ij].
      - specialize (Le ids). cbn [map]. rewrite !LC, Nat.eqb_refl. lia.
      - specialize (IH Ij). cbn [map]. rewrite !LC. destruct (v =? k)%nat; cbn [Nat.add]; lia. }
    pose proof (G ids tr (fun u => proj2 (H u))) as Le. eapply Nat.le_trans; [exact Le|]. assert (Hk : forall u, (answers u tr <= k)%nat) by (intros u; apply H).
    clear - Hk LC. induction ids as [|j ids IH]; [cbn; lia|]. cbn [map length]. rewrite LC. pose proof (Hk j). lia.
  Qed.
  Theorem public_progress ls q tr init fin : (forall x, value_ok (kd x) (init x)) ->
    layer_run code_of layer_init ls = Some (q, tr) -> linearizable_to base init (rename enc (inner_of tr)) fin -> few_before_return tr.
  Proof. intros V R L tr1 t a o tr2 tr3 tr4 ids E N1 N2 C. exact (stretch _ _ _ _ _ V R L _ _ _ _ _ _ _ _ E N1 N2 C). Qed.
  Theorem public_progress_strong ls q tr init fin : (forall x, value_ok (kd x) (init x)) ->
    (forall a o x x' r, base a (enc o) x (x', r) -> for_no_reason o r = false) ->
    layer_run code_of layer_init ls = Some (q, tr) -> linearizable_to base init (rename enc (inner_of tr)) fin -> few_before_return_strong tr /\ public_lock_free tr.
  Proof.
    intros V St R L.
    assert (F : few_before_return_strong tr).
    { intros tr1 t a o tr2 tr3 tr4 ids E N1 N2 C. pose proof (stretch _ _ _ _ _ V R L _ _ _ _ _ _ _ _ E N1 N2 C) as Le.
      assert (Z0 : spurious for_no_reason t None (tr2 ++ tr3) = 0%nat).
      { apply (never_spurs _ _ _ _ _ V St R L tr1 t a o (tr2 ++ tr3) tr4); [now rewrite <- app_assoc|]. intros r X. apply in_app_iff in X as [X|X]; [now apply (N1 r)|now apply (N2 t r)]. }
      rewrite spurious_app in Z0. lia. }
    split; [exact F|]. intros tr1 tr2 tr3 ids E NR C. apply total. intros u.
    destruct (first_answer u tr2) as [Z0|(y1 & r & y2 & E2 & Ev)]; [rewrite Z0; split; [lia|congruence]|].
    assert (E' : tr = (tr1 ++ y1) ++ Inner (Return u r) :: y2 ++ tr3) by (rewrite E, E2; now rewrite <- !app_assoc).
    pose proof (doing_call _ _ _ R _ _ _ _ E') as Lg. destruct (find_call u _ Lg) as (x & a & o & y & Exy & Ny).
    assert (E1 : tr = x ++ Outer (Call u a o) :: y ++ (Inner (Return u r) :: y2) ++ tr3) by (rewrite E', Exy; now rewrite <- !app_assoc).
    assert (E3 : tr1 ++ tr2 = x ++ Outer (Call u a o) :: y ++ Inner (Return u r) :: y2) by (rewrite E2, app_assoc, Exy, <- app_assoc; reflexivity).
    assert (NR' : forall v r', ~ In (Outer (Return v r')) (@Inner pop (option pres) bop res (Return u r) :: y2)) by (intros v r' X; apply (NR v r'); rewrite E2; apply in_app_iff; now right).
    split.
    - rewrite Ev. apply (F x u a o y (Inner (Return u r) :: y2) tr3 ids E1 Ny NR'). intros v X. apply C. now rewrite E3.
    - intros _. apply C. rewrite E2, app_assoc. unfold log_after. rewrite fold_left_app. apply stays; [exact NR'|exact Lg].
  Qed.
End M.
