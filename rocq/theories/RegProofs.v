(** Blocks on real registers behave like blocks on operand names. *)
From Coq Require Import ZArith List Bool Lia PeanoNat.
From Verif Require Import Words Spec LoopModel AsmModel BlockModel BlockClobber RegModel.
Import ListNotations.
Open Scope Z_scope.

(** ** Two machines whose threads do the same *)
Section Bisim.
  Context {C1 C2 Op Res : Type}.
  Variables (next1 : C1 -> action C1 Res) (next2 : C2 -> action C2 Res).
  Variables (code1 : Z -> Op -> option C1) (code2 : Z -> Op -> option C2).
  Variable Rc : C1 -> C2 -> Prop.
  Definition act_rel (a1 : action C1 Res) (a2 : action C2 Res) : Prop :=
    match a1, a2 with
    | ALocal c1, ALocal c2 => Rc c1 c2
    | ARead a k p f, ARead a' k' p' f' => a = a' /\ k = k' /\ p = p' /\ forall v, Rc (f v) (f' v)
    | AAtomic a g f, AAtomic a' g' f' => a = a' /\ (forall sp x, g sp x = g' sp x) /\ forall v, Rc (f v) (f' v)
    | ALoadLinked b a k p f, ALoadLinked b' a' k' p' f' => b = b' /\ a = a' /\ k = k' /\ p = p' /\ forall v, Rc (f v) (f' v)
    | AStoreCond a v f, AStoreCond a' v' f' => a = a' /\ v = v' /\ forall b, Rc (f b) (f' b)
    | ADone r, ADone r' => r = r'
    | AStuck, AStuck => True
    | _, _ => False
    end.
  Hypothesis Hnext : forall c1 c2, Rc c1 c2 -> act_rel (next1 c1) (next2 c2).
  Hypothesis Hcode : forall a o, match code1 a o, code2 a o with
    | Some c1, Some c2 => Rc c1 c2 | None, None => True | _, _ => False end.
  Definition st_rel (s1 : asm_state C1) (s2 : asm_state C2) : Prop :=
    amem s1 = amem s2 /\ aresv s1 = aresv s2 /\
    forall t, match athr s1 t, athr s2 t with Some c1, Some c2 => Rc c1 c2 | None, None => True | _, _ => False end.
  Lemma st_goto s1 s2 t c1 c2 : st_rel s1 s2 -> match c1, c2 with Some x, Some y => Rc x y | None, None => True | _, _ => False end ->
    st_rel (agoto s1 t c1) (agoto s2 t c2).
  Proof.
    intros (M & V & T) H. unfold st_rel, agoto. cbn. split; [exact M|]. split; [exact V|].
    intros u. unfold setn. destruct (u =? t)%nat; [exact H|apply T].
  Qed.
  Lemma st_write s1 s2 a v : st_rel s1 s2 -> st_rel (awrite s1 a v) (awrite s2 a v).
  Proof. intros (M & V & T). unfold st_rel, awrite. cbn. rewrite M, V. auto. Qed.
  Lemma st_resv s1 s2 t r : st_rel s1 s2 -> st_rel (aset_resv s1 t r) (aset_resv s2 t r).
  Proof. intros (M & V & T). unfold st_rel, aset_resv. cbn. rewrite M, V. auto. Qed.
  Definition out_rel {E} (x : option (asm_state C1 * E)) (y : option (asm_state C2 * E)) : Prop :=
    match x, y with Some (s1, e1), Some (s2, e2) => st_rel s1 s2 /\ e1 = e2 | None, None => True | _, _ => False end.
  Lemma bisim_step s1 s2 l : st_rel s1 s2 -> out_rel (asm_step next1 code1 s1 l) (asm_step next2 code2 s2 l).
  Proof.
    intros H. pose proof H as (M & V & T). unfold asm_step. specialize (T (tid l)).
    destruct (athr s1 (tid l)) as [c1|] eqn:E1, (athr s2 (tid l)) as [c2|] eqn:E2; try contradiction.
    - pose proof (Hnext _ _ T) as N.
      destruct (next1 c1) as [x|a k p f|a g f|b a k p f|a v f|r|],
               (next2 c2) as [y|a' k' p' f'|a' g' f'|b' a' k' p' f'|a' v' f'|r'|]; cbn [act_rel] in N; try contradiction.
      + cbn. split; [|reflexivity]. now apply st_goto.
      + destruct N as (<- & <- & <- & N). cbn. rewrite M. split; [|reflexivity]. apply st_goto; [exact H|]. apply N.
      + destruct N as (<- & G & N). rewrite <- M, <- G. destruct (g (spurious l) (amem s1 a)) as [[y|] r]; cbn; (split; [|reflexivity]);
          apply st_goto; try apply N; [now apply st_write|exact H].
      + destruct N as (<- & <- & <- & <- & N). cbn. rewrite M. split; [|reflexivity].
        apply st_goto; [|apply N]. destruct b; [now apply st_resv|exact H].
      + destruct N as (<- & <- & N). unfold ahas_resv. rewrite V.
        destruct (match aresv s2 (tid l) with Some b => b =? a | None => false end && negb (spurious l));
          cbn; (split; [|reflexivity]); apply st_goto; try apply N; [now apply st_write|now apply st_resv].
      + subst r'. cbn. split; [|reflexivity]. apply st_goto; [exact H|exact Logic.I].
      + exact Logic.I.
    - destruct (call l) as [[a o]|]; [|exact Logic.I]. specialize (Hcode a o).
      destruct (code1 a o) as [c1|], (code2 a o) as [c2|]; try contradiction; [|exact Logic.I].
      cbn. split; [|reflexivity]. now apply st_goto.
  Qed.
  Lemma bisim_run ls : forall s1 s2, st_rel s1 s2 -> out_rel (asm_run next1 code1 s1 ls) (asm_run next2 code2 s2 ls).
  Proof.
    induction ls as [|l ls IH]; intros s1 s2 H; cbn [asm_run]; [cbn; auto|].
    pose proof (bisim_step s1 s2 l H) as N.
    destruct (asm_step next1 code1 s1 l) as [[s1' e1]|], (asm_step next2 code2 s2 l) as [[s2' e2]|]; cbn in N; try contradiction;
      [|exact Logic.I].
    destruct N as [N ->]. specialize (IH _ _ N).
    destruct (asm_run next1 code1 s1' ls) as [[s1'' e1']|], (asm_run next2 code2 s2' ls) as [[s2'' e2']|]; cbn in IH; try contradiction;
      [|exact Logic.I].
    destruct IH as [IH ->]. cbn. auto.
  Qed.
  Lemma st_rel_init m : st_rel (asm_init m) (asm_init m).
  Proof. unfold st_rel. cbn. auto. Qed.
End Bisim.

(** ** Reading the operands through an assignment *)
Section Sim.
  Context {I J M S Res R : Type}.
  Variable A : isa I J M S Res R.
  (** source operands, and the operands that are registers at all *)
  Variables (ri : I -> list R) (rj : J -> list R) (rm : M -> list R) (real : R -> Prop).
  Local Notation rg := (regs_of A).
  Definition flags_eq (s1 s2 : S) : Prop := forall f, with_regs A f s1 = with_regs A f s2.
  Definition agree (l : list R) (s1 s2 : S) : Prop := forall r, In r l -> rg s1 r = rg s2 r.
  Definition agree_real (l : list R) (s1 s2 : S) : Prop := forall r, In r l -> real r -> rg s1 r = rg s2 r.
  Definition post (ws : list R) (s1 s2 : S) : Prop := flags_eq s1 s2 /\ agree ws s1 s2.
  Definition keeps (ws : list R) (s s' : S) : Prop := forall r, real r -> ~ In r ws -> rg s' r = rg s r.
  Definition acc_keeps (ws : list R) (s : S) (a : action S Res) : Prop :=
    match a with
    | ALocal s' => keeps ws s s'
    | ARead _ _ _ f => forall v, keeps ws s (f v)
    | AAtomic _ _ f => forall v, keeps ws s (f v)
    | ALoadLinked _ _ _ _ f => forall v, keeps ws s (f v)
    | AStoreCond _ _ f => forall b, keeps ws s (f b)
    | ADone _ | AStuck => True
    end.
  Record faithful : Prop := mk_faithful {
    F_eq : forall r q, reg_eq A r q = true <-> r = q;
    F_get : forall f s r, rg (with_regs A f s) r = f r;
    F_put : forall f g s, with_regs A f (with_regs A g s) = with_regs A f s;
    F_i : forall i s1 s2, flags_eq s1 s2 -> agree_real (ri i) s1 s2 -> post (writes_i A i) (exec A i s1) (exec A i s2);
    F_ik : forall i s, keeps (writes_i A i) s (exec A i s);
    F_j : forall j s1 s2, flags_eq s1 s2 -> agree_real (rj j) s1 s2 -> taken A j s1 = taken A j s2;
    F_m : forall m s1 s2, flags_eq s1 s2 -> agree_real (rm m) s1 s2 -> act_rel (post (writes_m A m)) (acc A m s1) (acc A m s2);
    F_mk : forall m s, acc_keeps (writes_m A m) s (acc A m s) }.
  Hypothesis F : faithful.

  Lemma flags_eq_refl s : flags_eq s s.
  Proof. intros f. reflexivity. Qed.
  Lemma flags_eq_view z w f s : flags_eq s (view A z w f s).
  Proof. intros g. unfold view. now rewrite (F_put F). Qed.
  Lemma flags_eq_trans s1 s2 s3 : flags_eq s1 s2 -> flags_eq s2 s3 -> flags_eq s1 s3.
  Proof. intros H K f. now rewrite H. Qed.

  Lemma back_other ds w s' : forall f p, (forall d, In d ds -> w d <> p) -> back A ds w s' f p = f p.
  Proof.
    unfold back. induction ds as [|d ds IH]; intros f p H; cbn [fold_left]; [reflexivity|].
    rewrite IH by (intros; apply H; now right). unfold setn. destruct (p =? w d)%nat eqn:E; [|reflexivity].
    apply Nat.eqb_eq in E. now destruct (H d (or_introl eq_refl)).
  Qed.
  Lemma back_in ds w s' r : (forall d, In d ds -> d <> r -> w d <> w r) -> In r ds ->
    forall f, back A ds w s' f (w r) = rg s' r.
  Proof.
    unfold back. induction ds as [|d ds IH]; intros D Hr f; [contradiction|]. cbn [fold_left].
    destruct (in_dec (fun x y => match bool_dec (reg_eq A x y) true with
                                 | left e => left (proj1 (F_eq F x y) e)
                                 | right n => right (fun e => n (proj2 (F_eq F x y) e)) end) r ds) as [H|H].
    - apply IH; [intros; apply D; auto; now right|exact H].
    - destruct Hr as [->|Hr]; [|contradiction].
      assert (B : forall f p, (forall d, In d ds -> w d <> p) -> fold_left (fun g q => setn g (w q) (rg s' q)) ds f p = f p)
        by (intros; now apply (back_other ds w s')).
      rewrite B.
      + unfold setn. now rewrite Nat.eqb_refl.
      + intros d Hd E. refine (D d (or_intror Hd) _ E). congruence.
  Qed.

  (** ** A block and an assignment that go together.  [lv n]: operands whose value may still be needed at [n]. *)
  Definition reads (i : binstr I J M) := match i with BI i => ri i | BJ j _ => rj j | BM m => rm m end.
  Definition writes (i : binstr I J M) := match i with BI i => writes_i A i | BJ _ _ => [] | BM m => writes_m A m end.
  Definition zeros (i : binstr I J M) := match i with BI i => zero_i A i | BJ _ _ => [] | BM m => zero_m A m end.
  Definition formsb (i : binstr I J M) := match i with BM m => forms A m | _ => [] end.
  Definition succs (n : nat) (i : binstr I J M) : list nat := match i with BJ _ k => [k; 1 + n] | _ => [1 + n] end%nat.
  Record fits (lv : nat -> list R) (w : R -> nat) (prog : list (binstr I J M)) (rt : S -> Res) : Prop := mk_fits {
    T_real : forall n r, In r (lv n) -> real r;
    T_reads : forall n i, nth_error prog n = Some i -> forall r, In r (reads i) -> real r -> In r (lv n);
    T_zero : forall n i, nth_error prog n = Some i -> forall r, In r (zeros i) -> w r <> 0%nat;
    T_form : forall n i, nth_error prog n = Some i -> forallb (form_ok w) (formsb i) = true;
    T_live : forall n i, nth_error prog n = Some i -> forall n', In n' (succs n i) -> forall q, In q (lv n') ->
             In q (writes i) \/ (In q (lv n) /\ forall d, In d (writes i) -> w d <> w q);
    T_dist : forall n i, nth_error prog n = Some i -> forall d e, In d (writes i) -> In e (writes i) -> d <> e -> w d <> w e;
    T_ret : forall n s1 s2, nth_error prog n = None -> agree (lv n) s1 s2 -> rt s1 = rt s2 }.

  Definition rel (lv : nat -> list R) (c : bconf I J M S Res) (p : pconf I J M S Res R) : Prop :=
    pprog p = bprog c /\ ppos p = bpos c /\ pret p = bret c /\ flags_eq (bst c) (prest p) /\
    (forall r, In r (lv (bpos c)) -> rg (bst c) r = pfile p (pwhere p r)) /\
    fits lv (pwhere p) (bprog c) (bret c).

  Lemma view_reads lv c p i : rel lv c p -> nth_error (bprog c) (bpos c) = Some i ->
    flags_eq (bst c) (view A (zeros i) (pwhere p) (pfile p) (prest p)) /\
    forall r, In r (reads i) -> real r -> rg (bst c) r = rg (view A (zeros i) (pwhere p) (pfile p) (prest p)) r.
  Proof.
    intros (P & N & Rt & FL & L & T) H. split.
    - eapply flags_eq_trans; [exact FL|apply flags_eq_view].
    - intros r Hr Rr. unfold view. rewrite (F_get F).
      destruct (existsb (reg_eq A r) (zeros i)) eqn:E; cbn [andb].
      + apply existsb_exists in E as (z & Hz & E). apply (F_eq F) in E. subst z.
        pose proof (T_zero _ _ _ _ T _ _ H _ Hz) as NZ. apply Nat.eqb_neq in NZ. rewrite NZ.
        apply L. eapply T_reads; eauto.
      + apply L. eapply T_reads; eauto.
  Qed.
  Lemma rel_goto lv c p i n s1 s2 : rel lv c p -> nth_error (bprog c) (bpos c) = Some i -> In n (succs (bpos c) i) ->
    keeps (writes i) (bst c) s1 -> post (writes i) s1 s2 ->
    rel lv (bgoto c n s1) (pgoto A p n (writes i) s2).
  Proof.
    intros (P & N & Rt & FL & L & T) H Hn K (FE & AG). unfold rel, bgoto, pgoto. cbn.
    refine (conj P (conj eq_refl (conj Rt (conj FE (conj _ T))))).
    intros r Hr. destruct (T_live _ _ _ _ T _ _ H _ Hn _ Hr) as [W|[O D]].
    - rewrite back_in; [now apply AG| |exact W].
      intros d Hd Ne. exact (T_dist _ _ _ _ T _ _ H d r Hd W Ne).
    - destruct (in_dec (fun x y => match bool_dec (reg_eq A x y) true with
                                 | left e => left (proj1 (F_eq F x y) e)
                                 | right n => right (fun e => n (proj2 (F_eq F x y) e)) end) r (writes i)) as [W|W].
      + exfalso. exact (D r W eq_refl).
      + rewrite K by (auto; eapply T_real; eauto). rewrite back_other; [now apply L|exact D].
  Qed.
  Lemma rel_next lv c p : rel lv c p ->
    act_rel (rel lv) (bnext (exec A) (taken A) (acc A) c) (pnext A p).
  Proof.
    intros H. pose proof H as (P & N & Rt & FL & L & T).
    unfold bnext, pnext. rewrite P, N, Rt. destruct (nth_error (bprog c) (bpos c)) as [[i|j n|m]|] eqn:E.
    - destruct (view_reads _ _ _ _ H E) as [V1 V2]. pose proof (F_i F i _ _ V1 V2) as X. cbn [act_rel].
      exact (rel_goto lv c p (BI i) _ _ _ H E (or_introl eq_refl) (F_ik F i _) X).
    - destruct (view_reads _ _ _ _ H E) as [V1 V2]. pose proof (F_j F j _ _ V1 V2) as X. cbn [act_rel].
      change (zeros (BJ j n)) with (@nil R) in X. rewrite <- X.
      assert (PO : post (writes (BJ j n)) (bst c) (prest p)) by (split; [exact FL|intros r []]).
      assert (KE : keeps (writes (BJ j n)) (bst c) (bst c)) by (intros r _ _; reflexivity).
      destruct (taken A j (bst c)).
      + exact (rel_goto lv c p (BJ j n) n _ _ H E (or_introl eq_refl) KE PO).
      + exact (rel_goto lv c p (BJ j n) _ _ _ H E (or_intror (or_introl eq_refl)) KE PO).
    - destruct (view_reads _ _ _ _ H E) as [V1 V2]. pose proof (F_m F m _ _ V1 V2) as X. cbn [zeros] in X.
      pose proof (T_form _ _ _ _ T _ _ E) as FO. cbn [formsb] in FO. rewrite FO.
      pose proof (F_mk F m (bst c)) as KE.
      pose proof (rel_goto lv c p (BM m) (1 + bpos c) ) as G. cbn [writes succs] in G.
      destruct (acc A m (bst c)) as [x|a k q f|a g f|b a k q f|a v f|r|],
               (acc A m (view A (zero_m A m) (pwhere p) (pfile p) (prest p))) as [y|a' k' q' f'|a' g' f'|b' a' k' q' f'|a' v' f'|r'|];
        cbn [act_rel acc_keeps] in *; try contradiction.
      + apply G; auto. now left.
      + destruct X as (-> & -> & -> & X). refine (conj eq_refl (conj eq_refl (conj eq_refl _))). intros v. apply G; auto. now left.
      + destruct X as (-> & X1 & X). refine (conj eq_refl (conj X1 _)). intros v. apply G; auto. now left.
      + destruct X as (-> & -> & -> & -> & X). refine (conj eq_refl (conj eq_refl (conj eq_refl (conj eq_refl _)))). intros v. apply G; auto. now left.
      + destruct X as (-> & -> & X). refine (conj eq_refl (conj eq_refl _)). intros v0. apply G; auto. now left.
      + exact X.
      + exact Logic.I.
    - cbn [act_rel]. apply (T_ret _ _ _ _ T (bpos c)); [exact E|].
      intros r Hr. unfold view. rewrite (F_get F). cbn [existsb andb]. now apply L.
  Qed.
  Definition related (c : bconf I J M S Res) (p : pconf I J M S Res R) : Prop := exists lv, rel lv c p.
  Lemma related_next c p : related c p -> act_rel related (bnext (exec A) (taken A) (acc A) c) (pnext A p).
  Proof.
    intros [lv H]. pose proof (rel_next lv c p H) as X.
    destruct (bnext (exec A) (taken A) (acc A) c), (pnext A p); cbn [act_rel] in *; try contradiction; auto.
    - now exists lv.
    - destruct X as (-> & -> & -> & X). refine (conj eq_refl (conj eq_refl (conj eq_refl _))). intros v. now exists lv.
    - destruct X as (-> & X1 & X). refine (conj eq_refl (conj X1 _)). intros v. now exists lv.
    - destruct X as (-> & -> & -> & -> & X). refine (conj eq_refl (conj eq_refl (conj eq_refl (conj eq_refl _)))). intros w. now exists lv.
    - destruct X as (-> & -> & X). refine (conj eq_refl (conj eq_refl _)). intros w. now exists lv.
  Qed.

  (** ** Checking a block against its operand declarations *)
  Variable ops : list (R * operand).
  Definition mem (r : R) (l : list R) : bool := existsb (reg_eq A r) l.
  Definition find_op (r : R) : option operand := option_map snd (find (fun x => reg_eq A r (fst x)) ops).
  (** can the two be in the same register? *)
  Definition share (r q : R) : bool :=
    match find_op r, find_op q with Some o, Some p => may_share o p | _, _ => true end.
  Definition nonzero (r : R) : bool :=
    match find_op r with
    | Some (mk_operand _ (At n)) => negb (n =? 0)%nat
    | Some (mk_operand k (Class c)) => negb (c 0%nat) ||
        existsb (fun x => match oplace (snd x) with At O => negb (reg_eq A r (fst x)) && negb (may_share (mk_operand k (Class c)) (snd x))
                                                  | _ => false end) ops
    | None => false
    end.
  Definition form_check (f : form R) : bool :=
    match f with
    | Differ a b => negb (reg_eq A a b) && negb (share a b)
    | EvenPair a b =>
      match find_op a, find_op b with
      | Some (mk_operand _ (At n)), Some (mk_operand _ (At k)) => Nat.even n && (k =? n + 1)%nat
      | _, _ => false
      end
    end.
  Definition late (r : R) : bool := match find_op r with Some (mk_operand KLateOut _) => true | _ => false end.
  Definition output (r : R) : bool := match find_op r with Some o => is_output o | None => false end.
  Fixpoint first_late (prog : list (binstr I J M)) : nat :=
    match prog with [] => 0 | i :: p => if existsb late (writes i) then 0 else 1 + first_late p end%nat.
  (** once a [lateout] has been written, the [in] operands are gone *)
  Definition live (prog : list (binstr I J M)) (n : nat) : list R :=
    if (n <=? first_late prog)%nat then map fst ops else filter output (map fst ops).
  Definition check_at (realb : R -> bool) (prog : list (binstr I J M)) (n : nat) (i : binstr I J M) : bool :=
    forallb (fun r => negb (realb r) || mem r (live prog n)) (reads i) &&
    forallb nonzero (zeros i) && forallb form_check (formsb i) &&
    forallb (fun n' => forallb (fun q => mem q (writes i) ||
       (mem q (live prog n) && forallb (fun d => negb (share d q)) (writes i))) (live prog n')) (succs n i) &&
    forallb (fun d => forallb (fun e => reg_eq A d e || negb (share d e)) (writes i)) (writes i) &&
    forallb output (writes i).
  Fixpoint check_from (realb : R -> bool) (prog : list (binstr I J M)) (n : nat) (p : list (binstr I J M)) : bool :=
    match p with [] => true | i :: p' => check_at realb prog n i && check_from realb prog (1 + n) p' end.
  Definition check (realb : R -> bool) (prog : list (binstr I J M)) : bool :=
    forallb realb (map fst ops) && check_from realb prog 0 prog.

  Lemma mem_in r l : mem r l = true <-> In r l.
  Proof.
    unfold mem. rewrite existsb_exists. split.
    - intros (x & H & E). apply (F_eq F) in E. now subst.
    - intros H. exists r. split; [exact H|]. now apply (F_eq F).
  Qed.
  Lemma find_op_in r o : find_op r = Some o -> In (r, o) ops.
  Proof.
    unfold find_op. destruct (find _ ops) as [[q p]|] eqn:E; [|discriminate]. cbn. intros X. injection X as ->.
    apply find_some in E as [E1 E2]. cbn in E2. apply (F_eq F) in E2. now subst.
  Qed.
  Lemma check_from_ok realb prog p : forall n, check_from realb prog n p = true ->
    forall k i, nth_error p k = Some i -> check_at realb prog (n + k) i = true.
  Proof.
    induction p as [|x p IH]; intros n H k i E; [destruct k; discriminate|]. cbn [check_from] in H.
    apply andb_true_iff in H as [H1 H2]. destruct k; cbn in E.
    - injection E as ->. now rewrite Nat.add_0_r.
    - rewrite <- Nat.add_succ_comm. now apply (IH (1 + n)%nat).
  Qed.
  Lemma share_false (w : R -> nat) r q : (forall r o q p, In (r, o) ops -> In (q, p) ops -> r <> q -> w r = w q -> may_share o p = true) ->
    share r q = false -> r <> q -> w r <> w q.
  Proof.
    intros P H N E. unfold share in H. destruct (find_op r) as [o|] eqn:Eo; [|discriminate].
    destruct (find_op q) as [p|] eqn:Ep; [|discriminate].
    rewrite (P r o q p) in H; try discriminate; auto using find_op_in.
  Qed.
  Lemma check_fits realb prog (rt : S -> Res) k x : (forall r, realb r = true <-> real r) -> check realb prog = true -> permitted A ops k x ->
    (forall s1 s2, agree (filter output (map fst ops)) s1 s2 -> rt s1 = rt s2) ->
    fits (live prog) (where_is x) prog rt.
  Proof.
    intros RB H (PC & PS & PL) RT. unfold check in H. apply andb_true_iff in H as [H0 H].
    pose proof (check_from_ok _ _ _ _ H) as C. cbn [Nat.add] in C. clear H. rewrite forallb_forall in H0.
    assert (LS : forall n r, In r (live prog n) -> In r (map fst ops))
      by (intros n r; unfold live; destruct (n <=? first_late prog)%nat; [auto|]; intros X; now apply filter_In in X).
    assert (LO : forall n r, In r (filter output (map fst ops)) -> In r (live prog n))
      by (intros n r X; unfold live; destruct (n <=? first_late prog)%nat; [|exact X]; now apply filter_In in X).
    pose proof PC as C_class.
    assert (C' : forall n i, nth_error prog n = Some i -> check_at realb prog n i = true) by exact C. clear C.
    split.
    - intros n r X. apply RB, H0. eauto.
    - intros n i E r X Rr. apply C' in E. unfold check_at in E. repeat (apply andb_true_iff in E as [E _]).
      rewrite forallb_forall in E. specialize (E r X). apply RB in Rr. rewrite Rr in E. now apply mem_in.
    - intros n i E r X. apply C' in E. unfold check_at in E. do 4 apply andb_true_iff in E as [E _].
      apply andb_true_iff in E as [_ E]. rewrite forallb_forall in E. specialize (E r X). unfold nonzero in E.
      destruct (find_op r) as [[kd [a|c]]|] eqn:Eo; try discriminate; apply find_op_in in Eo; specialize (PC _ _ Eo); cbn in PC.
      + rewrite PC. apply negb_true_iff in E. now apply Nat.eqb_neq.
      + intros Z. apply orb_true_iff in E as [E|E]; [rewrite Z in PC; rewrite PC in E; discriminate|].
        apply existsb_exists in E as ([q [kq [[|nq]|cq]]] & Q & E); try discriminate. cbn [oplace snd fst] in E.
        apply andb_true_iff in E as [E1 E2]. apply negb_true_iff in E1, E2.
        rewrite (PS _ _ _ _ Eo Q) in E2; [discriminate| |].
        * intros <-. rewrite (proj2 (F_eq F r r) eq_refl) in E1. discriminate.
        * apply (C_class q _) in Q. cbn in Q. congruence.
    - intros n i E. apply C' in E. unfold check_at in E. do 3 apply andb_true_iff in E as [E _].
      apply andb_true_iff in E as [_ E]. rewrite forallb_forall in *. intros f X. specialize (E f X).
      destruct f as [a b|a b]; cbn [form_check form_ok] in *.
      + apply andb_true_iff in E as [E1 E2]. apply negb_true_iff in E1, E2. apply negb_true_iff, Nat.eqb_neq.
        eapply share_false; eauto. intros ->. rewrite (proj2 (F_eq F b b) eq_refl) in E1. discriminate.
      + destruct (find_op a) as [[ka [na|ca]]|] eqn:Ea; try discriminate. destruct (find_op b) as [[kb [nb|cb]]|] eqn:Eb; try discriminate.
        apply find_op_in in Ea, Eb. apply PC in Ea, Eb. cbn in Ea, Eb. now rewrite Ea, Eb.
    - intros n i E n' S1 q L. apply C' in E. unfold check_at in E. do 2 apply andb_true_iff in E as [E _].
      apply andb_true_iff in E as [_ E]. rewrite forallb_forall in E. specialize (E _ S1). rewrite forallb_forall in E.
      specialize (E _ L). apply orb_true_iff in E as [E|E]; [left; now apply mem_in|].
      apply andb_true_iff in E as [E1 E2]. apply mem_in in E1.
      destruct (mem q (writes i)) eqn:Q; [left; now apply mem_in|]. right. split; [exact E1|].
      rewrite forallb_forall in E2. intros d D. specialize (E2 d D). apply negb_true_iff in E2.
      eapply share_false; eauto. intros ->. apply mem_in in D. congruence.
    - intros n i E d e D1 D2 N. apply C' in E. unfold check_at in E. apply andb_true_iff in E as [E _].
      apply andb_true_iff in E as [_ E]. rewrite forallb_forall in E. specialize (E _ D1). rewrite forallb_forall in E. specialize (E _ D2).
      apply orb_true_iff in E as [E|E]; [apply (F_eq F) in E; contradiction|]. apply negb_true_iff in E. eapply share_false; eauto.
    - intros n s1 s2 _ AG. apply RT. intros r X. apply AG. now apply LO.
  Qed.
  (** the block starts in related states *)
  Lemma check_start realb k x : (forall r, realb r = true <-> real r) -> check realb (bprog k) = true -> permitted A ops k x ->
    (forall s1 s2, agree (filter output (map fst ops)) s1 s2 -> bret k s1 = bret k s2) ->
    flags_eq (bst k) (rest0 x) ->
    (forall r o, In (r, o) ops -> is_input o = false -> regs_of A (bst k) r = file0 x (where_is x r)) ->
    related k (pstart x k).
  Proof.
    intros RB H P RT FE NI. exists (live (bprog k)). unfold rel, pstart. cbn.
    refine (conj eq_refl (conj eq_refl (conj eq_refl (conj FE (conj _ (check_fits realb _ _ k x RB H P RT)))))).
    intros r X. assert (Y : In r (map fst ops))
      by (unfold live in X; destruct (bpos k <=? first_late (bprog k))%nat; [exact X|now apply filter_In in X]).
    apply in_map_iff in Y as ([q o] & E & Y). cbn in E. subst q. destruct (is_input o) eqn:I1.
    - symmetry. destruct P as (_ & _ & P). eauto.
    - eauto.
  Qed.
  (** registers that hold no output are left alone *)
  Lemma check_keeps realb prog : check realb prog = true -> forall c c', steps (pnext A) c c' -> pprog c = prog ->
    pwhere c' = pwhere c /\ pprog c' = prog /\
    forall n, (forall r o, In (r, o) ops -> is_output o = true -> pwhere c r <> n) -> pfile c' n = pfile c n.
  Proof.
    intros H c c' ST E. unfold check in H. apply andb_true_iff in H as [_ H].
    pose proof (check_from_ok _ _ _ _ H) as C. cbn [Nat.add] in C. clear H.
    induction ST as [c|c c1 c2 ST IH S1]; [auto|]. destruct (IH E) as (W & P & K). clear IH.
    assert (G : forall i, nth_error (pprog c1) (ppos c1) = Some i -> forall n s,
      pwhere (pgoto A c1 n (writes i) s) = pwhere c /\ pprog (pgoto A c1 n (writes i) s) = prog /\
      forall p, (forall r o, In (r, o) ops -> is_output o = true -> pwhere c r <> p) ->
        pfile (pgoto A c1 n (writes i) s) p = pfile c p).
    { intros i N n s. unfold pgoto. cbn. refine (conj W (conj P _)). intros p Hp. rewrite back_other; [now apply K|].
      intros d Hd. rewrite P in N. apply C in N. unfold check_at in N. apply andb_true_iff in N as [_ N].
      rewrite forallb_forall in N. specialize (N d Hd). unfold output in N. destruct (find_op d) as [o|] eqn:O; [|discriminate].
      apply find_op_in in O. rewrite W. eauto. }
    inversion S1 as [? ? X|? a k p kont v X|? a f kont sp x X|? b a k p kont v X|? a w kont b X]; subst; unfold pnext in X;
      destruct (nth_error (pprog c1) (ppos c1)) as [[i|j n|m]|] eqn:N; try discriminate;
      try (destruct (forallb (form_ok (pwhere c1)) (forms A m)); [|discriminate];
           destruct (acc A m (view A (zero_m A m) (pwhere c1) (pfile c1) (prest c1))); try discriminate).
    - injection X as <-. exact (G _ eq_refl _ _).
    - injection X as <-. exact (G _ eq_refl _ _).
    - injection X as <-. exact (G _ eq_refl _ _).
    - injection X as _ _ _ <-. exact (G _ eq_refl _ _).
    - injection X as _ _ <-. exact (G _ eq_refl _ _).
    - injection X as _ _ _ _ <-. exact (G _ eq_refl _ _).
    - injection X as _ _ <-. exact (G _ eq_refl _ _).
  Qed.
End Sim.

(** ** The whole machine *)
Section Whole.
  Context {I J M S Res R Op : Type}.
  Variable A : isa I J M S Res R.
  Variables (ri : I -> list R) (rj : J -> list R) (rm : M -> list R) (real : R -> Prop) (realb : R -> bool).
  Hypothesis F : faithful A ri rj rm real.
  Hypothesis RB : forall r, realb r = true <-> real r.
  Variable code : (Z -> Op -> S) -> Z -> Op -> option (bconf I J M S Res).
  Variable ops : Z -> Op -> list (R * operand).
  Hypothesis HC : forall junk a o k, code junk a o = Some k -> check A ri rj rm (ops a o) realb (bprog k) = true.
  Hypothesis HR : forall junk a o k, code junk a o = Some k ->
    forall s1 s2, agree A (filter (output A (ops a o)) (map fst (ops a o))) s1 s2 -> bret k s1 = bret k s2.
  Hypothesis HE : forall junk a o k, code junk a o = Some k ->
    flags_eq A (bst k) (junk a o) /\
    forall r p, In (r, p) (ops a o) -> is_input p = false -> regs_of A (bst k) r = regs_of A (junk a o) r.
  Variable asg : Z -> Op -> assignment S R.
  Hypothesis OK : compiled A code ops asg.
  Local Notation next1 := (bnext (exec A) (taken A) (acc A)).
  Local Notation code1 := (code (entry_of A asg)).
  Local Notation next2 := (pnext A).
  Local Notation code2 := (real_code A code asg).
  Local Notation Rc := (related A ri rj rm real).
  Lemma whole_start a o k : code1 a o = Some k -> Rc k (pstart (asg a o) k).
  Proof.
    intros E. destruct (HE _ a o k E) as [FE NI].
    apply (check_start A ri rj rm real F (ops a o) realb).
    - exact RB.
    - exact (HC _ a o k E).
    - exact (OK a o k E).
    - exact (HR _ a o k E).
    - intros f. rewrite (FE f). unfold entry_of, entry. symmetry. apply (flags_eq_view A ri rj rm real F).
    - intros r p H I1. rewrite (NI r p H I1). unfold entry_of, entry, view. rewrite (F_get _ _ _ _ _ F). reflexivity.
  Qed.
  Lemma whole_code a o : match code1 a o, code2 a o with Some c1, Some c2 => Rc c1 c2 | None, None => True | _, _ => False end.
  Proof. unfold real_code. destruct (code1 a o) as [k|] eqn:E; cbn; [now apply whole_start|exact Logic.I]. Qed.
  Lemma whole_same ls m : out_rel Rc (asm_run next1 code1 (asm_init m) ls) (asm_run next2 code2 (asm_init m) ls).
  Proof.
    apply (bisim_run next1 next2 code1 code2 Rc).
    - intros c1 c2 H. exact (related_next A ri rj rm real F c1 c2 H).
    - exact whole_code.
    - apply st_rel_init.
  Qed.
  Lemma whole_run ls m s h : asm_run next2 code2 (asm_init m) ls = Some (s, h) ->
    exists s1, asm_run next1 code1 (asm_init m) ls = Some (s1, h) /\ amem s1 = amem s /\ st_rel Rc s1 s.
  Proof.
    intros E. pose proof (whole_same ls m) as H. rewrite E in H.
    destruct (asm_run next1 code1 (asm_init m) ls) as [[s1 h1]|]; [|contradiction]. destruct H as [H ->].
    exists s1. refine (conj eq_refl (conj _ H)). apply H.
  Qed.
  Lemma whole_step s1 s l : st_rel Rc s1 s -> out_rel Rc (asm_step next1 code1 s1 l) (asm_step next2 code2 s l).
  Proof.
    apply (bisim_step next1 next2 code1 code2 Rc).
    - intros c1 c2 H. exact (related_next A ri rj rm real F c1 c2 H).
    - exact whole_code.
  Qed.
  Lemma whole_never_stuck m ls s h t c :
    (forall s1 c1, asm_run next1 code1 (asm_init m) ls = Some (s1, h) -> athr s1 t = Some c1 ->
       forall sp, exists s' e, asm_step next1 code1 s1 (mk_label t None sp) = Some (s', e)) ->
    asm_run next2 code2 (asm_init m) ls = Some (s, h) -> athr s t = Some c ->
    forall sp, exists s' e, asm_step next2 code2 s (mk_label t None sp) = Some (s', e).
  Proof.
    intros NS E T sp. destruct (whole_run ls m s h E) as (s1 & E1 & _ & ST).
    pose proof ST as (_ & _ & TT). specialize (TT t). rewrite T in TT. destruct (athr s1 t) as [c1|] eqn:T1; [|contradiction].
    destruct (NS s1 c1 E1 T1 sp) as (s' & e & X). pose proof (whole_step s1 s (mk_label t None sp) ST) as Y. rewrite X in Y.
    destruct (asm_step next2 code2 s (mk_label t None sp)) as [[s2 e2]|]; [eauto|contradiction].
  Qed.
  (** registers that hold no output keep their values *)
  Lemma whole_keeps a o c c' : code2 a o = Some c -> steps next2 c c' ->
    forall n, (forall r p, In (r, p) (ops a o) -> is_output p = true -> where_is (asg a o) r <> n) -> pfile c' n = file0 (asg a o) n.
  Proof.
    intros E ST n H. unfold real_code in E. destruct (code1 a o) as [k|] eqn:K; [|discriminate]. injection E as <-.
    pose proof (HC _ a o k K) as C.
    destruct (check_keeps A ri rj rm real F (ops a o) realb (bprog k) C _ _ ST eq_refl) as (_ & _ & X). exact (X n H).
  Qed.
End Whole.
