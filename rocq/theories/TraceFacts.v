(** * Summary of an event sequence, and what it implies (proofs for C31) *)
From Coq Require Import ZArith List Bool Relations Lia.
From Verif Require Import Words Spec WideSpec TraceSpec.
Import ListNotations.

Inductive lvl := L0 | L1 | L2.
Definition lvl_eqb (a b : lvl) : bool := match a, b with L0, L0 | L1, L1 | L2, L2 => true | _, _ => false end.
(** [lo], [hi]: is the last read of that half still unordered with what follows?  [L2]: unless isync follows.
    [wb]: a write that may overtake what precedes.  [w]: a write not yet fenced from later reads ([L1]: but a release).
    [lr], [hr]: was the last read of that half fenced from earlier writes?  ([L1]: RCsc) *)
Record sum := mk_sum { lo : lvl; hi : lvl; relf : bool; wb : bool; w : lvl; lf : bool; asc : bool; lr : lvl; hr : lvl }.
Definition sum0 : sum := mk_sum L0 L0 false false L0 false false L0 L0.
Definition is_asc (a : acq) : bool := match a with ASc => true | _ => false end.
Definition is_none (a : acq) : bool := match a with ANone => true | _ => false end.
Definition absorb (tso : bool) (s : sum) (e : ev) : sum :=
  match e with
  | Rd l h a =>
    let q := if tso || negb (is_none a) then L0 else L1 in
    let r := if lf s then L0 else if asc s || is_asc a then L1 else L2 in
    mk_sum (if l then q else lo s) (if h then q else hi s) (relf s) (wb s) (w s) (lf s) (asc s || is_asc a)
      (if l then r else lr s) (if h then r else hr s)
  | Wr b => mk_sum (lo s) (hi s) (relf s) (wb s || negb (tso || b || relf s))
              (if b then match w s with L2 => L2 | _ => L1 end else L2) (lf s) (asc s) (lr s) (hr s)
  | Fence rr rw wr ww =>
    mk_sum (if rr && rw then L0 else lo s) (if rr && rw then L0 else hi s) (relf s || (rw && ww)) (wb s)
      (if wr then L0 else w s) (lf s || wr) (asc s) (lr s) (hr s)
  | Branch => let up x := match x with L1 => L2 | x => x end in
              mk_sum (up (lo s)) (up (hi s)) (relf s) (wb s) (w s) (lf s) (asc s) (lr s) (hr s)
  | Isync => let up x := match x with L2 => L0 | x => x end in
             mk_sum (up (lo s)) (up (hi s)) (relf s) (wb s) (w s) (lf s) (asc s) (lr s) (hr s)
  end.
Definition absorbs (tso : bool) (s : sum) (tr : list ev) : sum := fold_left (absorb tso) tr s.
Definition summary (tso : bool) (tr : list ev) : sum := absorbs tso sum0 tr.
Lemma absorbs_app tso s a b : absorbs tso s (a ++ b) = absorbs tso (absorbs tso s a) b.
Proof. apply fold_left_app. Qed.

(** ** Positions *)
Lemma at_l {A} (a b : list A) i e : nth_error a i = Some e -> nth_error (a ++ b) i = Some e.
Proof. intros Q. rewrite nth_error_app1; [exact Q|]. apply nth_error_Some. congruence. Qed.
Lemma at_r {A} (a b : list A) i e : nth_error b i = Some e -> nth_error (a ++ b) (length a + i) = Some e.
Proof. intros Q. rewrite nth_error_app2 by lia. replace (length a + i - length a)%nat with i by lia. exact Q. Qed.
Lemma at_lt {A} (a : list A) i e : nth_error a i = Some e -> (i < length a)%nat.
Proof. intros Q. apply nth_error_Some. congruence. Qed.
Lemma at_split {A} (tr : list A) i e : nth_error tr i = Some e ->
  exists p q, tr = p ++ e :: q /\ length p = i.
Proof. apply nth_error_split. Qed.
Lemma at_in {A} (a : list A) e : In e a -> exists i, (i < length a)%nat /\ nth_error a i = Some e.
Proof. intros Q. destruct (In_nth_error _ _ Q) as [i Qi]. exists i. split; [eapply at_lt; eauto|exact Qi]. Qed.

(** ** What the fields of the summary say *)
Definition no_half (h : bool) (q : list ev) : Prop :=
  forall j l' h' a', nth_error q j = Some (Rd l' h' a') -> (if h then h' else l') = false.
Definition sel (h : bool) (s : sum) : lvl := if h then hi s else lo s.
Definition rsel (h : bool) (s : sum) : lvl := if h then hr s else lr s.
Lemma no_half_tl h e q : no_half h (e :: q) -> no_half h q.
Proof. intros Q j. exact (Q (S j)). Qed.
Lemma sel_tail tso h q : no_half h q -> forall s, sel h (absorbs tso s q) = L0 ->
  sel h s = L0 \/ (exists k wr ww, nth_error q k = Some (Fence true true wr ww)) \/
  (sel h s = L2 /\ exists k, nth_error q k = Some Isync) \/
  (exists k l, (k < l)%nat /\ nth_error q k = Some Branch /\ nth_error q l = Some Isync).
Proof.
  induction q as [|e q IH]; intros N s Q; [left; exact Q|].
  specialize (IH (no_half_tl _ _ _ N) (absorb tso s e) Q).
  destruct IH as [IH|[(k & wr & ww & K)|[[IH [k K]]|(k & l & G & K & L)]]].
  2: { right. left. exists (S k), wr, ww. exact K. }
  3: { right. right. right. exists (S k), (S l). repeat split; [lia|exact K|exact L]. }
  - destruct e as [l' h' a|b|rr rw wr ww| |]; cbn in IH.
    + specialize (N 0%nat l' h' a eq_refl). left. destruct h; cbn in *; rewrite N in IH; exact IH.
    + left. destruct h; exact IH.
    + destruct rr, rw; try (left; destruct h; exact IH).
      right. left. exists 0%nat, wr, ww. reflexivity.
    + left. destruct h; cbn in *; [destruct (hi s)|destruct (lo s)]; congruence.
    + destruct (sel h s) eqn:S1; [left; reflexivity| |].
      * exfalso. destruct h; cbn in *; rewrite S1 in IH; discriminate.
      * right. right. left. split; [reflexivity|]. exists 0%nat. reflexivity.
  - destruct e as [l' h' a|b|rr rw wr ww| |]; cbn in IH.
    + specialize (N 0%nat l' h' a eq_refl). right. right. left.
      split; [destruct h; cbn in *; rewrite N in IH; exact IH|exists (S k); exact K].
    + right. right. left. split; [destruct h; exact IH|exists (S k); exact K].
    + right. right. left. destruct rr, rw; (split; [destruct h; cbn in *; congruence|exists (S k); exact K]).
    + right. right. right. exists 0%nat, (S k). repeat split; [lia|exact K].
    + right. right. left. split; [|exists (S k); exact K].
      destruct h; cbn in *; [destruct (hi s)|destruct (lo s)]; congruence.
Qed.
Lemma rsel_tail tso h q : no_half h q -> forall s, rsel h (absorbs tso s q) = rsel h s.
Proof.
  induction q as [|e q IH]; intros N s; [reflexivity|].
  cbn. change (rsel h (absorbs tso (absorb tso s e) q) = rsel h s). rewrite (IH (no_half_tl _ _ _ N)).
  destruct e as [l' h' a|b|rr rw wr ww| |]; cbn; try (destruct h; reflexivity).
  specialize (N 0%nat l' h' a eq_refl). destruct h; cbn in *; rewrite N; reflexivity.
Qed.
Lemma relf_in tso p : forall s, relf (absorbs tso s p) = true ->
  relf s = true \/ exists k rr wr, nth_error p k = Some (Fence rr true wr true).
Proof.
  induction p as [|e p IH]; intros s Q; [left; exact Q|].
  destruct (IH _ Q) as [Q1|(k & rr & wr & K)]; [|right; exists (S k), rr, wr; exact K].
  destruct e as [l' h' a|b|rr rw wr ww| |]; cbn in Q1; try (left; exact Q1).
  destruct (relf s); [left; reflexivity|]. destruct rw, ww; try discriminate. right. exists 0%nat, rr, wr. reflexivity.
Qed.
Lemma lf_in tso p : forall s, lf (absorbs tso s p) = true ->
  lf s = true \/ exists k rr rw ww, nth_error p k = Some (Fence rr rw true ww).
Proof.
  induction p as [|e p IH]; intros s Q; [left; exact Q|].
  destruct (IH _ Q) as [Q1|(k & rr & rw & ww & K)]; [|right; exists (S k), rr, rw, ww; exact K].
  destruct e as [l' h' a|b|rr rw wr ww| |]; cbn in Q1; try (left; exact Q1).
  destruct (lf s); [left; reflexivity|]. destruct wr; try discriminate. right. exists 0%nat, rr, rw, ww. reflexivity.
Qed.
Lemma asc_in tso p : forall s, asc (absorbs tso s p) = true ->
  asc s = true \/ exists k l h, nth_error p k = Some (Rd l h ASc).
Proof.
  induction p as [|e p IH]; intros s Q; [left; exact Q|].
  destruct (IH _ Q) as [Q1|(k & l & h & K)]; [|right; exists (S k), l, h; exact K].
  destruct e as [l' h' a|b|rr rw wr ww| |]; cbn in Q1; try (left; exact Q1).
  destruct (asc s); [left; reflexivity|]. destruct a; try discriminate. right. exists 0%nat, l', h'. reflexivity.
Qed.
Lemma wb_mono tso q : forall s, wb (absorbs tso s q) = false -> wb s = false.
Proof.
  induction q as [|e q IH]; intros s Q; [exact Q|]. specialize (IH _ Q).
  destruct e; cbn in IH; try exact IH. apply orb_false_iff in IH. apply IH.
Qed.
Lemma w_tail tso q : forall s, 
  (w (absorbs tso s q) = L0 -> w s = L0 \/ exists k rr rw ww, nth_error q k = Some (Fence rr rw true ww)) /\
  (w (absorbs tso s q) <> L2 -> w s <> L2 \/ exists k rr rw ww, nth_error q k = Some (Fence rr rw true ww)).
Proof.
  induction q as [|e q IH]; intros s; [split; intros Q; left; exact Q|].
  destruct (IH (absorb tso s e)) as [I1 I2].
  assert (K : forall P : Prop, (P \/ exists k rr rw ww, nth_error q k = Some (Fence rr rw true ww)) ->
    P \/ exists k rr rw ww, nth_error (e :: q) k = Some (Fence rr rw true ww)).
  { intros P [Q|(k & rr & rw & ww & K)]; [left; exact Q|right; exists (S k), rr, rw, ww; exact K]. }
  split; intros Q.
  - destruct (K _ (I1 Q)) as [Q1|Q1]; [|right; exact Q1].
    destruct e as [l' h' a|b|rr rw wr ww| |]; cbn in Q1; try (left; exact Q1).
    + destruct b, (w s); discriminate.
    + destruct wr; [right; exists 0%nat, rr, rw, ww; reflexivity|left; exact Q1].
  - destruct (K _ (I2 Q)) as [Q1|Q1]; [|right; exact Q1].
    destruct e as [l' h' a|b|rr rw wr ww| |]; cbn in Q1; try (left; exact Q1).
    + left. destruct b; [|congruence]. destruct (w s); congruence.
    + destruct wr; [right; exists 0%nat, rr, rw, ww; reflexivity|left; exact Q1].
Qed.

(** ** Soundness *)
Lemma final_split tr i : final_read tr i -> exists h p l' h' a q,
  tr = p ++ Rd l' h' a :: q /\ length p = i /\ (if h : bool then h' else l') = true /\ no_half h q.
Proof.
  intros (l' & h' & a & E & Q). destruct (at_split _ _ _ E) as (p & q & -> & Lp).
  assert (N : forall j l2 h2 a2, nth_error q j = Some (Rd l2 h2 a2) -> nth_error (p ++ Rd l' h' a :: q) (length p + (1 + j)) = Some (Rd l2 h2 a2)).
  { intros j l2 h2 a2 J. apply at_r. exact J. }
  destruct Q as [[Ql Q]|[Qh Q]].
  - exists false, p, l', h', a, q. repeat split; auto. intros j l2 h2 a2 J.
    apply (Q (length p + (1 + j))%nat l2 h2 a2); [lia|apply N; exact J].
  - exists true, p, l', h', a, q. repeat split; auto. intros j l2 h2 a2 J.
    apply (Q (length p + (1 + j))%nat l2 h2 a2); [lia|apply N; exact J].
Qed.
Definition acq_ok (s : sum) : bool := lvl_eqb (lo s) L0 && lvl_eqb (hi s) L0.
Definition rel_ok (s : sum) : bool := negb (wb s).
Lemma lvl_eqb_eq a b : lvl_eqb a b = true -> a = b.
Proof. destruct a, b; cbn; intros Q; first [reflexivity | discriminate Q]. Qed.
Lemma acq_sel s h : acq_ok s = true -> sel h s = L0.
Proof. unfold acq_ok. intros Q. apply andb_true_iff in Q. destruct Q as [Q1 Q2]. apply lvl_eqb_eq in Q1, Q2. destruct h; assumption. Qed.

Theorem acq_sound tso tr : acq_ok (summary tso tr) = true -> acquires tso tr.
Proof.
  intros S pre post i j F (e & Ej & Ae). apply t_step.
  destruct (final_split _ _ F) as (h & p & l' & h' & a & q & -> & Lp & Hh & N).
  apply (acq_sel _ h) in S. unfold summary in S. rewrite absorbs_app in S. cbn in S.
  change (fold_left (absorb tso) q ?s) with (absorbs tso s q) in S.
  set (tr := p ++ Rd l' h' a :: q) in *.
  assert (Ei : nth_error (pre ++ tr ++ post) (length pre + i) = Some (Rd l' h' a)).
  { apply at_r, at_l. subst tr. replace i with (length p + 0)%nat by lia. apply at_r. reflexivity. }
  assert (Ej' : nth_error (pre ++ tr ++ post) (length pre + length tr + j) = Some e).
  { rewrite <- Nat.add_assoc. apply at_r, at_r. exact Ej. }
  assert (Lt : (i < length tr)%nat) by (subst tr; rewrite app_length; cbn; lia).
  assert (Eq' : forall k x, nth_error q k = Some x -> nth_error (pre ++ tr ++ post) (length pre + (i + (1 + k))) = Some x /\ (i + (1 + k) < length tr)%nat).
  { intros k x K. split.
    - apply at_r, at_l. subst tr. rewrite <- Lp. apply at_r. exact K.
    - subst tr. rewrite app_length. cbn. pose proof (at_lt _ _ _ K). lia. }
  destruct (sel_tail _ _ _ N _ S) as [S1|[(k & wr & ww & K)|[[S1 [k K]]|(k & l & G & K & L)]]].
  - assert (Q : tso = true \/ a <> ANone).
    { destruct tso; [left; reflexivity|right]. intros ->. destruct h; cbn in *; rewrite Hh in S1; discriminate. }
    destruct Q as [Q|Q].
    + eapply ppo_tso; eauto; [lia|]. discriminate.
    + eapply ppo_acquire; eauto. lia.
  - destruct (Eq' _ _ K) as [K' Lk]. eapply ppo_fence with (k := (length pre + (i + (1 + k)))%nat); eauto; [lia|].
    destruct e; try discriminate; reflexivity.
  - exfalso. destruct h; cbn in S1; rewrite Hh in S1; destruct (tso || _); discriminate.
  - destruct (Eq' _ _ K) as [K' Lk]. destruct (Eq' _ _ L) as [L' Ll].
    eapply ppo_isync with (k := (length pre + (i + (1 + k)))%nat) (l := (length pre + (i + (1 + l)))%nat); eauto; lia.
Qed.

Theorem rel_sound tso tr : rel_ok (summary tso tr) = true -> releases tso tr.
Proof.
  intros S pre post i j (e & Ei & Ae) (b & Eb). apply t_step.
  destruct (at_split _ _ _ Eb) as (p & q & -> & Lp).
  unfold rel_ok, summary in S. rewrite absorbs_app in S. apply negb_true_iff in S.
  change (wb (absorbs tso (absorb tso (absorbs tso sum0 p) (Wr b)) q) = false) in S. apply wb_mono in S. cbn in S.
  apply orb_false_iff in S. destruct S as [_ S]. apply negb_false_iff in S.
  set (tr := p ++ Wr b :: q) in *.
  assert (Ei' : nth_error (pre ++ tr ++ post) i = Some e) by (apply at_l; exact Ei).
  assert (Ej : nth_error (pre ++ tr ++ post) (length pre + j) = Some (Wr b)) by (apply at_r, at_l; exact Eb).
  pose proof (at_lt _ _ _ Ei) as Li.
  destruct tso. { eapply ppo_tso; eauto. lia. }
  destruct b. { eapply ppo_release; eauto. lia. }
  cbn in S. destruct (relf_in _ _ _ S) as [Q|(k & rr & wr & K)]; [discriminate|].
  pose proof (at_lt _ _ _ K) as Lk.
  eapply ppo_fence with (k := (length pre + k)%nat); eauto; [lia| |].
  - apply at_r, at_l. subst tr. apply at_l. exact K.
  - destruct e; try discriminate; cbn; rewrite ?andb_true_r, ?orb_true_r; reflexivity.
Qed.

Definition wr_ok (s1 s2 : sum) : bool :=
  let ok r := match w s1, r with L0, _ | _, L0 | L1, L1 => true | _, _ => false end in ok (lr s2) && ok (hr s2).
Lemma wr_rsel s1 s2 h : wr_ok s1 s2 = true ->
  w s1 = L0 \/ rsel h s2 = L0 \/ (w s1 <> L2 /\ rsel h s2 <> L2).
Proof.
  unfold wr_ok. intros Q. apply andb_true_iff in Q. destruct Q as [Q1 Q2].
  destruct h; cbn; [clear Q1; destruct (w s1), (hr s2)|clear Q2; destruct (w s1), (lr s2)]; cbn in *; try discriminate; auto;
    right; right; split; discriminate.
Qed.
Theorem sc_sound tso tr1 tr2 : acq_ok (summary tso tr1) = true -> rel_ok (summary tso tr2) = true ->
  wr_ok (summary tso tr1) (summary tso tr2) = true -> stay_in_order tso tr1 tr2.
Proof.
  intros S1 S2 S3 pre mid post i j O1 O2.
  assert (A2 : access_at (mid ++ tr2 ++ post) (length mid + j)).
  { destruct O2 as [(l' & h' & a & E & _)|(b & E)]; eexists; (split; [apply at_r, at_l; exact E|reflexivity]). }
  destruct O1 as [F1|W1].
  { pose proof (acq_sound _ _ S1 pre (mid ++ tr2 ++ post) i (length mid + j)%nat F1 A2) as Q.
    rewrite Nat.add_assoc in Q. exact Q. }
  destruct O2 as [F2|W2].
  2: { assert (A1 : access_at (pre ++ tr1 ++ mid) (length pre + i)).
       { destruct W1 as (b & E). exists (Wr b). split; [apply at_r, at_l; exact E|reflexivity]. }
       pose proof (rel_sound _ _ S2 (pre ++ tr1 ++ mid) post _ j A1 W2) as Q.
       rewrite !app_length, <- !app_assoc in Q. rewrite Nat.add_assoc in Q. exact Q. }
  destruct W1 as (b & E1). destruct (at_split _ _ _ E1) as (p1 & q1 & D1 & L1').
  destruct (final_split _ _ F2) as (h & p2 & l' & h' & a & q2 & D2 & L2' & Hh & N).
  apply (wr_rsel _ _ h) in S3.
  set (T := pre ++ tr1 ++ mid ++ tr2 ++ post).
  assert (X1 : forall k x, nth_error tr1 k = Some x -> nth_error T (length pre + k) = Some x).
  { intros k x K. apply at_r, at_l. exact K. }
  assert (X2 : forall k x, nth_error tr2 k = Some x -> nth_error T (length pre + length tr1 + length mid + k) = Some x).
  { intros k x K. rewrite <- !Nat.add_assoc. apply at_r, at_r, at_r, at_l. exact K. }
  assert (Ti : nth_error T (length pre + i) = Some (Wr b)) by (apply X1; exact E1).
  assert (E2 : nth_error tr2 j = Some (Rd l' h' a)).
  { rewrite D2. replace j with (length p2 + 0)%nat by lia. apply at_r. reflexivity. }
  pose proof (X2 _ _ E2) as Tj.
  pose proof (at_lt _ _ _ E1) as Li.
  assert (Fq : forall k rr rw ww, nth_error q1 k = Some (Fence rr rw true ww) ->
    ordered tso T (length pre + i) (length pre + length tr1 + length mid + j)).
  { intros k rr rw ww K. apply t_step.
    assert (K' : nth_error tr1 (i + (1 + k)) = Some (Fence rr rw true ww)).
    { rewrite D1, <- L1'. apply at_r. exact K. }
    pose proof (at_lt _ _ _ K') as Lk.
    eapply ppo_fence with (k := (length pre + (i + (1 + k)))%nat); [lia|exact Ti|apply X1; exact K'|exact Tj|].
    cbn. rewrite ?orb_true_r. reflexivity. }
  assert (Fp : forall k rr rw ww, nth_error p2 k = Some (Fence rr rw true ww) ->
    ordered tso T (length pre + i) (length pre + length tr1 + length mid + j)).
  { intros k rr rw ww K. apply t_step. pose proof (at_lt _ _ _ K) as Lk.
    assert (K' : nth_error tr2 k = Some (Fence rr rw true ww)) by (rewrite D2; apply at_l; exact K).
    eapply ppo_fence with (k := (length pre + length tr1 + length mid + k)%nat);
      [lia|exact Ti|apply X2; exact K'|exact Tj|].
    cbn. rewrite ?orb_true_r. reflexivity. }
  assert (Ww : w (summary tso tr1) = w (absorbs tso (absorb tso (absorbs tso sum0 p1) (Wr b)) q1)).
  { rewrite D1. unfold summary. rewrite absorbs_app. reflexivity. }
  assert (Rr : rsel h (summary tso tr2) = if lf (absorbs tso sum0 p2) then L0
     else if asc (absorbs tso sum0 p2) || is_asc a then L1 else L2).
  { rewrite D2. unfold summary. rewrite absorbs_app. cbn.
    change (fold_left (absorb tso) q2 ?s) with (absorbs tso s q2). rewrite rsel_tail by exact N.
    destruct h; cbn in *; rewrite Hh; reflexivity. }
  rewrite Ww, Rr in S3.
  destruct (w_tail tso q1 (absorb tso (absorbs tso sum0 p1) (Wr b))) as [T0 T2].
  destruct S3 as [S3|[S3|[S3 S4]]].
  - destruct (T0 S3) as [Q|(k & rr & rw & ww & K)]; [|eapply Fq; exact K].
    exfalso. cbn in Q. destruct b; [destruct (w (absorbs tso sum0 p1))|]; discriminate.
  - destruct (lf (absorbs tso sum0 p2)) eqn:LF.
    + destruct (lf_in _ _ _ LF) as [Q|(k & rr & rw & ww & K)]; [discriminate|eapply Fp; exact K].
    + destruct (_ || _); discriminate.
  - destruct (lf (absorbs tso sum0 p2)) eqn:LF.
    { destruct (lf_in _ _ _ LF) as [Q|(k & rr & rw & ww & K)]; [discriminate|eapply Fp; exact K]. }
    destruct (T2 S3) as [Q|(k & rr & rw & ww & K)]; [|eapply Fq; exact K].
    cbn in Q. destruct b; [|congruence].
    destruct (asc (absorbs tso sum0 p2)) eqn:AS.
    + destruct (asc_in _ _ _ AS) as [Q1|(k & l2 & h2 & K)]; [discriminate|].
      pose proof (at_lt _ _ _ K) as Lk.
      assert (K' : nth_error tr2 k = Some (Rd l2 h2 ASc)) by (rewrite D2; apply at_l; exact K).
      eapply t_trans; apply t_step.
      * eapply ppo_rcsc with (j := (length pre + length tr1 + length mid + k)%nat); [lia|exact Ti|apply X2; exact K'].
      * eapply ppo_acquire; [|apply X2; exact K'| |exact Tj|reflexivity]; [lia|discriminate].
    + destruct a; cbn in S4; try congruence. apply t_step. eapply ppo_rcsc; [|exact Ti|exact Tj]. lia.
Qed.
