(** Simulation up to register instructions. *)
From Coq Require Import ZArith List Bool Lia PeanoNat.
From Verif Require Import Words Spec WordsFacts LoopModel LoopProofs AsmModel AsmProofs BlockModel.
Import ListNotations.
Open Scope Z_scope.

Section UpTo.
  Context {C Op Res : Type}.
  Variable next : C -> action C Res.
  Variable width : Z -> Z.

  Inductive lstar : C -> C -> Prop :=
  | ls_refl c : lstar c c
  | ls_step c c1 c2 : next c = ALocal c1 -> lstar c1 c2 -> lstar c c2.
  Lemma ls_trans c1 c2 c3 : lstar c1 c2 -> lstar c2 c3 -> lstar c1 c3.
  Proof. induction 1; auto. intros. eapply ls_step; eauto. Qed.
  Lemma ls_one c c1 : next c = ALocal c1 -> lstar c c1.
  Proof. intros. eapply ls_step; eauto. constructor. Qed.

  Definition up (R : C -> pc Op Res -> Prop) (c : C) (p : pc Op Res) : Prop :=
    exists c', lstar c c' /\ R c' p.
  Lemma up_refl (R : C -> pc Op Res -> Prop) c p : R c p -> up R c p.
  Proof. intros. exists c. split; [constructor|auto]. Qed.
  Lemma up_step (R : C -> pc Op Res -> Prop) c c1 p : lstar c c1 -> up R c1 p -> up R c p.
  Proof. intros H (c' & H1 & H2). exists c'. split; auto. eapply ls_trans; eauto. Qed.

  Lemma settle_up (R' : C -> pc Op Res -> Prop) c c' p : lstar c c' -> settle next width R' c' p -> settle next width R' c p.
  Proof. induction 1; auto. intros. eapply st_local; [eassumption|constructor|auto]. Qed.
  Lemma refines_upto (R : C -> pc Op Res -> Prop) a o c i :
    up R c (Begin a o i) -> (forall c p, R c p -> settle next width (up R) c p) ->
    refines next width a o c i.
  Proof.
    intros H1 H2. assert (K : forall c p, up R c p -> settle next width (up R) c p).
    { intros c1 p (c' & L & HR). apply (settle_up (up R)) with (c' := c'); auto. }
    exists (up R). auto.
  Qed.
  (** A relation that covers the register instructions one by one, with a measure that they decrease. *)
  Lemma refines_measured (R : C -> pc Op Res -> Prop) (mu : C -> nat) a o c i :
    R c (Begin a o i) ->
    (forall c p, R c p -> match next c with
       | ALocal c' => exists q, locals p q /\ R c' q /\ (mu c' < mu c)%nat
       | _ => act next width R c p
       end) ->
    refines next width a o c i.
  Proof.
    intros H0 H. assert (K : forall n c p, (mu c < n)%nat -> R c p -> settle next width R c p).
    { induction n as [|n IH]; [lia|]. intros c1 p L HR. specialize (H c1 p HR).
      destruct (next c1) eqn:E; try (now apply st_act). destruct H as (q & L1 & R1 & M1).
      eapply st_local; [exact E|exact L1|]. apply IH; [lia|exact R1]. }
    exists R. split; [apply (K (S (mu c))); [lia|exact H0]|]. intros c1 p HR. apply (K (S (mu c1))); [lia|exact HR].
  Qed.
End UpTo.

Section Blocks.
  Context {I J M S Op Res : Type}.
  Variable exec1 : I -> S -> S.
  Variable test : J -> S -> bool.
  Variable access : M -> S -> action S Res.
  Local Notation bnext := (bnext exec1 test access).

  (** Running a stretch of register instructions. *)
  Lemma run_body (pre : list (binstr I J M)) p post s rt n m :
    n = length pre -> m = (n + length p)%nat ->
    lstar bnext (mk_bconf (pre ++ map BI p ++ post) n s rt)
                (mk_bconf (pre ++ map BI p ++ post) m (bexec exec1 p s) rt).
  Proof.
    intros -> ->. revert pre s. induction p as [|i p IH]; intros pre s; cbn [map app length bexec].
    - rewrite Nat.add_0_r. constructor.
    - eapply ls_step.
      + unfold BlockModel.bnext. cbn [bprog bpos bst bret].
        rewrite nth_error_app2, Nat.sub_diag by lia. cbn [nth_error]. reflexivity.
      + unfold bgoto. cbn [bprog bret].
        specialize (IH (pre ++ [BI i]) (exec1 i s)). rewrite <- !app_assoc in IH. cbn [app] in IH.
        rewrite app_length in IH. cbn [length] in IH.
        replace (1 + length pre)%nat with (length pre + 1)%nat by lia.
        replace (length pre + Datatypes.S (length p))%nat with (length pre + 1 + length p)%nat by lia. exact IH.
  Qed.

  Lemma nth_pre (pre : list (binstr I J M)) p post k m :
    k = (length pre + length p)%nat -> nth_error (pre ++ map BI p ++ post) (k + m) = nth_error post m.
  Proof.
    intros ->. rewrite app_assoc, nth_error_app2; rewrite app_length, map_length; [f_equal; lia|lia].
  Qed.
End Blocks.

(** A property of configurations before the only memory access, and of those after it. *)
Section Straight.
  Context {C Op Res : Type}.
  Variable next : C -> action C Res.
  Variable width : Z -> Z.
  (** The block reaches one atomic access after register instructions and returns after more. *)
  Lemma single_refines a (o : Op) (c c1 : C) f g kont :
    lstar next c c1 -> next c1 = AAtomic a g kont ->
    (forall sp x, LoopProofs.inr width a x -> fst (g sp x) = fst (f sp x) /\
       (forall y, fst (g sp x) = Some y -> LoopProofs.inr width a y) /\
       exists c2, lstar next (kont (snd (g sp x))) c2 /\ next c2 = ADone (snd (f sp x))) ->
    refines (Op := Op) next width a o c (Direct f).
  Proof.
    intros L N H.
    apply (refines_upto next width (fun c p => (p = Begin a o (Direct f) /\ c = c1) \/ exists r, p = Fin r /\ next c = ADone r)).
    - exists c1. auto.
    - intros c' p [[-> ->]|[r [-> E]]]; apply st_act; unfold act.
      + rewrite N. left. exists o, f. split; [constructor|]. intros sp x Hx.
        destruct (H sp x Hx) as (H1 & H2 & c2 & L2 & E2). split; [exact H1|]. split; [exact H2|].
        exists c2. split; auto. right. exists (snd (f sp x)). split; auto.
      + rewrite E. constructor.
  Qed.

  (** Likewise when the access is one untorn load of the whole variable. *)
  Lemma single_read_refines a (o : Op) (c c1 : C) f kont :
    lstar next c c1 -> next c1 = ARead a (width a) 0 kont ->
    (forall sp x, LoopProofs.inr width a x -> fst (f sp x) = None /\
       exists c2, lstar next (kont x) c2 /\ next c2 = ADone (snd (f sp x))) ->
    refines (Op := Op) next width a o c (Direct f).
  Proof.
    intros L N H.
    apply (refines_upto next width (fun c p => (p = Begin a o (Direct f) /\ c = c1) \/ exists r, p = Fin r /\ next c = ADone r)).
    - exists c1. auto.
    - intros c' p [[-> ->]|[r [-> E]]]; apply st_act; unfold act.
      + rewrite N. right. exists o, f. split; [constructor|]. split; [reflexivity|]. split; [reflexivity|].
        intros sp x Hx. destruct (H sp x Hx) as (H1 & c2 & L2 & E2). split; [exact H1|].
        exists c2. split; auto. right. exists (snd (f sp x)). split; auto.
      + rewrite E. constructor.
  Qed.

  (** A load whose result is not used may come before anything. *)
  Lemma stutter_refines a (o : Op) (c c1 : C) b k p kont i :
    lstar next c c1 -> next c1 = ARead b k p kont -> 0 <= k ->
    (forall v, 0 <= v < 2 ^ k -> refines (Op := Op) next width a o (kont v) i) ->
    refines (Op := Op) next width a o c i.
  Proof.
    intros L N K H.
    apply (refines_upto next width (fun c p => (p = Begin a o i /\ c = c1) \/ similar next width c p)).
    - exists c1. auto.
    - intros c' q [[-> ->]|S].
      + eapply st_read; [exact N|exact K|]. intros v Hv. destruct (H v Hv) as (R & R0 & R1).
        apply settle_mono with (R := similar next width); [|now apply settle_similar with (R := R)].
        intros c'' q' S'. apply up_refl. now right.
      + apply settle_mono with (R := similar next width); [|now apply similar_settle].
        intros c'' q' S'. apply up_refl. now right.
  Qed.
End Straight.

(** Retry loops: the configurations at which memory is accessed. *)
Section Loops.
  Context {C Op Res : Type}.
  Variable next : C -> action C Res.
  Variable width : Z -> Z.
  Variables (a : Z) (o : Op) (c : C) (k : Z) (rs : list nat).
  Hypothesis k0 : 0 <= k.

  Definition reaches (c : C) (P : C -> Prop) : Prop := exists c2, lstar next c c2 /\ P c2.

  Lemma casloop_refines (nxt : Z -> Z) (ok : Z -> Res) (AtRd : nat -> Z -> C -> Prop) (AtTry : Z -> C -> Prop) :
    reaches c (AtRd 0%nat 0) ->
    (forall n acc c, AtRd n acc c -> exists p kont, nth_error rs n = Some p /\ next c = ARead a k p kont /\
       forall v, 0 <= v < 2 ^ k ->
         let acc' := acc + v * 2 ^ (k * Z.of_nat p) in
         reaches (kont v) (if Nat.eqb (S n) (length rs) then AtTry acc' else AtRd (S n) acc')) ->
    (forall g c, AtTry g c -> exists f kont, next c = AAtomic a f kont /\
       forall sp x, LoopProofs.inr width a x ->
         (x = g /\ fst (f sp x) = Some (nxt g) /\ LoopProofs.inr width a (nxt g) /\
            reaches (kont (snd (f sp x))) (fun c => next c = ADone (ok g))) \/
         ((x <> g \/ sp = true) /\ fst (f sp x) = None /\ reaches (kont (snd (f sp x))) (AtTry x))) ->
    refines (Op := Op) next width a o c (CasLoop k rs false (fun _ g => Some (nxt g)) ok ok).
  Proof.
    intros (c1 & L1 & H1) HR HT. set (i := CasLoop k rs false (fun _ g => Some (nxt g)) ok ok).
    apply (refines_upto next width (fun c p =>
      (p = Begin a o i /\ AtRd 0%nat 0 c) \/ (exists n acc hist, p = Rd a o i hist n acc /\ AtRd n acc c) \/
      (exists g hist, p = Try a o i hist g /\ AtTry g c) \/ exists g, p = Fin (ok g) /\ next c = ADone (ok g))).
    - exists c1. auto.
    - assert (KR : forall c p n acc hist, AtRd n acc c -> locals p (Rd a o i hist n acc) -> settle next width
        (up next (fun c p =>
      (p = Begin a o i /\ AtRd 0%nat 0 c) \/ (exists n acc hist, p = Rd a o i hist n acc /\ AtRd n acc c) \/
      (exists g hist, p = Try a o i hist g /\ AtTry g c) \/ exists g, p = Fin (ok g) /\ next c = ADone (ok g))) c p).
      { intros c' p n acc hist H L. destruct (HR n acc c' H) as (q & kont & E1 & E2 & E3). apply st_act; unfold act. rewrite E2. left.
        exists o, i, hist, n, acc. split; [exact L|]. split; [reflexivity|]. split; [reflexivity|]. split; [exact k0|].
        split; [exact E1|]. intros v Hv. destruct (E3 v Hv) as (c2 & L2 & X2). exists c2. split; [exact L2|].
        unfold after_rd. cbn [impl_reads snd i]. destruct (Nat.eqb (S n) (length rs)); eauto 9. }
      intros c' p [[-> H]|[(n & acc & hist & -> & H)|[(g & hist & -> & H)|(g & -> & H)]]].
      + apply (KR _ _ 0%nat 0 []); auto. eapply l_step; [reflexivity|constructor].
      + eapply KR; eauto. constructor.
      + destruct (HT g c' H) as (f & kont & E & HX). apply st_act; unfold act. rewrite E. right.
        exists o, k, rs, false, (fun _ g => Some (nxt g)), ok, ok, hist, g, (nxt g). cbn zeta.
        split; [constructor|]. split; [reflexivity|]. intros sp x Hx.
        destruct (HX sp x Hx) as [(-> & X1 & X2 & c2 & L2 & X3)|(X1 & X2 & c2 & L2 & X3)].
        * left. split; [auto|]. split; [auto|]. split; [exact X2|]. exists c2. split; auto. right. right. right. eauto.
        * right. split; [auto|]. split; [auto|]. exists c2. split; auto. right. right. left. eauto.
      + apply st_act; unfold act. rewrite H. constructor.
  Qed.

  (** The same with a closure that may depend on the earlier attempts, may decline, and with
      loops that load the pieces again after a failed attempt. *)
  Lemma casloop_refines_gen (rr : bool) (body : list Z -> Z -> option Z) (ok err : Z -> Res)
      (AtRd : list Z -> nat -> Z -> C -> Prop) (AtTry : list Z -> Z -> C -> Prop) :
    reaches c (AtRd [] 0%nat 0) ->
    (forall hist n acc c, AtRd hist n acc c -> exists p kont, nth_error rs n = Some p /\ next c = ARead a k p kont /\
       forall v, 0 <= v < 2 ^ k ->
         let acc' := acc + v * 2 ^ (k * Z.of_nat p) in
         reaches (kont v) (if Nat.eqb (S n) (length rs) then AtTry hist acc' else AtRd hist (S n) acc')) ->
    (forall hist g c, AtTry hist g c ->
       match body hist g with
       | None => next c = ADone (err g)
       | Some y => exists f kont, next c = AAtomic a f kont /\
         forall sp x, LoopProofs.inr width a x ->
         (x = g /\ fst (f sp x) = Some y /\ LoopProofs.inr width a y /\
            reaches (kont (snd (f sp x))) (fun c => next c = ADone (ok g))) \/
         ((x <> g \/ sp = true) /\ fst (f sp x) = None /\
            reaches (kont (snd (f sp x))) (if rr then AtRd (hist ++ [g]) 0%nat 0 else AtTry (hist ++ [g]) x))
       end) ->
    refines (Op := Op) next width a o c (CasLoop k rs rr body ok err).
  Proof.
    intros (c1 & L1 & H1) HR HT. set (i := CasLoop k rs rr body ok err).
    set (R := fun c p =>
      (p = Begin a o i /\ AtRd [] 0%nat 0 c) \/ (exists n acc hist, p = Rd a o i hist n acc /\ AtRd hist n acc c) \/
      (exists g hist, p = Try a o i hist g /\ AtTry hist g c) \/ exists r, p = Fin r /\ next c = ADone r).
    apply (refines_upto next width R).
    - exists c1. unfold R. auto.
    - assert (KR : forall c p n acc hist, AtRd hist n acc c -> locals p (Rd a o i hist n acc) -> settle next width (up next R) c p).
      { intros c' p n acc hist H L. destruct (HR hist n acc c' H) as (q & kont & E1 & E2 & E3). apply st_act; unfold act. rewrite E2. left.
        exists o, i, hist, n, acc. split; [exact L|]. split; [reflexivity|]. split; [reflexivity|]. split; [exact k0|].
        split; [exact E1|]. intros v Hv. destruct (E3 v Hv) as (c2 & L2 & X2). exists c2. split; [exact L2|].
        unfold after_rd. cbn [impl_reads snd i]. unfold R. destruct (Nat.eqb (S n) (length rs)); eauto 9. }
      intros c' p [[-> H]|[(n & acc & hist & -> & H)|[(g & hist & -> & H)|(r & -> & H)]]].
      + apply (KR _ _ 0%nat 0 []); auto. eapply l_step; [reflexivity|constructor].
      + eapply KR; eauto. constructor.
      + specialize (HT hist g c' H). destruct (body hist g) as [y|] eqn:EB.
        2:{ apply st_act; unfold act. rewrite HT. eapply l_step; [|constructor]. cbn. auto. }
        destruct HT as (f & kont & E & HX). apply st_act; unfold act. rewrite E. right.
        exists o, k, rs, rr, body, ok, err, hist, g, y. cbn zeta.
        split; [constructor|]. split; [exact EB|]. intros sp x Hx.
        destruct (HX sp x Hx) as [(-> & X1 & X2 & c2 & L2 & X3)|(X1 & X2 & c2 & L2 & X3)].
        * left. split; [auto|]. split; [auto|]. split; [exact X2|]. exists c2. split; auto. right. right. right. eauto.
        * right. split; [auto|]. split; [auto|]. exists c2. split; auto. unfold R.
          destruct rr; [right; left; eauto 6|right; right; left; eauto].
      + apply st_act; unfold act. rewrite H. constructor.
  Qed.

  Lemma llsc_refines (body : Z -> option Z) (ok err : Z -> Res) (weak : option (Z -> Res))
      (AtRd : nat -> Z -> C -> Prop) (AtTry : Z -> C -> Prop) :
    reaches c (AtRd 0%nat 0) ->
    (forall n acc c, AtRd n acc c -> exists p kont, nth_error rs n = Some p /\
       next c = ALoadLinked (Nat.eqb n 0) a k p kont /\
       forall v, 0 <= v < 2 ^ k ->
         let acc' := acc + v * 2 ^ (k * Z.of_nat p) in
         reaches (kont v) (if Nat.eqb (S n) (length rs) then AtTry acc' else AtRd (S n) acc')) ->
    (forall g c, AtTry g c ->
       match body g with
       | None => next c = ADone (err g)
       | Some y => exists kont, next c = AStoreCond a y kont /\ LoopProofs.inr width a y /\
           reaches (kont true) (fun c => next c = ADone (ok g)) /\
           reaches (kont false) (match weak with Some w => fun c => next c = ADone (w g) | None => AtRd 0%nat 0 end)
       end) ->
    refines (Op := Op) next width a o c (LlSc k rs body ok err weak).
  Proof.
    intros (c1 & L1 & H1) HR HT. set (i := LlSc k rs body ok err weak).
    set (R := fun c p =>
      (p = Begin a o i /\ AtRd 0%nat 0 c) \/ (exists n acc hist, p = Rd a o i hist n acc /\ AtRd n acc c) \/
      (exists g hist, p = Try a o i hist g /\ AtTry g c) \/ exists r, p = Fin r /\ next c = ADone r).
    apply (refines_upto next width R).
    - exists c1. unfold R. auto.
    - assert (KR : forall c p n acc hist, AtRd n acc c -> locals p (Rd a o i hist n acc) -> settle next width (up next R) c p).
      { intros c' p n acc hist H L. destruct (HR n acc c' H) as (q & kont & E1 & E2 & E3). apply st_act; unfold act. rewrite E2.
        exists o, i, hist, n, acc. split; [exact L|]. split; [reflexivity|]. split; [reflexivity|]. split; [reflexivity|].
        split; [exact k0|]. split; [exact E1|]. intros v Hv. destruct (E3 v Hv) as (c2 & L2 & X2). exists c2. split; [exact L2|].
        unfold after_rd. cbn [impl_reads snd i]. unfold R. destruct (Nat.eqb (S n) (length rs)); eauto 9. }
      intros c' p [[-> H]|[(n & acc & hist & -> & H)|[(g & hist & -> & H)|(r & -> & H)]]].
      + apply (KR _ _ 0%nat 0 []); auto. eapply l_step; [reflexivity|constructor].
      + eapply KR; eauto. constructor.
      + specialize (HT g c' H). destruct (body g) as [y|] eqn:E.
        * destruct HT as (kont & N & Hy & (c2 & L2 & X2) & (c3 & L3 & X3)). apply st_act; unfold act. rewrite N.
          exists o, k, rs, body, ok, err, weak, hist, g. cbn zeta. split; [constructor|]. split; [exact E|]. split; [auto|].
          split.
          { exists c2. split; auto. right. right. right. eauto. }
          { exists c3. split; auto. destruct weak; [right; right; right; eauto|right; left; eauto 6]. }
        * apply st_act; unfold act. rewrite HT. eapply l_step; [|constructor]. cbn. auto.
      + apply st_act; unfold act. rewrite H. constructor.
  Qed.
End Loops.
