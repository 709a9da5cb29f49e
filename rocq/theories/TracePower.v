(** * Every backend meets the requested orderings (proofs for C31) *)
From Coq Require Import ZArith List Bool Lia.
From Verif Require Import Words Spec WideSpec LoopModel AsmModel BlockModel OrderingModel
  TraceSpec TraceModel TraceFacts TraceCheck TraceBackends.
From Verif Require PowerModel PowerProofs S390xModel Aarch64Model X86Model ZacasModel KuserModel.
Import ListNotations.

Definition bb_eqb (a b : bool * bool) : bool := Bool.eqb (fst a) (fst b) && Bool.eqb (snd a) (snd b).
Lemma bb_eqb_eq a b : bb_eqb a b = true -> a = b.
Proof.
  unfold bb_eqb. intros Q. apply andb_true_iff in Q. destruct Q as [Q1 Q2]. apply eqb_prop in Q1, Q2.
  destruct a, b; cbn in *; congruence.
Qed.
Definition bb_all : list (bool * bool) := [(true, true); (true, false); (false, true); (false, false)].
Lemma bb_in x : In x bb_all.
Proof. destruct x as [[] []]; cbn; auto. Qed.

(** ** Power: cr0.EQ, and the bit of it that mfcr put into tmp_lo *)
Module PowerP.
  Import PowerModel.
  Definition ab (s : st) : bool * bool := (EQ (cr0 s), test_cr0_eq (rg s TmpLo)).
  Definition xi (i : instr) (x : bool * bool) : list (bool * bool) :=
    match i with FENCE _ => [x] | MFCR TmpLo => [(fst x, fst x)] | _ => bb_all end.
  Definition xj (j : jump) (x : bool * bool) : option bool := Some (negb (fst x)).
  Definition xm (m : minstr) (w : bool) (x : bool * bool) : list (bool * bool) :=
    match m with STQCX _ _ _ => [(w, snd x)] | _ => bb_all end.
  Lemma xi_ok i s : In (ab (exec1 i s)) (xi i (ab s)).
  Proof.
    destruct i; try apply bb_in; cbn [xi]; [|left; reflexivity].
    destruct d; try apply bb_in. left. unfold ab. cbn [exec1 set1 cr0 rg]. unfold setr. cbn [reg_eqb].
    rewrite PowerProofs.test_cr0_eq_mfcr. reflexivity.
  Qed.
  Lemma xj_ok j s b : xj j (ab s) = Some b -> test j s = b.
  Proof. unfold xj, ab, test. cbn. congruence. Qed.
  Lemma xm_ok : xm_sound access ab xm.
  Proof. intros [] s; cbn; intros; try apply bb_in. left. unfold ab. reflexivity. Qed.
  Definition chk := check Power.ann_i Power.ann_m false bb_eqb bb_all xi xj xm.
  Lemma chk_sound P ok : chk P ok = true -> forall (c : bconf instr jump minstr st res) tr r,
    bprog c = P -> bpos c = 0%nat -> completes (bnext exec1 test access) (block_ann Power.ann_i Power.ann_m) c tr r ->
    exists s, r = bret c s /\ ok (ab s) (summary false tr) = true.
  Proof. apply check_sound; [exact bb_eqb_eq|intros; apply bb_in|exact xi_ok|exact xj_ok|exact xm_ok]. Qed.

  Definition always (ord : ordering) (_ : bool * bool) (s : sum) : bool := meets Lead ord s.
  Definition by_result (succ fail : ordering) (x : bool * bool) (s : sum) : bool :=
    meets Lead (if snd x then succ else fail) s.
  Lemma load_chk ord : match ord with Release | AcqRel => false | _ => true end = true -> chk (load_block ord) (always ord) = true.
  Proof. destruct ord; intros Q; try discriminate Q; vm_compute; reflexivity. Qed.
  Lemma store_chk ord : match ord with Acquire | AcqRel => false | _ => true end = true -> chk (store_block ord) (always ord) = true.
  Proof. destruct ord; intros Q; try discriminate Q; vm_compute; reflexivity. Qed.
  Lemma swap_chk ord : chk (loop_block ord []) (always ord) = true.
  Proof. destruct ord; vm_compute; reflexivity. Qed.
  Lemma loop_chk old t r p ord : body old t r = Some p -> chk (loop_block ord p) (always ord) = true.
  Proof.
    intros E. destruct r; cbn [body] in E; try discriminate E; try destruct old; try destruct (isigned t);
      injection E as <-; destruct ord; vm_compute; reflexivity.
  Qed.
  Lemma cas_chk s f al su re : match f with Release | AcqRel => false | _ => true end = true ->
    cas_fences s f = Some (al, su, re) ->
    chk (cas_block al su re) (by_result s f) = true /\ chk (cas_weak_block al su re) (by_result s f) = true.
  Proof.
    intros Q E. destruct f; try discriminate Q; destruct s; cbn in E; try discriminate E; injection E as <- <- <-;
      (split; vm_compute; reflexivity).
  Qed.
  Lemma power_meets g ty junk o tr r : Power.does g ty junk o tr r -> meets Lead (asked o r) (summary false tr) = true.
  Proof.
    intros (a & c & E & D). unfold code_of in E. set (t := ty a) in *.
    destruct (negb _) eqn:N; [discriminate E|]. apply negb_false_iff in N.
    apply andb_true_iff in N. destruct N as [N _]. apply andb_true_iff in N. destruct N as [N _].
    apply andb_true_iff in N. destruct N as [_ N].
    destruct o as [[ord|v ord|q ord|cu nw sc fl]|cu nw sc fl].
    - cbn in N. injection E as <-.
      destruct ((fun E1 E2 => chk_sound _ _ (load_chk ord N) _ _ _ E1 E2 D) eq_refl eq_refl) as (s & -> & Q). exact Q.
    - cbn in N. apply andb_true_iff in N. destruct N as [_ N]. injection E as <-.
      destruct ((fun E1 E2 => chk_sound _ _ (store_chk ord N) _ _ _ E1 E2 D) eq_refl eq_refl) as (s & -> & Q). exact Q.
    - destruct q as [v|v|v|v|v|v|v| | |v|v].
      1: { injection E as <-. destruct ((fun E1 E2 => chk_sound _ _ (swap_chk ord) _ _ _ E1 E2 D) eq_refl eq_refl) as (s & -> & Q). exact Q. }
      all: match type of E with match ?b with _ => _ end = _ => destruct b as [p|] eqn:Eb; [|discriminate E] end;
        injection E as <-; destruct ((fun E1 E2 => chk_sound _ _ (loop_chk _ _ _ _ ord Eb) _ _ _ E1 E2 D) eq_refl eq_refl) as (s & -> & Q); exact Q.
    - cbn [callable] in N. apply andb_true_iff in N. destruct N as [_ N].
      destruct (cas_fences sc fl) as [[[al su] re]|] eqn:Ef; [|discriminate E]. injection E as <-.
      destruct ((fun E1 E2 => chk_sound _ _ (proj1 (cas_chk _ _ _ _ _ N Ef)) _ _ _ E1 E2 D) eq_refl eq_refl) as (s & -> & Q).
      unfold by_result, ab in Q. cbn [bret snd] in *. destruct (test_cr0_eq (rg s TmpLo)); exact Q.
    - cbn [callable] in N. apply andb_true_iff in N. destruct N as [_ N].
      destruct (cas_fences sc fl) as [[[al su] re]|] eqn:Ef; [|discriminate E]. injection E as <-.
      assert (K : chk ((if static g then cas_weak_block else cas_block) al su re) (by_result sc fl) = true).
      { destruct (cas_chk _ _ _ _ _ N Ef) as [K1 K2]. destruct (static g); [exact K2|exact K1]. }
      destruct ((fun E1 E2 => chk_sound _ _ K _ _ _ E1 E2 D) eq_refl eq_refl) as (s & -> & Q).
      unfold by_result, ab in Q. cbn [bret snd] in *. destruct (test_cr0_eq (rg s TmpLo)); exact Q.
  Qed.

  (** a SeqCst operation starts with sync *)
  Lemma starts_with (c : bconf instr jump minstr st res) tr c' :
    bpos c = 0%nat -> nth_error (bprog c) 0 = Some (BI (FENCE Sync)) ->
    traces (bnext exec1 test access) (block_ann Power.ann_i Power.ann_m) c tr c' ->
    (tr = [] /\ c' = c) \/ exists tr', tr = full :: tr'.
  Proof.
    intros P0 E T. induction T as [|tr c1 es c2 T IH H]; [left; split; reflexivity|]. right.
    destruct IH as [[-> ->]|[tr' ->]]; [|exists (tr' ++ es); reflexivity].
    assert (A : forall b, block_ann Power.ann_i Power.ann_m c b = [full])
      by (intros b; unfold block_ann; rewrite P0, E; reflexivity).
    exists []. inversion H; subst; rewrite A; reflexivity.
  Qed.
  Lemma body_head ord p : ord = SeqCst -> nth_error (loop_block ord p) 0 = Some (BI (FENCE Sync)).
  Proof. intros ->. reflexivity. Qed.
  Lemma cas_head sc fl al su re (b : bool) : cas_fences sc fl = Some (al, su, re) -> (if b then sc else fl) = SeqCst ->
    match fl with Release | AcqRel => false | _ => true end = true ->
    nth_error (cas_block al su re) 0 = Some (BI (FENCE Sync)) /\ nth_error (cas_weak_block al su re) 0 = Some (BI (FENCE Sync)).
  Proof.
    intros E A N. destruct b, sc, fl; try discriminate A; try discriminate N; cbn in E; try discriminate E;
      injection E as <- <- <-; split; reflexivity.
  Qed.
  Lemma power_starts g ty junk o tr r : Power.does g ty junk o tr r -> asked o r = SeqCst ->
    tr = [] \/ exists tr', tr = full :: tr'.
  Proof.
    intros (a & c & E & c' & T & D) A.
    enough (K : bpos c = 0%nat /\ nth_error (bprog c) 0 = Some (BI (FENCE Sync))).
    { destruct K as [K1 K2]. destruct (starts_with _ _ _ K1 K2 T) as [[-> _]|K]; auto. }
    unfold code_of in E. set (t := ty a) in *.
    destruct (negb _) eqn:N; [discriminate E|]. apply negb_false_iff in N.
    apply andb_true_iff in N. destruct N as [N _]. apply andb_true_iff in N. destruct N as [N _].
    apply andb_true_iff in N. destruct N as [_ N].
    destruct o as [[ord|v ord|q ord|cu nw sc fl]|cu nw sc fl]; cbn [asked] in A.
    - subst ord. injection E as <-. split; reflexivity.
    - subst ord. injection E as <-. split; reflexivity.
    - destruct q as [v|v|v|v|v|v|v| | |v|v].
      1: { injection E as <-. split; [reflexivity|]. apply body_head, A. }
      all: match type of E with match ?b with _ => _ end = _ => destruct b as [p|] eqn:Eb; [|discriminate E] end;
        injection E as <-; (split; [reflexivity|]); apply body_head, A.
    - cbn [callable] in N. apply andb_true_iff in N. destruct N as [_ N].
      destruct (cas_fences sc fl) as [[[al su] re]|] eqn:Ef; [|discriminate E]. injection E as <-.
      split; [reflexivity|].
      apply (cas_head sc fl al su re (match r with RErr _ => false | _ => true end) Ef); [destruct r; exact A|exact N].
    - cbn [callable] in N. apply andb_true_iff in N. destruct N as [_ N].
      destruct (cas_fences sc fl) as [[[al su] re]|] eqn:Ef; [|discriminate E]. injection E as <-.
      split; [reflexivity|]. cbn [bprog].
      destruct (cas_head sc fl al su re (match r with RErr _ => false | _ => true end) Ef) as [K1 K2];
        [destruct r; exact A|exact N|]. destruct (static g); assumption.
  Qed.
  Lemma own_in tr i : own_access tr i -> (i < length tr)%nat /\ access_at tr i.
  Proof.
    intros [(l & h & a & E & _)|(b & E)].
    - split; [apply nth_error_Some; congruence|]. eexists. split; [exact E|reflexivity].
    - split; [apply nth_error_Some; congruence|]. eexists. split; [exact E|reflexivity].
  Qed.
  Theorem power_separated g ty junk : seqcst_separated (Power.does g ty junk).
  Proof.
    intros o1 tr1 r1 o2 tr2 r2 D1 D2 A1 A2 pre mid post i j O1 O2.
    destruct (own_in _ _ O1) as [L1 _]. destruct (own_in _ _ O2) as [L2 (e & E & Ae)].
    destruct (power_starts _ _ _ _ _ _ D2 A2) as [->|[tr' ->]]; [cbn in L2; lia|].
    exists (length pre + length tr1 + length mid)%nat.
    assert (j <> 0)%nat by (intros ->; cbn in E; injection E as <-; discriminate Ae).
    split; [lia|]. rewrite nth_error_app2 by lia. rewrite nth_error_app2 by lia. rewrite nth_error_app2 by lia.
    replace (_ - _ - _ - _)%nat with 0%nat by lia. reflexivity.
  Qed.
End PowerP.
