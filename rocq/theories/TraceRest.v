(** * x86_64, Zacas, kuser, RISC-V, pre-v6 Arm Linux meet the requested orderings (proofs for C31) *)
From Coq Require Import ZArith List Bool Lia.
From Verif Require Import Words Spec WideSpec LoopModel AsmModel BlockModel OrderingModel RustOps
  TraceSpec TraceModel TraceFacts TraceCheck TraceBackends.
From Verif Require X86Model ZacasModel KuserModel.
Import ListNotations.

(** ** x86_64 *)
Lemma tso_absorb s e : lo s = L0 -> hi s = L0 -> wb s = false ->
  let s' := absorb true s e in lo s' = L0 /\ hi s' = L0 /\ wb s' = false.
Proof.
  intros H1 H2 H3. destruct e as [l h a|b|rr rw wr ww| |]; cbn; rewrite ?H1, ?H2, ?H3.
  - destruct l, h; auto.
  - auto.
  - destruct (rr && rw); auto.
  - auto.
  - auto.
Qed.
Lemma tso_fine tr : forall s, lo s = L0 -> hi s = L0 -> wb s = false ->
  let s' := absorbs true s tr in lo s' = L0 /\ hi s' = L0 /\ wb s' = false.
Proof.
  induction tr as [|e tr IH]; intros s H1 H2 H3; [auto|]. destruct (tso_absorb s e H1 H2 H3) as (K1 & K2 & K3).
  apply (IH _ K1 K2 K3).
Qed.
Lemma tso_meets ord tr : (ord = SeqCst -> w (summary true tr) = L0) -> meets Trail ord (summary true tr) = true.
Proof.
  intros Q. destruct (tso_fine tr sum0 eq_refl eq_refl eq_refl) as (K1 & K2 & K3).
  unfold meets, acq_ok, rel_ok, mode_ok. change (absorbs true sum0 tr) with (summary true tr) in *.
  rewrite K1, K2, K3. destruct ord; cbn; auto. rewrite (Q eq_refl). reflexivity.
Qed.
Module X86P.
  Import X86Model.
  Definition fenced (p : list binstr) : Prop := forall i b v, nth_error p i = Some (VST b v) -> nth_error p (S i) = Some XCHGP.
  Definition inv (c : conf) (s : sum) : Prop := w s = L0 \/ nth_error (prog c) (pos c) = Some XCHGP.
  Lemma w_ann c b s : (forall q v, nth_error (prog c) (pos c) <> Some (VST q v)) -> inv c s ->
    w (absorbs true s (X86.ann c b)) = L0.
  Proof.
    intros N H. unfold X86.ann. destruct H as [H|H].
    - destruct (nth_error (prog c) (pos c)) as [[i|d q disp|q|n|q|q v|]|]; cbn; auto.
      + destruct (disp =? 0)%Z; cbn; exact H.
      + destruct b; reflexivity.
      + exfalso. eapply N. reflexivity.
    - rewrite H. reflexivity.
  Qed.
  Lemma inv_step c es c' s : fenced (prog c) -> inv c s -> tstep next X86.ann c es c' ->
    prog c' = prog c /\ inv c' (absorbs true s es).
  Proof.
    intros F H T.
    assert (G : prog c' = prog c /\ ((exists q v, nth_error (prog c) (pos c) = Some (VST q v)) -> pos c' = S (pos c))).
    { assert (Nx : forall x, next c = x -> next c = x) by auto.
      inversion T as [c1 X|a k p f v X|b a k p f v X|a g f sp x X|a v f ok X]; subst; clear T; apply Nx in X; clear Nx;
        unfold next in X; destruct (nth_error (prog c) (pos c)) as [[i|d q disp|q|n|q|q v'|]|] eqn:E; try discriminate X;
        injection X; intros; subst; cbn; try (split; [reflexivity|intros (? & ? & Y); discriminate Y]); try (split; reflexivity).
      - split; [destruct (ZF _); reflexivity|intros (? & ? & Y); discriminate Y].
      - split; [destruct (snd _); reflexivity|intros (? & ? & Y); discriminate Y]. }
    destruct G as [G1 G2]. split; [exact G1|].
    assert (D : (exists q v, nth_error (prog c) (pos c) = Some (VST q v)) \/ (forall q v, nth_error (prog c) (pos c) <> Some (VST q v))).
    { destruct (nth_error (prog c) (pos c)) as [[]|]; try (right; intros; discriminate). left. eauto. }
    destruct D as [(q & v & E)|N].
    - right. rewrite G1, (G2 (ex_intro _ q (ex_intro _ v E))). eapply F. exact E.
    - left. assert (exists b, es = X86.ann c b) as [b ->] by (inversion T; subst; eexists; reflexivity).
      apply w_ann; assumption.
  Qed.
  Lemma fenced_w c tr r : fenced (prog c) -> completes next X86.ann c tr r ->
    w (summary true tr) = L0.
  Proof.
    intros F (c' & T & D).
    assert (K : prog c' = prog c /\ inv c' (summary true tr)).
    { clear D. induction T as [|tr c1 es c2 T [IH1 IH2] H]; [split; [reflexivity|left; reflexivity]|].
      assert (F1 : fenced (prog c1)) by (rewrite IH1; exact F).
      destruct (inv_step _ _ _ _ F1 IH2 H) as [K1 K2]. split; [congruence|].
      unfold summary. rewrite absorbs_app. exact K2. }
    destruct K as [K1 [K2|K2]]; [exact K2|]. unfold next in D. rewrite K2 in D. discriminate D.
  Qed.
  Lemma no_vst p : forallb (fun i => match i with VST _ _ => false | _ => true end) p = true -> fenced p.
  Proof.
    intros H i b v E. apply nth_error_In in E. rewrite forallb_forall in H. specialize (H _ E). discriminate H.
  Qed.
  Lemma loop_fenced pre b save p : fenced (loop_block pre b save p).
  Proof.
    apply no_vst. unfold loop_block. rewrite !forallb_app. cbn. rewrite andb_true_r.
    induction p; [reflexivity|exact IHp].
  Qed.
  Lemma x86_meets g ty junk o tr r : X86.does g ty junk o tr r -> meets Trail (asked o r) (summary true tr) = true.
  Proof.
    intros (a & c & E & D). apply tso_meets. intros SC.
    assert (F : fenced (prog c)); [|exact (fenced_w c tr r F D)].
    unfold code_of in E. set (t := ty a) in *. destruct (negb _); [discriminate E|].
    destruct o as [[ord|v ord|q ord|cu nw sc fl]|cu nw sc fl].
    - injection E as <-. destruct (avx g); apply no_vst; reflexivity.
    - cbn in SC. subst ord. injection E as <-. destruct (avx g).
      + intros [|[|[|i]]] b q; cbn; intros X; try discriminate X. reflexivity.
      + apply loop_fenced.
    - destruct q as [v|v|v|v|v|v|v| | |v|v]; cbn [body] in E; injection E as <-; apply loop_fenced.
    - injection E as <-. apply no_vst. reflexivity.
    - injection E as <-. apply no_vst. reflexivity.
  Qed.
End X86P.

(** ** Zacas *)
Module ZacasP.
  Import ZacasModel.
  Section Z.
  Variable wd : Z.
  Variable q : bool * bool * bool.
  Lemma whole_split x : whole_of wd (lo wd x) (hi wd x) = x.
  Proof.
    unfold whole_of, lo, hi. destruct (Z.eq_dec (2 ^ wd) 0) as [E|E].
    - rewrite E, Zmod_0_r, Zdiv_0_r. lia.
    - rewrite Z.add_comm. symmetry. apply Z.div_mod. exact E.
  Qed.
  Lemma access_eq old a b x : exists wr,
    amocas_access wd (lo wd old) (hi wd old) a b x = (wr, (x, true)) /\
    match wr with Some _ => true | None => false end = (x =? old)%Z.
  Proof.
    unfold amocas_access, amocas. rewrite whole_split. destruct (Z.eqb_spec x old) as [->|N].
    - rewrite whole_split. eexists. split; reflexivity.
    - rewrite whole_split. eexists. split; reflexivity.
  Qed.
  Definition before (s : sum) : Prop := w s = L0 /\ wb s = false.
  Local Notation next := (znext wd).
  Local Notation ann := (Zacas.ann q).
  Lemma load_trace dst fin tr r : completes next ann (ZLoad dst fin) tr r ->
    exists b x, r = fin x /\ tr = Zacas.amocas_ev q b.
  Proof.
    intros (c' & T & D).
    assert (K : c' = ZLoad dst fin /\ tr = [] \/ exists b x, c' = ZRet (fin x) /\ tr = Zacas.amocas_ev q b).
    { clear D. induction T as [|tr c1 es c2 T IH H]; [left; auto|]. right.
      destruct IH as [[-> ->]|(b & x & -> & ->)].
      - inversion H as [? X|? ? ? ? ? X|? ? ? ? ? ? X|? ? ? ? ? X|? ? ? ? X]; try discriminate X.
        injection X as <- <- <-. subst. eexists _, _. split; [reflexivity|reflexivity].
      - inversion H as [? X|? ? ? ? ? X|? ? ? ? ? ? X|? ? ? ? ? X|? ? ? ? X]; discriminate X. }
    destruct K as [[-> _]|(b & x & -> & ->)]; [discriminate D|]. injection D as <-. eauto.
  Qed.
  Lemma cas_trace dst old new fin tr r : completes next ann (ZCas dst old new fin) tr r ->
    exists b x, r = fin (x, b) /\ tr = Zacas.amocas_ev q b.
  Proof.
    intros (c' & T & D).
    assert (K : c' = ZCas dst old new fin /\ tr = [] \/ exists b x, c' = ZRet (fin (x, b)) /\ tr = Zacas.amocas_ev q b).
    { clear D. induction T as [|tr c1 es c2 T IH H]; [left; auto|]. right.
      destruct IH as [[-> ->]|(b & x & -> & ->)].
      - inversion H as [? X|? ? ? ? ? X|? ? ? ? ? ? X|? ? ? sp x X|? ? ? ? X]; try discriminate X.
        injection X as <- <- <-. subst. destruct (access_eq old (lo wd new) (hi wd new) x) as (wr & E1 & E2). rewrite E1. cbn [fst snd]. rewrite E2. exists (x =? old)%Z, x. split; reflexivity.
      - inversion H as [? X|? ? ? ? ? X|? ? ? ? ? ? X|? ? ? ? ? X|? ? ? ? X]; discriminate X. }
    destruct K as [[-> _]|(b & x & -> & ->)]; [discriminate D|]. injection D as <-. eauto.
  Qed.
  Lemma fail_before s : before s -> before (absorbs false s (Zacas.amocas_ev q false)).
  Proof. intros [H1 H2]. destruct q as [[[] []] []]; split; cbn; auto. Qed.
  Lemma loop_trace dst f fin tr r : completes next ann (ZReadLo dst f fin) tr r ->
    (exists x, r = fin x) /\ exists s, before s /\ summary false tr = absorbs false s (Zacas.amocas_ev q true).
  Proof.
    intros (c' & T & D).
    assert (K : match c' with
      | ZReadLo _ _ _ => tr = []
      | ZReadHi d f' fin' _ | ZLoop d f' fin' _ => fin' = fin /\ before (summary false tr)
      | ZRet r' => (exists x, r' = fin x) /\ exists s, before s /\ summary false tr = absorbs false s (Zacas.amocas_ev q true)
      | _ => False end /\ match c' with ZReadLo d f' fin' => fin' = fin | _ => True end).
    { clear D. induction T as [|tr c1 es c2 T IH H]; [split; reflexivity|].
      destruct IH as [IH1 IH2].
      destruct c1 as [d0 fn0|d0 o0 n0 fn0|d0 f0 fn0|d0 f0 fn0 l0|d0 f0 fn0 p0|r0]; try contradiction;
        inversion H as [? X|? ? ? ? v X|? ? ? ? ? ? X|? ? ? sp x X|? ? ? ? X]; try discriminate X.
      - injection X as <- <- <- <-. subst. split; [|exact Logic.I]. split; [reflexivity|]. split; reflexivity.
      - injection X as <- <- <- <-. subst. destruct IH1 as [-> [B1 B2]]. split; [|exact Logic.I]. split; [reflexivity|].
        unfold before, summary. rewrite absorbs_app. split; [exact B1|exact B2].
      - injection X as <- <- <-. subst. destruct IH1 as [-> B].
        match goal with |- context [amocas_access wd (lo wd p0) (hi wd p0) ?u ?v x] => destruct (access_eq p0 u v x) as (wr & E1 & E2); rewrite E1; cbn [fst snd]; rewrite E2 end. destruct (Z.eqb_spec x p0) as [->|Nx].
        + split; [|exact Logic.I]. split; [eauto|]. exists (summary false tr). split; [exact B|].
          unfold summary. rewrite absorbs_app. reflexivity.
        + split; [|exact Logic.I]. split; [reflexivity|]. unfold summary. rewrite absorbs_app. apply fail_before. exact B. }
    destruct K as [K _]. destruct c'; try discriminate D. injection D as <-. exact K.
  Qed.
  End Z.
  Lemma success_meets ord detected s : before s ->
    meets Mixed ord (absorbs false s (Zacas.amocas_ev (Zacas.cas_order detected ord Relaxed) true)) = true.
  Proof.
    intros [H1 H2]. destruct s as [l h rf b w0 f0 a0 r1 r2]. cbn in H1, H2. subst.
    destruct detected, ord; cbn; rewrite ?orb_true_r; destruct f0; reflexivity.
  Qed.
  Lemma zacas_meets wd detected ty o tr r : Zacas.does wd detected ty o tr r -> meets Mixed (asked o r) (summary false tr) = true.
  Proof.
    intros (a & c & E & D). unfold z_code_of in E. set (t := ty a) in *.
    destruct (negb _) eqn:N; [discriminate E|]. apply negb_false_iff in N. apply andb_true_iff in N. destruct N as [_ N].
    assert (Cas : forall sc fl cu nw fin, match fl with Release | AcqRel => false | _ => true end = true ->
      completes (znext wd) (Zacas.ann (Zacas.cas_order detected sc fl)) (ZCas a cu nw fin) tr r ->
      (forall x b, fin (x, b) = if b : bool then ROk (cast t x) else RErr (cast t x)) ->
      meets Mixed (match r with RErr _ => fl | _ => sc end) (summary false tr) = true).
    { intros sc fl cu nw fin Nf D' Hf. destruct (cas_trace _ _ _ _ _ _ _ _ D') as (b & x & -> & ->).
      rewrite Hf. destruct b, detected, sc, fl; try discriminate Nf; reflexivity. }
    destruct o as [[ord|v ord|rm ord|cu nw sc fl]|cu nw sc fl].
    - injection E as <-. destruct (load_trace _ _ _ _ _ _ D) as (b & x & -> & ->).
      cbn in N. destruct b, ord; try discriminate N; reflexivity.
    - injection E as <-. destruct (loop_trace _ _ _ _ _ _ _ D) as ((x & ->) & s & B & ->). apply success_meets. exact B.
    - injection E as <-. destruct (loop_trace _ _ _ _ _ _ _ D) as ((x & ->) & s & B & ->). apply success_meets. exact B.
    - cbn [callable] in N. apply andb_true_iff in N. destruct N as [_ N]. injection E as <-.
      eapply Cas; [exact N|exact D|reflexivity].
    - cbn [callable] in N. apply andb_true_iff in N. destruct N as [_ N]. injection E as <-.
      eapply Cas; [exact N|exact D|reflexivity].
  Qed.
End ZacasP.

(** ** kuser *)
Module KuserP.
  Import KuserModel.
  Lemma kuser_final s : wb s = false -> forall ord,
    meets Trail ord (absorbs false s [full; Rd true true ANone; Wr false; full]) = true.
  Proof. intros H ord. destruct s. cbn in *. subst. destruct ord; cbn; rewrite ?orb_true_r; reflexivity. Qed.
  Lemma kuser_trace be dst f fin tr r : completes (knext be) Kuser.ann (KReadLo dst f fin) tr r ->
    exists s, wb s = false /\ summary false tr = absorbs false s [full; Rd true true ANone; Wr false; full].
  Proof.
    intros (c' & T & D).
    assert (K : match c' with
      | KRet r' => exists s, wb s = false /\ summary false tr = absorbs false s [full; Rd true true ANone; Wr false; full]
      | _ => wb (summary false tr) = false end).
    { clear D. induction T as [|tr c1 es c2 T IH H]; [reflexivity|].
      destruct c1 as [d0 f0 fn0|d0 f0 fn0 l0|d0 f0 fn0 p0|r0];
        inversion H as [? X|? ? ? ? v X|? ? ? ? ? ? X|? ? ? sp x X|? ? ? ? X]; try discriminate X.
      - injection X as <- <- <- <-. subst. unfold summary. rewrite absorbs_app. exact IH.
      - injection X as <- <- <- <-. subst. unfold summary. rewrite absorbs_app. exact IH.
      - injection X as <- <- <-. subst. destruct ((x =? p0)%Z && negb sp); cbn [fst snd Z.eqb].
        + exists (summary false tr). split; [exact IH|]. unfold summary. rewrite absorbs_app. reflexivity.
        + unfold summary. rewrite absorbs_app. exact IH. }
    destruct c'; try discriminate D. exact K.
  Qed.
  Lemma kuser_meets be ty o tr r : Kuser.does be ty o tr r -> meets Trail (asked o r) (summary false tr) = true.
  Proof.
    intros (a & c & E & D). unfold k_code_of in E. destruct (negb _); [discriminate E|].
    assert (K : exists dst f fin, c = KReadLo dst f fin).
    { destruct o as [[ord|v ord|rm ord|cu nw sc fl]|cu nw sc fl]; injection E as <-; eauto. }
    destruct K as (dst & f & fin & ->). destruct (kuser_trace _ _ _ _ _ _ D) as (s & B & ->). apply kuser_final. exact B.
  Qed.
End KuserP.

(** ** RISC-V without LR/SC, pre-v6 Arm Linux *)
Lemma riscv_meets o tr r : Riscv.does o tr r -> meets Mixed (asked o r) (summary false tr) = true.
Proof.
  intros (p & E & ->). destruct o as [[ord|v ord|rm ord|cu nw sc fl]|cu nw sc fl]; try discriminate E;
    destruct ord; cbn in E; try discriminate E; injection E as <-; reflexivity.
Qed.
Lemma arm_linux_meets o tr r : ArmLinux.does o tr r -> meets Trail (asked o r) (summary false tr) = true.
Proof.
  intros (ok & E & K).
  assert (R : match r with RErr _ => ok = false | _ => ok = true end).
  { destruct r; try (destruct ok; [reflexivity|]; destruct (proj1 K eq_refl) as [y Y]; discriminate Y). apply K. eauto. }
  destruct o as [[ord|v ord|rm ord|cu nw sc fl]|cu nw sc fl]; try discriminate E.
  - destruct ord; cbn in E; try discriminate E; injection E as <-; reflexivity.
  - destruct ord; cbn in E; try discriminate E; injection E as <-; reflexivity.
  - destruct r; subst ok; destruct fl; cbn in E; try discriminate E; injection E as <-; destruct sc; reflexivity.
  - destruct r; subst ok; destruct fl; cbn in E; try discriminate E; injection E as <-; destruct sc; reflexivity.
Qed.
