(** Registers after an x86_64 block: only declared outputs have changed. *)
From Coq Require Import ZArith List Bool Lia PeanoNat.
From Verif Require Import Words Spec WideSpec Halves LoopModel AsmModel X86Model X86Proofs X86Blocks.
Import ListNotations.
Open Scope Z_scope.

(** One instruction of one thread, whatever memory answers. *)
Inductive moves : conf -> conf -> Prop :=
| m_local c c' : next c = ALocal c' -> moves c c'
| m_read c a k p kont v : next c = ARead a k p kont -> 0 <= v < 2 ^ k -> moves c (kont v)
| m_atomic c a f kont sp x : next c = AAtomic a f kont -> is_u128 x -> moves c (kont (snd (f sp x))).
Inductive moves_star : conf -> conf -> Prop :=
| ms_refl c : moves_star c c
| ms_step c c' c'' : moves_star c c' -> moves c' c'' -> moves_star c c''.

(** Registers named as outputs (or clobbers) of the [asm!] of each function:
    x86_64.rs:149-156, 396-401, 590-594, 662-666, 735-738. *)
Definition outputs (g : target) (o : wop) : list reg :=
  match o with
  | WOp (OLoad _) => if avx g then [] else [ld_save g; rax; rdx]
  | WOp (OStore _ _) => if avx g then [] else [ld_save g; rax; rdx]
  | WOp (OCas _ _ _ _) | WCasWeak _ _ _ _ => [r8; rax; rdx; rcx]
  | WOp (ORmw (Swap _) _) => [ld_save g; rax; rdx]
  | WOp (ORmw Not _) | WOp (ORmw Neg _) => [ld_save g; rcx; rax; rdx]
  | WOp (ORmw _ _) => [rmw3_save g; rcx; rax; rdx]
  end.

Definition bwrites (i : binstr) (r : reg) : bool :=
  match i with
  | I i => writes i r
  | LDQ d _ _ => reg_eqb r d
  | CX16 _ => reg_eqb r rax || reg_eqb r rdx
  | JNE _ | VLD _ | VST _ _ | XCHGP => false
  end.

(** What one move does. *)
Lemma moves_prog c c' : moves c c' -> prog c' = prog c /\ ret c' = ret c.
Proof.
  intros H. destruct H as [c c' H|c a k p kont v H _|c a f kont sp x H _]; unfold next in H;
    destruct (nth_error (prog c) (pos c)) as [[i|d b disp|b|n|b|b w|]|]; try discriminate; injection H; intros; subst; auto.
  - destruct (ZF (stt c)); auto.
  - destruct (x =? _); auto.
Qed.
Lemma moves_reg c c' r : moves c c' ->
  (exists i, nth_error (prog c) (pos c) = Some i /\ bwrites i r = true) \/ rg (stt c') r = rg (stt c) r.
Proof.
  intros H. destruct H as [c c' H|c a k p kont v H _|c a f kont sp x H _]; unfold next in H;
    destruct (nth_error (prog c) (pos c)) as [[i|d b disp|b|n|b|b w|]|]; try discriminate; injection H; intros; subst;
    try (right; reflexivity).
  - destruct (writes i r) eqn:E; [left; eauto|right]. now apply exec1_frame.
  - right. destruct (ZF (stt c)); reflexivity.
  - destruct (reg_eqb r d) eqn:E; [left; eauto|right]. cbn. unfold setr. now rewrite E.
  - destruct (reg_eqb r rax || reg_eqb r rdx) eqn:E; [left; eexists; split; [reflexivity|exact E]|right].
    apply orb_false_iff in E as [E1 E2]. destruct (x =? _); cbn; auto. unfold setr. now rewrite E1, E2.
Qed.
Lemma moves_pos c c' : moves c c' -> (pos c < length (prog c))%nat /\
  (pos c' = S (pos c) \/ exists n, nth_error (prog c) (pos c) = Some (JNE n) /\ pos c' = n).
Proof.
  intros H. assert (L : (pos c < length (prog c))%nat).
  { apply nth_error_Some. intros E. destruct H as [c c' H|c a k p kont v H _|c a f kont sp x H _]; unfold next in H; rewrite E in H; discriminate. }
  split; [exact L|]. destruct H as [c c' H|c a k p kont v H _|c a f kont sp x H _]; unfold next in H;
    destruct (nth_error (prog c) (pos c)) as [[i|d b disp|b|n|b|b w|]|]; try discriminate; injection H; intros; subst; auto.
  - destruct (ZF (stt c)); eauto.
  - destruct (x =? _); auto.
Qed.

(** A register no instruction of the block writes keeps its value. *)
Lemma untouched r c c' : moves_star c c' -> forallb (fun i => negb (bwrites i r)) (prog c) = true ->
  rg (stt c') r = rg (stt c) r /\ prog c' = prog c.
Proof.
  intros H HA. induction H as [c|c c' c'' H IH M]; auto. destruct (IH HA) as [E P]. split.
  - destruct (moves_reg _ _ r M) as [(i & Hi & Hw)|Er]; [|now rewrite Er].
    exfalso. rewrite P in Hi. apply nth_error_In in Hi. rewrite forallb_forall in HA. specialize (HA i Hi).
    rewrite Hw in HA. discriminate.
  - destruct (moves_prog _ _ M) as [Q _]. now rewrite Q.
Qed.

(** rbx is saved first and restored last. *)
Section Saved.
  Variables (pre : instr) (save : reg) (mid : list binstr).
  Hypothesis Hpre : forall s, rg (exec1 pre s) save = rg s rbx.
  Hypothesis Hmid : forallb (fun i => negb (bwrites i save)) mid = true.
  Hypothesis Hjmp : forall i n, nth_error mid i = Some (JNE n) -> (1 <= n <= length mid)%nat.
  Let P := I pre :: mid ++ [I (MOV rbx save)].
  Lemma saved c c' : moves_star c c' -> prog c = P -> pos c = O ->
    prog c' = P /\
    ((pos c' = O /\ rg (stt c') rbx = rg (stt c) rbx) \/
     ((1 <= pos c' <= S (length mid))%nat /\ rg (stt c') save = rg (stt c) rbx) \/
     (pos c' = S (S (length mid)) /\ rg (stt c') rbx = rg (stt c) rbx)).
  Proof.
    intros H HP H0. induction H as [c|c c' c'' H IH M]; auto. destruct (IH HP H0) as [P' D].
    destruct (moves_prog _ _ M) as [Q _]. rewrite P' in Q. split; [exact Q|].
    destruct (moves_pos _ _ M) as [L Hpos].
    destruct D as [[E V]|[[E V]|[E V]]].
    - (* at pre *)
      right; left. assert (M' : moves c' c'') by exact M.
      destruct M as [c1 c2 Hn|c1 a k p kont v Hn _|c1 a f kont sp x Hn _]; unfold next in Hn; rewrite P', E in Hn; cbn in Hn;
        try discriminate. injection Hn as <-. cbn. rewrite E. split; [lia|]. now rewrite Hpre.
    - destruct (Nat.eq_dec (pos c') (S (length mid))) as [El|El].
      + right; right.
        assert (N : nth_error P (pos c') = Some (I (MOV rbx save))).
        { rewrite El. unfold P. cbn. rewrite nth_error_app2 by lia. now rewrite Nat.sub_diag. }
        destruct M as [c1 c2 Hn|c1 a k p kont v Hn _|c1 a f kont sp x Hn _]; unfold next in Hn; rewrite P', N in Hn;
          try discriminate. injection Hn as <-. cbn. rewrite El. split; [reflexivity|]. exact V.
      + right; left.
        assert (N : nth_error P (pos c') = nth_error mid (pos c' - 1)).
        { unfold P. destruct (pos c') as [|k]; [lia|]. cbn. rewrite nth_error_app1 by lia. f_equal. lia. }
        split.
        * destruct Hpos as [->|(n & Hn & ->)]; [lia|]. rewrite P', N in Hn. apply Hjmp in Hn. lia.
        * destruct (moves_reg _ _ save M) as [(i & Hi & Hw)|Er]; [|now rewrite Er].
          exfalso. rewrite P', N in Hi. apply nth_error_In in Hi. rewrite forallb_forall in Hmid.
          specialize (Hmid i Hi). rewrite Hw in Hmid. discriminate.
    - exfalso. rewrite P', E in L. unfold P in L. cbn in L. rewrite app_length in L. cbn in L. lia.
  Qed.
End Saved.

Ltac inlist := cbn [In]; tauto.

Lemma forallb_map_I p r : forallb (fun i => negb (bwrites i r)) (map I p) = avoids p r.
Proof. unfold avoids. induction p; cbn; auto. now rewrite IHp. Qed.

Lemma loop_block_regs pre b save p c c' rr r :
  moves_star c c' -> prog c = loop_block pre b save p -> pos c = O -> next c' = ADone rr ->
  (pre = MOV save rbx \/ pre = XCHG save rbx) -> avoids p save = true ->
  save <> rax -> save <> rdx -> save <> rbx ->
  (r = rbx \/ (avoids p r = true /\ r <> save /\ r <> rax /\ r <> rdx)) ->
  rg (stt c') r = rg (stt c) r.
Proof.
  intros M P0 H0 D Hp Av S1 S2 S3 Hr.
  assert (PE : loop_block pre b save p = I pre :: ([LDQ rax b 0; LDQ rdx b 8] ++ map I p ++ [CX16 b; JNE 3]) ++ [I (MOV rbx save)]).
  { unfold loop_block. cbn [app]. f_equal. f_equal. f_equal. rewrite <- app_assoc. reflexivity. }
  destruct (reg_eqb r rbx) eqn:Eb.
  - assert (r = rbx) by (destruct r; try discriminate; reflexivity). subst r.
    destruct (saved pre save ([LDQ rax b 0; LDQ rdx b 8] ++ map I p ++ [CX16 b; JNE 3])) with (c := c) (c' := c') as (P' & Q); auto.
    + intros s. destruct Hp as [->| ->]; cbn; unfold setr; rewrite ?reg_eqb_refl, ?(reg_neq save rbx) by assumption; auto.
    + cbn [app forallb bwrites]. rewrite !reg_neq by assumption. cbn [negb andb].
      rewrite forallb_app, forallb_map_I, Av. cbn [forallb bwrites]. now rewrite !reg_neq by assumption.
    + intros i n Hn. assert (n = 3%nat).
      { destruct i as [|[|i]]; cbn in Hn; try discriminate.
        destruct (Nat.ltb_spec i (length (map I p))).
        - rewrite nth_error_app1 in Hn by assumption. apply nth_error_In in Hn. apply in_map_iff in Hn as (q & E & _). discriminate.
        - rewrite nth_error_app2 in Hn by assumption. destruct (i - length (map I p))%nat as [|[|k]]; cbn in Hn; try discriminate.
          + congruence.
          + destruct k; discriminate. }
      subst n. rewrite app_length, app_length. cbn [length]. lia.
    + now rewrite P0, PE.
    + unfold next in D. rewrite P' in D.
      destruct (nth_error _ (pos c')) as [[i|d b' disp|b'|n|b'|b' w|]|] eqn:EN; try discriminate.
      apply nth_error_None in EN. cbn [length] in EN. rewrite app_length in EN. cbn [length] in EN.
      destruct Q as [[E V]|[[E V]|[E V]]]; [lia|lia|exact V].
  - destruct Hr as [->|(A1 & A2 & A3 & A4)]; [discriminate|].
    apply (untouched r) in M; [exact (proj1 M)|]. rewrite P0. unfold loop_block. cbn [app forallb bwrites].
    rewrite !(reg_neq r rax), !(reg_neq r rdx) by assumption. cbn [negb andb orb].
    rewrite forallb_app, forallb_map_I, A1. cbn [forallb bwrites writes]. rewrite !(reg_neq r rax), !(reg_neq r rdx) by assumption.
    rewrite Eb. cbn [negb andb orb].
    destruct Hp as [->| ->]; cbn [writes]; rewrite ?(reg_neq r save), ?Eb by assumption; reflexivity.
Qed.

Theorem x86_outputs g ty junk a o c c' rr r :
  code_of g ty junk a o = Some c -> moves_star c c' -> next c' = ADone rr ->
  ~ In r (outputs g o) -> rg (stt c') r = rg (stt c) r.
Proof.
  unfold code_of. set (j := junk a o).
  destruct ((ibits (ty a) =? 128) && callable (ty a) o && (0 <=? a) && (a <? (if x32 g then 2 ^ 32 else 2 ^ 64))); cbn [negb]; [|discriminate].
  intros E M D N.
  assert (SW : forall v rt, c = swap_code g a v j rt -> ~ In r [ld_save g; rax; rdx] -> rg (stt c') r = rg (stt c) r).
  { intros v rt Ec NN. cbn [In] in NN.
    apply (loop_block_regs (XCHG (ld_save g) rbx) (mkb g (ld_dst g)) (ld_save g) [] c c' rr r); auto;
      try (rewrite Ec; reflexivity); try (unfold ld_save; destruct (win g); discriminate).
    right. repeat split; auto; intros ->; tauto. }
  assert (RM : forall dst save r0 p s, body (ty a) r0 = Some p -> 
     (save = r8 \/ save = rsi \/ save = r10 \/ save = r11) ->
     c = mk_conf (loop_block (MOV save rbx) (mkb g dst) save p) 0 s 0 (ret_pair (ty a)) ->
     ~ In r [save; rcx; rax; rdx] -> rg (stt c') r = rg (stt c) r).
  { intros dst save r0 p s Hp Hs Ec NN. cbn [In] in NN.
    assert (HS : save <> rax /\ save <> rdx /\ save <> rbx /\ save <> rcx)
      by (destruct Hs as [->|[->|[->| ->]]]; repeat split; discriminate).
    destruct HS as (A1 & A2 & A3 & A4).
    apply (loop_block_regs (MOV save rbx) (mkb g dst) save p c c' rr r); auto; try (rewrite Ec; reflexivity).
    - eapply body_avoids; eauto.
    - destruct (reg_eqb r rbx) eqn:Eb.
      + left. destruct r; try discriminate; reflexivity.
      + right. repeat split; try (intros ->; tauto). eapply body_avoids; eauto; try (intros ->; tauto).
        intros ->. discriminate. }
  assert (D1 : ld_save g = r8 \/ ld_save g = rsi \/ ld_save g = r10 \/ ld_save g = r11)
    by (unfold ld_save; destruct (win g); auto).
  assert (D2 : rmw3_save g = r8 \/ rmw3_save g = rsi \/ rmw3_save g = r10 \/ rmw3_save g = r11)
    by (unfold rmw3_save; destruct (win g); auto).
  assert (CS : forall cu nw, c = cas_code g (ty a) a cu nw j -> ~ In r [r8; rax; rdx; rcx] -> rg (stt c') r = rg (stt c) r).
  { intros cu nw Ec NN. cbn [In] in NN. destruct (reg_eqb r rbx) eqn:Eb.
    - assert (r = rbx) by (destruct r; try discriminate; reflexivity). subst r.
      destruct (saved (XCHG r8 rbx) r8 [CX16 (mkb g (cas_dst g)); I SETNE_CL]) with (c := c) (c' := c') as (P' & Q); auto;
        try (rewrite Ec; reflexivity).
      + intros [|[|[|i]]] n Hn; cbn in Hn; discriminate.
      + unfold next in D. rewrite P' in D. destruct (nth_error _ (pos c')) as [[i|d b' disp|b'|n|b'|b' w|]|] eqn:EN; try discriminate.
        apply nth_error_None in EN. cbn in EN. destruct Q as [[X V]|[[X V]|[X V]]]; cbn in X; [lia|lia|exact V].
    - apply (untouched r) in M; [exact (proj1 M)|]. rewrite Ec. unfold cas_code, cas_block. cbn [prog forallb bwrites writes].
      rewrite !(reg_neq r r8), !(reg_neq r rax), !(reg_neq r rdx), !(reg_neq r rcx), Eb by (intros ->; tauto). reflexivity. }
  destruct o as [[ord|v ord|r0 ord|cu nw sc fl]|cu nw sc fl]; cbn [outputs] in N.
  - injection E as E. destruct (avx g).
    + apply (untouched r) in M; [exact (proj1 M)|]. rewrite <- E. reflexivity.
    + cbn [In] in N. destruct (reg_eqb r rbx) eqn:Eb.
      * assert (r = rbx) by (destruct r; try discriminate; reflexivity). subst r.
        destruct (saved (MOV (ld_save g) rbx) (ld_save g) [I (XOR rbx rbx); CX16 (mkb g (ld_dst g))]) with (c := c) (c' := c') as (P' & Q); auto;
          try (rewrite <- E; reflexivity).
        { intros s. cbn. now rewrite rg_setr_same. }
        { destruct D1 as [->|[->|[->| ->]]]; reflexivity. }
        { intros [|[|[|i]]] n Hn; cbn in Hn; discriminate. }
        unfold next in D. rewrite P' in D. destruct (nth_error _ (pos c')) as [[i|d b' disp|b'|n|b'|b' w|]|] eqn:EN; try discriminate.
        apply nth_error_None in EN. cbn in EN. destruct Q as [[X V]|[[X V]|[X V]]]; cbn in X; [lia|lia|exact V].
      * apply (untouched r) in M; [exact (proj1 M)|]. rewrite <- E. unfold load_block. cbn [prog forallb bwrites writes].
        rewrite !(reg_neq r (ld_save g)), !(reg_neq r rax), !(reg_neq r rdx), Eb by (intros ->; tauto). reflexivity.
  - injection E as E. destruct (avx g).
    + apply (untouched r) in M; [exact (proj1 M)|]. rewrite <- E. now destruct ord.
    + eapply SW; eauto.
  - destruct r0 as [v|v|v|v|v|v|v| | |v|v]; cbn [body] in E; injection E as E.
    + eapply SW; eauto.
    + eapply (RM (rmw3_dst g) (rmw3_save g) (Add v)); eauto; reflexivity.
    + eapply (RM (rmw3_dst g) (rmw3_save g) (Sub v)); eauto; reflexivity.
    + eapply (RM (rmw3_dst g) (rmw3_save g) (And v)); eauto; reflexivity.
    + eapply (RM (rmw3_dst g) (rmw3_save g) (Nand v)); eauto; reflexivity.
    + eapply (RM (rmw3_dst g) (rmw3_save g) (Or v)); eauto; reflexivity.
    + eapply (RM (rmw3_dst g) (rmw3_save g) (Xor v)); eauto; reflexivity.
    + eapply (RM (ld_dst g) (ld_save g) Not); eauto; reflexivity.
    + eapply (RM (ld_dst g) (ld_save g) Neg); eauto; reflexivity.
    + eapply (RM (rmw3_dst g) (rmw3_save g) (Max v)); eauto; reflexivity.
    + eapply (RM (rmw3_dst g) (rmw3_save g) (Min v)); eauto; reflexivity.
  - injection E as E. eapply CS; eauto.
  - injection E as E. eapply CS; eauto.
Qed.
