(** Invariant of the interrupt machine *)
From Coq Require Import ZArith List Bool Lia PeanoNat.
From Verif Require Import Words Spec WordsFacts OrderingModel LinFacts FallbackModel FallbackFacts ByteMem ByteMemFacts ByteSpec RiscvModel RiscvProofs RiscvMain IntModel IntProofs IntMain.
Import ListNotations.
Open Scope Z_scope.

(** the status register at the last call made at depth [t] *)
Definition last_call1 (t : nat) (acc : option Z) (e : obs) : option Z :=
  match e with (Call u _ _, s) => if Nat.eqb u t then Some s else acc | _ => acc end.
Definition last_call (t : nat) (h : list obs) : option Z := fold_left (last_call1 t) h None.
Lemma last_call_app t h h' : last_call t (h ++ h') = fold_left (last_call1 t) h' (last_call t h).
Proof. unfold last_call. apply fold_left_app. Qed.

Lemma noise_self ar s : noise ar s s = s.
Proof.
  unfold noise. apply Z.bits_inj'. intros k K. rewrite Z.lor_spec, Z.ldiff_spec, Z.land_spec.
  destruct (Z.testbit (side_bits ar) k), (Z.testbit s k); reflexivity.
Qed.
Lemma wp_step ar s0 Q i rest r : wp ar s0 Q (i :: rest) r -> wp ar s0 Q rest (sexec i r).
Proof.
  intros [_ H]. specialize (H (status r)). unfold noisy, with_status in H. rewrite noise_self in H. destruct r; exact H.
Qed.
Lemma wp_keeps ar s0 Q code r : wp ar s0 Q code r -> keeps ar s0 r.
Proof. destruct code; intros [H _]; exact H. Qed.

Section Inv.
  Variables (ar : arch) (be : bool) (vars : layout) (rd_order wr_order : nat -> list nat).
  Hypothesis AO : arch_ok ar be vars.
  Hypothesis LO : layout_ok vars.
  Hypothesis RO : forall n i, (i < n)%nat -> In i (rd_order n).
  Hypothesis WO : forall n i, In i (wr_order n) <-> (i < n)%nat.
  Notation bs := (fun a o x out => exists t, vars a = Some t /\ out = bsem t o x).
  Notation init_vals m := (fun a => match vars a with Some t => value_at be m t a | None => 0 end).
  Notation step := (istep ar be vars rd_order wr_order).
  Notation run := (irun ar be vars rd_order wr_order).

  Definition pc_inv (m : memory) (vals : Z -> Z) (q : aphase bop res) (s0 : Z) (g : sregs) (r : running) : Prop :=
    let n := nbytes (ot r) in
    match opc r with
    | PDisable rest => q = APending (oa r) (oo r) /\ wp ar s0 (guarded ar s0) rest g
    | PRead rest acc => q = APending (oa r) (oo r) /\ guarded ar s0 g /\
        forall i, (i < n)%nat -> In i rest \/ acc i = m (baddr be n (oa r) i)
    | PDecide acc => q = APending (oa r) (oo r) /\ guarded ar s0 g /\
        (reads (oo r) = true -> forall i, (i < n)%nat -> acc i = m (baddr be n (oa r) i))
    | PWrite v out rest => q = APending (oa r) (oo r) /\ guarded ar s0 g /\
        (exists w, emul (ot r) (oo r) (vals (oa r)) = (Some w, out) /\ v = to_bits (ot r) w) /\
        (forall i, In i rest -> (i < n)%nat) /\
        forall i, (i < n)%nat -> In i rest \/ m (baddr be n (oa r) i) = byte_of v i
    | PRestore out rest => q = ADone out /\ wp ar s0 (restored ar s0) rest g
    | PNative => q = APending (oa r) (oo r) /\ native ar be (ot r) (oa r) (oo r) m <> None /\ restored ar s0 g
    | PReturn out => q = ADone out /\ restored ar s0 g
    end.
  Definition ctx_inv (m : memory) (vals : Z -> Z) (q : aphase bop res) (lc : option Z) (c : context) : Prop :=
    match cur c with
    | None => q = AIdle
    | Some r => vars (oa r) = Some (ot r) /\ bcallable (ot r) (oo r) = true /\
        exists s0, lc = Some s0 /\ keeps ar s0 (regs c) /\ pc_inv m vals q s0 (regs c) r
    end.
  Fixpoint stack_inv (m : memory) (vals : Z -> Z) (ph : nat -> aphase bop res) (h : list obs) (st : list context) : Prop :=
    match st with
    | [] => True
    | c :: below => ctx_inv m vals (ph (length below)) (last_call (length below) h) c /\
        deliverable ar (status (regs c)) = true /\ stack_inv m vals ph h below
    end.
  Definition busy (c : context) : option Z :=
    match cur c with Some r => match opc r with PWrite _ _ _ => Some (oa r) | _ => None end | None => None end.

  Record Inv (s : istate) (h : list obs) (A : astate bop res) : Prop := {
    inv_mem : byte_mem (imem s);
    inv_range : forall a t, vars a = Some t -> in_range t (avals A a);
    inv_stack : exists c below, stack s = c :: below /\
      ctx_inv (imem s) (avals A) (aphases A (length below)) (last_call (length below) h) c /\
      stack_inv (imem s) (avals A) (aphases A) h below /\
      (forall k, (length (stack s) <= k)%nat -> aphases A k = AIdle) /\
      (forall a t, vars a = Some t -> busy c <> Some a -> avals A a = value_at be (imem s) t a) }.

  (** a context that can be interrupted does not depend on the memory *)
  Lemma ctx_frame m vals q lc c m' vals' : deliverable ar (status (regs c)) = true ->
    ctx_inv m vals q lc c -> ctx_inv m' vals' q lc c.
  Proof.
    unfold ctx_inv, pc_inv. destruct (cur c) as [r|]; [|auto]. intros D (V & B & s0 & L & K & P).
    refine (conj V (conj B _)). exists s0. refine (conj L (conj K _)).
    destruct (opc r); try exact P; try (destruct P as (_ & (G & _) & _); congruence).
    destruct P as (Q & N & R). refine (conj Q (conj _ R)). eauto using native_total.
  Qed.
  Lemma stack_frame m vals ph h m' vals' ph' h' st :
    (forall t, (t < length st)%nat -> ph' t = ph t /\ last_call t h' = last_call t h) ->
    stack_inv m vals ph h st -> stack_inv m' vals' ph' h' st.
  Proof.
    induction st as [|c below IH]; cbn [stack_inv length]; [auto|]. intros E (C & D & S).
    destruct (E (length below)) as [E1 E2]; [lia|]. rewrite E1, E2.
    refine (conj _ (conj D _)); [eapply ctx_frame; eassumption|]. apply IH; [|exact S]. intros t Ht. apply E. lia.
  Qed.

  Lemma pc_noise m vals q s0 g r v : pc_inv m vals q s0 g r -> pc_inv m vals q s0 (noisy ar v g) r.
  Proof.
    unfold pc_inv. destruct (opc r); intros P.
    - destruct P as (Q & W). split; [exact Q|]. apply wp_noisy; [apply guarded_noisy | exact W].
    - destruct P as (Q & W & P). split; [exact Q|]. split; [now apply guarded_noisy | exact P].
    - destruct P as (Q & W & P). split; [exact Q|]. split; [now apply guarded_noisy | exact P].
    - destruct P as (Q & W & P). split; [exact Q|]. split; [now apply guarded_noisy | exact P].
    - destruct P as (Q & W). split; [exact Q|]. apply wp_noisy; [apply restored_noisy | exact W].
    - destruct P as (Q & N & W). split; [exact Q|]. split; [exact N | now apply restored_noisy].
    - destruct P as (Q & W). split; [exact Q | now apply restored_noisy].
  Qed.
  Lemma ctx_noise m vals q lc c v : ctx_inv m vals q lc c ->
    ctx_inv m vals q lc (mk_context (with_status (regs c) (noise ar v (status (regs c)))) (cur c)).
  Proof.
    unfold ctx_inv. cbn [cur regs]. destruct (cur c) as [r|]; [|auto]. intros (V & B & s0 & L & K & P).
    refine (conj V (conj B _)). exists s0. refine (conj L (conj _ _)); [apply (keeps_noisy ar s0 v), K|].
    apply (pc_noise _ _ _ _ _ _ v), P.
  Qed.

  Lemma value_range m t a : byte_mem m -> vars a = Some t -> in_range t (value_at be m t a).
  Proof.
    intros Hm Va. destruct (size_cases t (lo_size vars LO a t Va)) as (Hw & E8 & _).
    unfold value_at. apply of_bits_range; [exact Hw | rewrite <- E8; apply ld_range, Hm].
  Qed.

  Lemma acc_value m a t (acc : nat -> Z) : (forall i, (i < nbytes t)%nat -> acc i = m (baddr be (nbytes t) a i)) ->
    of_bits t (join_le 8 (map acc (seq 0 (nbytes t)))) = value_at be m t a.
  Proof.
    intros H. unfold value_at, ld. do 2 f_equal. apply map_ext_in. intros i Hi. apply in_seq in Hi. apply H. lia.
  Qed.

  (** What a step of the program does to the abstract state. *)
  Definition upd_st (A : astate bop res) (t : nat) (p : aphase bop res) : astate bop res :=
    mk_astate (avals A) (updn (aphases A) t p).
  Inductive asim (A : astate bop res) : list (event bop res) -> astate bop res -> Prop :=
  | sim_stutter : asim A [] A
  | sim_step e A' : astep bs A e A' -> asim A e A'.

  (** instruction of the running context, not the last one *)
  Lemma instr_sim s h A c below r m' c' out : Inv s h A -> stack s = c :: below -> cur c = Some r ->
    instr ar be rd_order wr_order (imem s) c r = Some (m', c', out) ->
    exists A', asim A (match out with Some v => [Return (length below) v] | None => [] end) A' /\
      Inv (mk_istate m' (c' :: below)) (h ++ match out with Some v => [(Return (length below) v, status (regs c'))] | None => [] end) A' /\
      (out = None -> exists r', cur c' = Some r') /\
      (forall v, out = Some v -> c' = mk_context (regs c) None /\ exists s0, last_call (length below) h = Some s0 /\ restored ar s0 (regs c')).
  Proof.
    intros [Hm Hr (c0 & b0 & Es & C & ST & ID & MV)] Est Er HI.
    rewrite Est in Es. injection Es as <- <-.
    unfold ctx_inv in C. rewrite Er in C. destruct C as (Va & Bc & s0 & L & K & P).
    assert (Hw : wf_ity (ot r) /\ 8 * Z.of_nat (nbytes (ot r)) = ibits (ot r)).
    { destruct (size_cases (ot r) (lo_size vars LO _ _ Va)) as (? & ? & _). auto. }
    destruct Hw as [Hw E8].
    set (t := length below) in *.
    assert (LCN : forall k e, fold_left (last_call1 k) [] e = e) by reflexivity.
    (* steps that leave the abstract state alone *)
    assert (QUIET : forall c1, (exists r1, cur c1 = Some r1) -> busy c1 = busy c -> ctx_inv (imem s) (avals A) (aphases A t) (last_call t h) c1 ->
      exists A', asim A [] A' /\ Inv (mk_istate (imem s) (c1 :: below)) (h ++ []) A' /\
        (None (A := res) = None -> exists r', cur c1 = Some r') /\
        (forall v : res, None = Some v -> c1 = mk_context (regs c) None /\ exists s0, last_call t h = Some s0 /\ restored ar s0 (regs c1))).
    { intros c1 R1 B1 C1. exists A. rewrite app_nil_r. refine (conj (sim_stutter A) (conj _ (conj (fun _ => R1) _))); [|discriminate].
      constructor; cbn [imem stack]; [exact Hm | exact Hr|]. exists c1, below. refine (conj eq_refl (conj C1 (conj ST (conj _ _)))).
      - rewrite Est in ID. exact ID.
      - rewrite B1. exact MV. }
    (* the step at which the operation takes effect *)
    assert (EFFECT : forall m1 c1 v out1, aphases A t = APending (oa r) (oo r) -> byte_mem m1 ->
      bsem (ot r) (oo r) (avals A (oa r)) = (v, out1) -> value_at be m1 (ot r) (oa r) = v ->
      (forall b u, vars b = Some u -> b <> oa r -> value_at be m1 u b = avals A b) ->
      (exists r1, cur c1 = Some r1) -> busy c1 = None ->
      (forall vals, ctx_inv m1 vals (ADone out1) (last_call t h) c1) ->
      exists A', asim A [] A' /\ Inv (mk_istate m1 (c1 :: below)) (h ++ []) A' /\
        (None (A := res) = None -> exists r', cur c1 = Some r') /\
        (forall v : res, None = Some v -> c1 = mk_context (regs c) None /\ exists s0, last_call t h = Some s0 /\ restored ar s0 (regs c1))).
    { intros m1 c1 v out1 Ph Hm1 Sem Ev Eo R1 B1 C1.
      exists (mk_astate (upd (avals A) (oa r) v) (updn (aphases A) t (ADone out1))). rewrite app_nil_r.
      assert (NV : forall a u, vars a = Some u -> upd (avals A) (oa r) v a = value_at be m1 u a).
      { intros a u Vu. unfold upd. destruct (Z.eqb_spec a (oa r)) as [->|N].
        - assert (u = ot r) as -> by congruence. now symmetry.
        - symmetry. now apply Eo. }
      refine (conj _ (conj _ (conj (fun _ => R1) _))); [|  | discriminate].
      - apply sim_step. eapply a_take_effect with (t := t) (a := oa r) (o := oo r) (v' := v) (r := out1).
        + exact Ph.
        + exists (ot r). split; [exact Va|]. now symmetry.
        + split; [apply upd_same | intros; now apply upd_other].
        + split; [apply updn_same | intros; now apply updn_other].
      - constructor; cbn [imem stack avals aphases].
        + exact Hm1.
        + intros a u Vu. rewrite (NV a u Vu). now apply value_range.
        + exists c1, below. fold t. refine (conj eq_refl (conj _ (conj _ (conj _ _)))).
          * rewrite updn_same. apply C1.
          * eapply stack_frame; [|exact ST]. intros k Hk. split; [|reflexivity]. apply updn_other. unfold t. lia.
          * intros k Hk. cbn [length] in Hk. rewrite updn_other by (unfold t; lia). apply ID. rewrite Est. exact Hk.
          * intros a u Vu _. now apply NV. }
    unfold instr in HI. unfold pc_inv in P. destruct (opc r) as [rest|rest acc|acc|v res0 rest|res0 rest| |res0] eqn:Ep.
    - (* PDisable *)
      destruct P as (Ph & W). destruct rest as [|i rest]; apply some_inj, pair_equal_spec in HI as [HI <-]; apply pair_equal_spec in HI as [<- <-].
      + destruct W as [_ G]. apply QUIET.
        * eexists; reflexivity.
        * unfold busy, at_pc. cbn [cur opc]. rewrite Er, Ep. now destruct (reads (oo r)).
        * unfold ctx_inv, at_pc. cbn [cur oa ot oo regs]. refine (conj Va (conj Bc _)). exists s0. refine (conj L (conj K _)).
          unfold pc_inv. cbn [opc oa ot oo]. destruct (reads (oo r)) eqn:Rd; refine (conj Ph (conj G _)).
          -- intros j Hj. left. now apply RO.
          -- try rewrite Rd. discriminate.
      + apply QUIET.
        * eexists; reflexivity.
        * unfold busy, at_pc. cbn [cur opc]. now rewrite Er, Ep.
        * unfold ctx_inv, at_pc. cbn [cur oa ot oo regs]. refine (conj Va (conj Bc _)). exists s0.
          apply wp_step in W. refine (conj L (conj (wp_keeps _ _ _ _ _ W) _)).
          unfold pc_inv. cbn [opc oa ot oo]. exact (conj Ph W).
    - (* PRead *)
      destruct P as (Ph & G & R). destruct rest as [|i rest]; apply some_inj, pair_equal_spec in HI as [HI <-]; apply pair_equal_spec in HI as [<- <-].
      + apply QUIET.
        * eexists; reflexivity.
        * unfold busy, at_pc. cbn [cur opc]. now rewrite Er, Ep.
        * unfold ctx_inv, at_pc. cbn [cur oa ot oo regs]. refine (conj Va (conj Bc _)). exists s0. refine (conj L (conj K _)).
          unfold pc_inv. cbn [opc oa ot oo]. refine (conj Ph (conj G _)). intros _ i Hi. destruct (R i Hi) as [[]|E]; exact E.
      + apply QUIET.
        * eexists; reflexivity.
        * unfold busy, at_pc. cbn [cur opc]. now rewrite Er, Ep.
        * unfold ctx_inv, at_pc. cbn [cur oa ot oo regs]. refine (conj Va (conj Bc _)). exists s0. refine (conj L (conj K _)).
          unfold pc_inv. cbn [opc oa ot oo]. refine (conj Ph (conj G _)). intros j Hj. destruct (Nat.eqb_spec j i) as [->|N].
          -- now right.
          -- destruct (R j Hj) as [[E|I]|E]; [congruence | now left | now right].
    - (* PDecide *)
      destruct P as (Ph & G & R).
      assert (NB : busy c = None) by (unfold busy; now rewrite Er, Ep).
      assert (EV : avals A (oa r) = value_at be (imem s) (ot r) (oa r)) by (apply MV; [exact Va | rewrite NB; discriminate]).
      assert (EM : emul (ot r) (oo r) (of_bits (ot r) (join_le 8 (map acc (seq 0 (nbytes (ot r)))))) = emul (ot r) (oo r) (avals A (oa r))).
      { rewrite EV. destruct (reads (oo r)) eqn:Rd.
        - rewrite (acc_value (imem s) (oa r) (ot r) acc (R eq_refl)). reflexivity.
        - destruct (oo r) as [[ord|v ord|r0 ord|cu nw su fa]|cu nw su fa|r0 ord]; cbn in Rd; try discriminate. reflexivity. }
      rewrite EM in HI. destruct (emul_ok (ot r) (oo r) (avals A (oa r)) Hw (Hr _ _ Va) Bc) as [Sem _].
      destruct (emul (ot r) (oo r) (avals A (oa r))) as [[v|] res0] eqn:Q; cbn [fst snd] in Sem;
        apply some_inj, pair_equal_spec in HI as [HI <-]; apply pair_equal_spec in HI as [<- <-].
      + (* the variable becomes busy *)
        exists A. rewrite app_nil_r. refine (conj (sim_stutter A) (conj _ (conj _ _))); [| intros _; eexists; reflexivity | discriminate].
        constructor; cbn [imem stack]; [exact Hm | exact Hr|]. eexists _, below. refine (conj eq_refl (conj _ (conj ST (conj _ _)))).
        * unfold ctx_inv, at_pc. cbn [cur oa ot oo regs]. refine (conj Va (conj Bc _)). exists s0. refine (conj L (conj K _)).
          unfold pc_inv. cbn [opc oa ot oo]. refine (conj Ph (conj G (conj _ (conj _ _)))).
          -- exists v. auto.
          -- intros i. apply WO.
          -- intros i Hi. left. now apply WO.
        * rewrite Est in ID. exact ID.
        * intros a u Vu _. apply MV; [exact Vu | rewrite NB; discriminate].
      + apply EFFECT with (v := avals A (oa r)) (out1 := res0).
        * exact Ph.
        * exact Hm.
        * exact Sem.
        * now symmetry.
        * intros b u Vb _. symmetry. apply MV; [exact Vb | rewrite NB; discriminate].
        * eexists; reflexivity.
        * reflexivity.
        * intros vals. unfold ctx_inv, at_pc. cbn [cur oa ot oo regs]. refine (conj Va (conj Bc _)). exists s0. refine (conj L (conj K _)).
          unfold pc_inv. cbn [opc oa ot oo]. split; [reflexivity | exact (proj2 G)].
    - (* PWrite *)
      destruct P as (Ph & G & (w & Ew & ->) & RI & R).
      assert (OV : forall m1 a u, (forall z, ~ inside (oa r) (ot r) z -> m1 z = imem s z) -> vars a = Some u -> a <> oa r ->
        value_at be m1 u a = value_at be (imem s) u a).
      { intros m1 a u Fm Vu N. unfold value_at. f_equal. apply ld_ext. intros z Hz. apply Fm. intros Hin. apply N. symmetry.
        exact (lo_disjoint vars LO (oa r) (ot r) a u z Va Vu Hin Hz). }
      destruct rest as [|i rest]; apply some_inj, pair_equal_spec in HI as [HI <-]; apply pair_equal_spec in HI as [<- <-].
      + destruct (emul_ok (ot r) (oo r) (avals A (oa r)) Hw (Hr _ _ Va) Bc) as [Sem RW]. rewrite Ew in Sem, RW. cbn [fst snd] in Sem, RW.
        specialize (RW w eq_refl).
        assert (LV : value_at be (imem s) (ot r) (oa r) = w).
        { unfold value_at. replace (ld be (nbytes (ot r)) (imem s) (oa r)) with (to_bits (ot r) w); [now apply of_to_bits|].
          symmetry. apply (bytes_eq (nbytes (ot r))); [apply ld_range, Hm | rewrite E8; now apply to_bits_range |].
          intros i Hi. rewrite ld_byte by assumption. destruct (R i Hi) as [[]|E]; exact E. }
        apply EFFECT with (v := w) (out1 := res0).
        * exact Ph.
        * exact Hm.
        * exact Sem.
        * exact LV.
        * intros b u Vb Nb. symmetry. apply MV; [exact Vb|]. unfold busy. rewrite Er, Ep. congruence.
        * eexists; reflexivity.
        * reflexivity.
        * intros vals. unfold ctx_inv, at_pc. cbn [cur oa ot oo regs]. refine (conj Va (conj Bc _)). exists s0. refine (conj L (conj K _)).
          unfold pc_inv. cbn [opc oa ot oo]. split; [reflexivity | exact (proj2 G)].
      + exists A. rewrite app_nil_r. refine (conj (sim_stutter A) (conj _ (conj _ _))); [| intros _; eexists; reflexivity | discriminate].
        assert (Hi : (i < nbytes (ot r))%nat) by (apply RI; now left).
        assert (Hm1 : byte_mem (st1 (imem s) (baddr be (nbytes (ot r)) (oa r) i) (byte_of (to_bits (ot r) w) i))).
        { intros z. unfold st1. destruct (Z.eqb z _); [apply byte_of_range | apply Hm]. }
        assert (Fm : forall z, ~ inside (oa r) (ot r) z -> st1 (imem s) (baddr be (nbytes (ot r)) (oa r) i) (byte_of (to_bits (ot r) w) i) z = imem s z).
        { intros z Hz. unfold st1. destruct (Z.eqb_spec z (baddr be (nbytes (ot r)) (oa r) i)) as [->|]; [|reflexivity].
          destruct Hz. unfold inside. now apply baddr_in. }
        constructor; cbn [imem stack]; [exact Hm1 | exact Hr|]. eexists _, below. refine (conj eq_refl (conj _ (conj _ (conj _ _)))).
        * unfold ctx_inv, at_pc. cbn [cur oa ot oo regs]. refine (conj Va (conj Bc _)). exists s0. refine (conj L (conj K _)).
          unfold pc_inv. cbn [opc oa ot oo]. refine (conj Ph (conj G (conj _ (conj _ _)))).
          -- exists w. auto.
          -- intros j Hj. apply RI. now right.
          -- intros j Hj. unfold st1. destruct (Z.eqb_spec (baddr be (nbytes (ot r)) (oa r) j) (baddr be (nbytes (ot r)) (oa r) i)) as [E|N].
             ++ right. apply baddr_inj in E; [now subst | exact Hj | exact Hi].
             ++ destruct (R j Hj) as [[E|I]|E]; [congruence | now left | now right].
        * eapply stack_frame; [|exact ST]. intros; split; reflexivity.
        * rewrite Est in ID. exact ID.
        * intros a u Vu Nb. cbn [busy at_pc cur opc oa] in Nb. assert (a <> oa r) as N by congruence.
          rewrite (OV _ a u Fm Vu N). apply MV; [exact Vu|]. unfold busy. rewrite Er, Ep. congruence.
    - (* PRestore *)
      destruct P as (Ph & W). destruct rest as [|i rest]; apply some_inj, pair_equal_spec in HI as [HI <-]; apply pair_equal_spec in HI as [<- <-].
      + destruct W as [_ G]. apply QUIET.
        * eexists; reflexivity.
        * unfold busy, at_pc. cbn [cur opc]. now rewrite Er, Ep.
        * unfold ctx_inv, at_pc. cbn [cur oa ot oo regs]. refine (conj Va (conj Bc _)). exists s0. refine (conj L (conj K _)).
          unfold pc_inv. cbn [opc oa ot oo]. exact (conj Ph G).
      + apply QUIET.
        * eexists; reflexivity.
        * unfold busy, at_pc. cbn [cur opc]. now rewrite Er, Ep.
        * unfold ctx_inv, at_pc. cbn [cur oa ot oo regs]. refine (conj Va (conj Bc _)). exists s0.
          apply wp_step in W. refine (conj L (conj (wp_keeps _ _ _ _ _ W) _)).
          unfold pc_inv. cbn [opc oa ot oo]. exact (conj Ph W).
    - (* PNative *)
      destruct P as (Ph & N & G).
      assert (NB : busy c = None) by (unfold busy; now rewrite Er, Ep).
      destruct (native ar be (ot r) (oa r) (oo r) (imem s)) as [[m1 res0]|] eqn:Q; [|congruence].
      apply some_inj, pair_equal_spec in HI as [HI <-]; apply pair_equal_spec in HI as [<- <-].
      pose proof (native_ok ar be vars (ot r) (oa r) (oo r) (imem s) m1 res0 AO LO Va Hm Bc Q) as OK.
      assert (EV : avals A (oa r) = value_at be (imem s) (ot r) (oa r)) by (apply MV; [exact Va | rewrite NB; discriminate]).
      apply EFFECT with (v := value_at be m1 (ot r) (oa r)) (out1 := res0).
      * exact Ph.
      * exact (proj1 (proj2 OK)).
      * rewrite EV. exact (proj1 OK).
      * reflexivity.
      * intros b u Vb Nb. rewrite (access_others _ _ _ _ _ _ _ _ LO Va OK b u Vb Nb). symmetry. apply MV; [exact Vb | rewrite NB; discriminate].
      * eexists; reflexivity.
      * reflexivity.
      * intros vals. unfold ctx_inv, at_pc. cbn [cur oa ot oo regs]. refine (conj Va (conj Bc _)). exists s0. refine (conj L (conj K _)).
        unfold pc_inv. cbn [opc oa ot oo]. split; [reflexivity | exact G].
    - (* PReturn *)
      destruct P as (Ph & G). apply some_inj, pair_equal_spec in HI as [HI <-]; apply pair_equal_spec in HI as [<- <-].
      exists (upd_st A t AIdle). refine (conj _ (conj _ (conj _ _))); [| | discriminate |].
      + apply sim_step. eapply a_return; [exact Ph | reflexivity | split; [apply updn_same | intros; now apply updn_other]].
      + constructor; cbn [imem stack avals aphases upd_st]; [exact Hm | exact Hr|]. eexists _, below. fold t.
        assert (LC : forall k, last_call k (h ++ [(Return t res0, status (regs c))]) = last_call k h) by (intros k; now rewrite last_call_app).
        refine (conj eq_refl (conj _ (conj _ (conj _ _)))).
        * unfold ctx_inv. cbn [cur]. apply updn_same.
        * eapply stack_frame; [|exact ST]. intros k Hk. split; [apply updn_other; unfold t; lia | apply LC].
        * intros k Hk. cbn [length] in Hk. rewrite updn_other by (unfold t; lia). apply ID. rewrite Est. exact Hk.
        * intros a u Vu _. apply MV; [exact Vu|]. unfold busy. rewrite Er, Ep. discriminate.
      + intros v [= <-]. split; [reflexivity|]. exists s0. split; [exact L | exact G].
  Qed.

  Definition ret_ok (h : list obs) : Prop :=
    forall h1 t r s' h2, h = h1 ++ (Return t r, s') :: h2 -> exists s0, last_call t h1 = Some s0 /\ agree ar s' s0.

  Lemma step_sim s l s' e h A : Inv s h A -> step s l = Some (s', e) ->
    exists A', asim A (history e) A' /\ Inv s' (h ++ e) A' /\
      (forall t r v, In (Return t r, v) e -> e = [(Return t r, v)] /\ exists s0, last_call t h = Some s0 /\ agree ar v s0).
  Proof.
    intros I H. pose proof I as [Hm Hr (c & below & Est & C & ST & ID & MV)].
    unfold istep in H. rewrite Est in H.
    assert (KEEP : forall c1, cur c1 = cur c -> ctx_inv (imem s) (avals A) (aphases A (length below)) (last_call (length below) h) c1 ->
      exists A', asim A (history []) A' /\ Inv (mk_istate (imem s) (c1 :: below)) (h ++ []) A' /\
      (forall t r v, In ((Return t r, v) : obs) [] -> [] = [((Return t r, v) : obs)] /\ exists s0, last_call t h = Some s0 /\ agree ar v s0)).
    { intros c1 Ec C1. exists A. refine (conj (sim_stutter A) (conj _ _)); [|intros ? ? ? []]. rewrite app_nil_r.
      constructor; cbn [imem stack]; [exact Hm | exact Hr|]. exists c1, below. refine (conj eq_refl (conj C1 (conj ST (conj _ _)))).
      - rewrite Est in ID. exact ID.
      - unfold busy in *. rewrite Ec. exact MV. }
    destruct l as [a o| |v|v|v|].
    - (* ICall *)
      destruct (cur c) eqn:Ec; [discriminate|]. destruct (vars a) as [ty|] eqn:Va; [|discriminate].
      destruct (bcallable ty o) eqn:Bc; [|discriminate]. apply some_inj, pair_equal_spec in H as [<- <-].
      set (t := length below) in *. set (e := [(Call t a o, status (regs c))]).
      unfold ctx_inv in C. rewrite Ec in C.
      exists (upd_st A t (APending a o)). refine (conj _ (conj _ _)); [| |intros t0 r v [[=]|[]]].
      + apply sim_step. eapply a_call; [exact C | reflexivity | split; [apply updn_same | intros; now apply updn_other]].
      + assert (LC : last_call t (h ++ e) = Some (status (regs c))) by (rewrite last_call_app; cbn; now rewrite Nat.eqb_refl).
        assert (LCO : forall k, k <> t -> last_call k (h ++ e) = last_call k h).
        { intros k Hk. rewrite last_call_app. cbn. destruct (Nat.eqb_spec t k); [congruence | reflexivity]. }
        constructor; cbn [imem stack avals aphases upd_st]; [exact Hm | exact Hr|]. eexists _, below. fold t.
        refine (conj eq_refl (conj _ (conj _ (conj _ _)))).
        * unfold ctx_inv. cbn [cur oa ot oo regs]. refine (conj Va (conj Bc _)). exists (status (regs c)).
          refine (conj LC (conj (fun D => D) _)). rewrite updn_same. unfold pc_inv. cbn [opc oa ot oo].
          destruct (native ar be ty a o (imem s)) eqn:Q.
          -- refine (conj eq_refl (conj _ _)); [congruence | apply agree_refl].
          -- split; [reflexivity|]. destruct (regs c) as [s1 p1 n1]. apply disable_ok.
        * eapply stack_frame; [|exact ST]. intros k Hk. split; [apply updn_other; unfold t; lia | apply LCO; unfold t; lia].
        * intros k Hk. cbn [length] in Hk. rewrite updn_other by (unfold t; lia). apply ID. rewrite Est. exact Hk.
        * intros b u Vb _. apply MV; [exact Vb|]. unfold busy. rewrite Ec. discriminate.
    - (* IInstr *)
      destruct (cur c) as [r|] eqn:Ec; [|discriminate].
      destruct (instr ar be rd_order wr_order (imem s) c r) as [[[m' c'] out]|] eqn:Q; [|discriminate].
      destruct (instr_sim s h A c below r m' c' out I Est Ec Q) as (A' & S1 & I1 & _ & RT).
      destruct out as [v|]; apply some_inj, pair_equal_spec in H as [<- <-].
      + exists A'. refine (conj S1 (conj I1 _)). intros t0 r0 v0 [[= <- <- <-]|[]]. split; [reflexivity|].
        exact (proj2 (RT v eq_refl)).
      + exists A'. refine (conj S1 (conj I1 _)). intros t0 r0 v0 [].
    - (* ISetStatus *)
      destruct (cur c) eqn:Ec; [discriminate|]. apply some_inj, pair_equal_spec in H as [<- <-].
      apply KEEP; [reflexivity|]. unfold ctx_inv in *. rewrite Ec in C. exact C.
    - (* ISide *)
      apply some_inj, pair_equal_spec in H as [<- <-]. apply KEEP; [reflexivity|]. apply ctx_noise, C.
    - (* IInterrupt *)
      destruct (deliverable ar (status (regs c))) eqn:D; [|discriminate]. apply some_inj, pair_equal_spec in H as [<- <-].
      exists A. refine (conj (sim_stutter A) (conj _ _)); [|intros ? ? ? []]. rewrite app_nil_r.
      constructor; cbn [imem stack]; [exact Hm | exact Hr|]. eexists _, (c :: below). refine (conj eq_refl (conj _ (conj _ (conj _ _)))).
      + unfold ctx_inv. cbn [cur]. apply ID. rewrite Est. cbn. lia.
      + cbn [stack_inv]. exact (conj C (conj D ST)).
      + intros k Hk. apply ID. rewrite Est. cbn in *. lia.
      + intros a u Vu _. apply MV; [exact Vu|]. intros Hb. unfold busy in Hb. unfold ctx_inv in C.
        destruct (cur c) as [r|]; [|discriminate]. destruct C as (_ & _ & s0 & _ & _ & P). unfold pc_inv in P.
        destruct (opc r); try discriminate. destruct P as (_ & (G & _) & _). congruence.
    - (* IReturn *)
      destruct (cur c) eqn:Ec; [discriminate|]. destruct below as [|c1 below]; [discriminate|].
      apply some_inj, pair_equal_spec in H as [<- <-].
      cbn [stack_inv] in ST. destruct ST as (C1 & D1 & ST).
      exists A. refine (conj (sim_stutter A) (conj _ _)); [|intros ? ? ? []]. rewrite app_nil_r.
      constructor; cbn [imem stack]; [exact Hm | exact Hr|]. exists c1, below. refine (conj eq_refl (conj C1 (conj ST (conj _ _)))).
      + intros k Hk. cbn [length] in Hk. destruct (Nat.eq_dec k (S (length below))) as [->|N].
        * unfold ctx_inv in C. rewrite Ec in C. exact C.
        * apply ID. rewrite Est. cbn. lia.
      + intros a u Vu _. apply MV; [exact Vu|]. unfold busy. rewrite Ec. discriminate.
  Qed.

  Lemma run_sim m0 ls : forall s s' h h0 A, asteps bs (mk_astate (init_vals m0) (fun _ => AIdle)) (history h0) A ->
    Inv s h0 A -> ret_ok h0 -> run s ls = Some (s', h) ->
    exists A', asteps bs (mk_astate (init_vals m0) (fun _ => AIdle)) (history (h0 ++ h)) A' /\ Inv s' (h0 ++ h) A' /\ ret_ok (h0 ++ h).
  Proof.
    induction ls as [|l ls IH]; intros s s' h h0 A HA HI HR H; cbn [irun] in H.
    - apply some_inj, pair_equal_spec in H as [<- <-]. rewrite app_nil_r. eauto.
    - destruct (step s l) as [[s1 e]|] eqn:Q; [|discriminate].
      destruct (run s1 ls) as [[s2 es]|] eqn:Q2; [|discriminate].
      apply some_inj, pair_equal_spec in H as [<- <-].
      destruct (step_sim s l s1 e h0 A HI Q) as (A1 & S1 & I1 & R1).
      rewrite app_assoc. eapply (IH s1 s2 es (h0 ++ e) A1); [| exact I1 | | exact Q2].
      + replace (history (h0 ++ e)) with (history h0 ++ history e) by (symmetry; apply map_app).
        revert S1. generalize (history e) as he. intros he S1. destruct S1 as [|he A1 S1].
        * rewrite app_nil_r. exact HA.
        * eapply as_snoc; eassumption.
      + (* returns *)
        intros h1 t r v h2 E.
        assert (X : (exists h2', h0 = h1 ++ (Return t r, v) :: h2') \/ (In (Return t r, v) e /\ exists e1, h1 = h0 ++ e1 /\ e = e1 ++ (Return t r, v) :: h2)).
        { clear -E. revert h1 E. induction h0 as [|x h0 IH]; intros h1 E; cbn [app] in E.
          - right. rewrite E. split; [apply in_or_app; right; now left | eexists; split; reflexivity].
          - destruct h1 as [|y h1]; cbn [app] in E; injection E as -> E.
            + left. exists h0. reflexivity.
            + destruct (IH h1 E) as [(h2' & ->)|(I & e1 & -> & ->)].
              * left. exists h2'. reflexivity.
              * right. split; [exact I|]. exists e1. split; reflexivity. }
        destruct X as [(h2' & E')|(I & e1 & -> & E')].
        * exact (HR h1 t r v h2' E').
        * destruct (R1 t r v I) as (Ee & s0 & L & Ag). rewrite Ee in E'.
          destruct e1 as [|x e1]; [|destruct e1; discriminate]. rewrite app_nil_r. exists s0. split; assumption.
  Qed.

  Lemma init_inv m s : byte_mem m -> Inv (iinit m s) [] (mk_astate (init_vals m) (fun _ => AIdle)).
  Proof.
    intros Hm. constructor; cbn [iinit imem stack avals aphases]; [exact Hm | |].
    - intros a t Va. rewrite Va. now apply value_range.
    - eexists _, []. refine (conj eq_refl (conj _ (conj I (conj _ _)))).
      + reflexivity.
      + reflexivity.
      + intros a t Va _. now rewrite Va.
  Qed.

  Lemma reach m s0 ls s h : byte_mem m -> run (iinit m s0) ls = Some (s, h) ->
    exists A, asteps bs (mk_astate (init_vals m) (fun _ => AIdle)) (history h) A /\ Inv s h A /\ ret_ok h.
  Proof.
    intros Hm H. apply (run_sim m ls (iinit m s0) s h [] (mk_astate (init_vals m) (fun _ => AIdle))); [| | |exact H].
    - apply as_nil; reflexivity.
    - now apply init_inv.
    - intros h1 t r v h2 E. destruct h1; discriminate.
  Qed.
End Inv.
