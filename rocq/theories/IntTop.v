From Coq Require Import ZArith List Bool Lia PeanoNat.
From Verif Require Import Words Spec WordsFacts OrderingModel LinFacts FallbackModel FallbackFacts ByteMem ByteMemFacts ByteSpec RiscvModel RiscvProofs RiscvMain IntModel IntProofs IntMain IntRun.
Import ListNotations.
Open Scope Z_scope.

(** how often the context at depth [t] executes an instruction of an operation *)
Fixpoint own_steps ar be vars rd wr (t : nat) (s : istate) (ls : list ilabel) : nat :=
  match ls with
  | [] => 0
  | l :: ls' =>
    (match l with IInstr => if Nat.eqb (length (stack s)) (S t) then 1 else 0 | _ => 0 end +
     match istep ar be vars rd wr s l with Some (s', _) => own_steps ar be vars rd wr t s' ls' | None => 0 end)%nat
  end.

Definition cost (ar : arch) (rd wr : nat -> list nat) (r : running) : nat :=
  let n := nbytes (ot r) in
  let restore := length (restore_code ar) in
  match opc r with
  | PReturn _ => 1
  | PNative => 2
  | PRestore _ rest => length rest + 2
  | PWrite _ _ rest => length rest + restore + 3
  | PDecide _ => length (wr n) + restore + 4
  | PRead rest _ => length rest + length (wr n) + restore + 5
  | PDisable rest => length rest + length (rd n) + length (wr n) + restore + 6
  end.

Lemma instr_cost ar be rd wr m c r m' c' out : cur c = Some r -> instr ar be rd wr m c r = Some (m', c', out) ->
  match cur c' with
  | Some r' => out = None /\ (cost ar rd wr r' < cost ar rd wr r)%nat
  | None => out <> None /\ (0 < cost ar rd wr r)%nat
  end.
Proof.
  intros Ec H. unfold instr in H. unfold cost. destruct (opc r) as [rest|rest acc|acc|v res0 rest|res0 rest| |res0].
  - destruct rest as [|i rest]; apply some_inj, pair_equal_spec in H as [H <-]; apply pair_equal_spec in H as [<- <-]; cbn [cur at_pc opc ot].
    + split; [reflexivity|]. destruct (reads (oo r)); cbn; lia.
    + split; [reflexivity|]. cbn. lia.
  - destruct rest as [|i rest]; apply some_inj, pair_equal_spec in H as [H <-]; apply pair_equal_spec in H as [<- <-]; cbn [cur at_pc opc ot];
      (split; [reflexivity|]; cbn; lia).
  - destruct (emul _ _ _) as [[v|] res0]; apply some_inj, pair_equal_spec in H as [H <-]; apply pair_equal_spec in H as [<- <-]; cbn [cur at_pc opc ot];
      (split; [reflexivity|]; cbn; lia).
  - destruct rest as [|i rest]; apply some_inj, pair_equal_spec in H as [H <-]; apply pair_equal_spec in H as [<- <-]; cbn [cur at_pc opc ot];
      (split; [reflexivity|]; cbn; lia).
  - destruct rest as [|i rest]; apply some_inj, pair_equal_spec in H as [H <-]; apply pair_equal_spec in H as [<- <-]; cbn [cur at_pc opc ot];
      (split; [reflexivity|]; cbn; lia).
  - destruct (native _ _ _ _ _ _) as [[m1 res0]|]; [|discriminate].
    apply some_inj, pair_equal_spec in H as [H <-]; apply pair_equal_spec in H as [<- <-]; cbn [cur at_pc opc ot].
    split; [reflexivity|]; cbn; lia.
  - apply some_inj, pair_equal_spec in H as [H <-]; apply pair_equal_spec in H as [<- <-]; cbn [cur].
    split; [discriminate | lia].
Qed.

Definition no_return (t : nat) (h : list obs) : Prop := forall r s, ~ In (Return t r, s) h.
Lemma no_return_app t h h' : no_return t (h ++ h') -> no_return t h /\ no_return t h'.
Proof. intros H. split; intros r s I; apply (H r s), in_or_app; auto. Qed.

Lemma own_bound ar be vars rd wr t ls : forall s pre c below r s' h, stack s = pre ++ c :: below -> length below = t -> cur c = Some r ->
  irun ar be vars rd wr s ls = Some (s', h) -> no_return t h -> (own_steps ar be vars rd wr t s ls <= cost ar rd wr r)%nat.
Proof.
  induction ls as [|l ls IH]; intros s pre c below r s' h Est Lb Ec H NR; cbn [irun own_steps] in *; [lia|].
  destruct (istep ar be vars rd wr s l) as [[s1 e]|] eqn:Q; [|discriminate].
  destruct (irun ar be vars rd wr s1 ls) as [[s2 es]|] eqn:Q2; [|discriminate].
  apply some_inj, pair_equal_spec in H as [<- <-]. apply no_return_app in NR as [NR1 NR2].
  unfold istep in Q. destruct pre as [|x pre]; cbn [app] in Est; rewrite Est in Q |- *.
  - (* the context itself runs *)
    rewrite Ec in Q. destruct l as [a o| |v|v|v|]; try discriminate.
    + destruct (instr ar be rd wr (imem s) c r) as [[[m' c'] out]|] eqn:Qi; [|discriminate].
      pose proof (instr_cost ar be rd wr _ _ _ _ _ _ Ec Qi) as K.
      destruct (cur c') as [r'|] eqn:Ec'.
      * destruct K as [-> K]. apply some_inj, pair_equal_spec in Q as [<- <-].
        specialize (IH (mk_istate m' (c' :: below)) [] c' below r' _ _ eq_refl Lb Ec' Q2 NR2).
        destruct (Nat.eqb _ _); lia.
      * destruct K as [K _]. destruct out as [out|]; [|congruence]. apply some_inj, pair_equal_spec in Q as [<- <-].
        exfalso. apply (NR1 out (status (regs c'))). left. now rewrite Lb.
    + apply some_inj, pair_equal_spec in Q as [<- <-]. cbn [Nat.add].
      match goal with |- (own_steps _ _ _ _ _ _ (mk_istate ?mm (?c1 :: ?bb)) _ <= _)%nat => apply (IH (mk_istate mm (c1 :: bb)) [] c1 below r _ _ eq_refl Lb eq_refl Q2 NR2) end.
    + destruct (deliverable ar (status (regs c))); [|discriminate]. apply some_inj, pair_equal_spec in Q as [<- <-]. cbn [Nat.add].
      match goal with |- (own_steps _ _ _ _ _ _ (mk_istate ?mm (?c1 :: ?bb)) _ <= _)%nat => apply (IH (mk_istate mm (c1 :: bb)) [c1] c below r _ _ eq_refl Lb Ec Q2 NR2) end.
  - (* something on top of it runs *)
    replace (Nat.eqb (length (x :: pre ++ c :: below)) (S t)) with false
      by (symmetry; apply Nat.eqb_neq; cbn; rewrite app_length; cbn; lia).
    replace (match l with IInstr => 0%nat | _ => 0%nat end) with 0%nat by now destruct l. cbn [Nat.add].
    destruct l as [a o| |v|v|v|].
    + destruct (cur x); [discriminate|]. destruct (vars a) as [ty|]; [|discriminate]. destruct (bcallable ty o); [|discriminate].
      apply some_inj, pair_equal_spec in Q as [<- <-].
      match goal with |- (own_steps _ _ _ _ _ _ (mk_istate ?mm (?c1 :: ?bb)) _ <= _)%nat => apply (IH (mk_istate mm (c1 :: bb)) (c1 :: pre) c below r _ _ eq_refl Lb Ec Q2 NR2) end.
    + destruct (cur x) as [rx|]; [|discriminate]. destruct (instr ar be rd wr (imem s) x rx) as [[[m' c'] [out|]]|]; [| |discriminate];
        apply some_inj, pair_equal_spec in Q as [<- <-]; exact (IH (mk_istate m' (c' :: pre ++ c :: below)) (c' :: pre) c below r _ _ eq_refl Lb Ec Q2 NR2).
    + destruct (cur x); [discriminate|]. apply some_inj, pair_equal_spec in Q as [<- <-].
      match goal with |- (own_steps _ _ _ _ _ _ (mk_istate ?mm (?c1 :: ?bb)) _ <= _)%nat => apply (IH (mk_istate mm (c1 :: bb)) (c1 :: pre) c below r _ _ eq_refl Lb Ec Q2 NR2) end.
    + apply some_inj, pair_equal_spec in Q as [<- <-].
      match goal with |- (own_steps _ _ _ _ _ _ (mk_istate ?mm (?c1 :: ?bb)) _ <= _)%nat => apply (IH (mk_istate mm (c1 :: bb)) (c1 :: pre) c below r _ _ eq_refl Lb Ec Q2 NR2) end.
    + destruct (deliverable ar (status (regs x))); [|discriminate]. apply some_inj, pair_equal_spec in Q as [<- <-].
      match goal with |- (own_steps _ _ _ _ _ _ (mk_istate ?mm (?c1 :: ?bb)) _ <= _)%nat => apply (IH (mk_istate mm (c1 :: bb)) (c1 :: x :: pre) c below r _ _ eq_refl Lb Ec Q2 NR2) end.
    + destruct (cur x); [discriminate|]. destruct (pre ++ c :: below) as [|y z] eqn:Ep; [destruct pre; discriminate|].
      apply some_inj, pair_equal_spec in Q as [<- <-]. rewrite <- Ep in *.
      exact (IH (mk_istate (imem s) (pre ++ c :: below)) pre c below r _ _ eq_refl Lb Ec Q2 NR2).
Qed.

Lemma code_lengths ar : (length (disable_code ar) <= 3 /\ length (restore_code ar) <= 3)%nat.
Proof. destruct ar; cbn; lia. Qed.

Section Top.
  Variables (ar : arch) (be : bool) (vars : layout) (rd wr : nat -> list nat).
  Notation step := (istep ar be vars rd wr).
  Notation run := (irun ar be vars rd wr).

  (** own instructions of an operation, whatever interrupts it *)
  Lemma int_bounded s a o s1 e ls s2 h t : step s (ICall a o) = Some (s1, e) -> length (stack s) = S t ->
    run s1 ls = Some (s2, h) -> no_return t h ->
    exists ty, vars a = Some ty /\ (own_steps ar be vars rd wr t s1 ls <= length (rd (nbytes ty)) + length (wr (nbytes ty)) + 12)%nat.
  Proof.
    intros H Hl HR NR. unfold istep in H. destruct (stack s) as [|c below] eqn:Est; [discriminate|].
    destruct (cur c) eqn:Ec; [discriminate|]. destruct (vars a) as [ty|] eqn:Va; [|discriminate].
    destruct (bcallable ty o); [|discriminate]. apply some_inj, pair_equal_spec in H as [<- <-].
    exists ty. split; [reflexivity|]. pose proof (code_lengths ar) as CL.
    etransitivity; [eapply own_bound with (pre := []) (below := below); [reflexivity | cbn in Hl; lia | reflexivity | exact HR | exact NR]|].
    unfold cost. cbn [opc ot]. destruct (native ar be ty a o (imem s)); lia.
  Qed.

  Hypothesis AO : arch_ok ar be vars.
  Hypothesis LO : layout_ok vars.
  Hypothesis RO : forall n i, (i < n)%nat -> In i (rd n).
  Hypothesis WO : forall n i, In i (wr n) <-> (i < n)%nat.

  Theorem int_atomic m s0 ls s h : byte_mem m -> run (iinit m s0) ls = Some (s, h) ->
    byte_history be vars m (history h)
      (match stack s with c :: _ => match cur c with None => values be vars (imem s) | Some _ => fun _ => None end | [] => fun _ => None end).
  Proof.
    intros Hm H. destruct (reach ar be vars rd wr AO LO RO WO m s0 ls s h Hm H) as (A & HA & [_ _ (c & below & Est & C & _ & _ & MV)] & _).
    exists A. split; [exact HA|]. intros a v Ev. rewrite Est in Ev. destruct (cur c) eqn:Ec; [discriminate|].
    unfold values in Ev. destruct (vars a) as [t|] eqn:Va; [|discriminate]. injection Ev as <-.
    apply MV; [exact Va|]. unfold busy. rewrite Ec. discriminate.
  Qed.

  (** every return finds the status register as the call left it *)
  Theorem int_status m s0 ls s h h1 t r v h2 : byte_mem m -> run (iinit m s0) ls = Some (s, h) ->
    h = h1 ++ (Return t r, v) :: h2 -> exists s1, last_call t h1 = Some s1 /\ agree ar v s1.
  Proof.
    intros Hm H E. destruct (reach ar be vars rd wr AO LO RO WO m s0 ls s h Hm H) as (A & _ & _ & R). exact (R _ _ _ _ _ E).
  Qed.

  Lemma masked_run ls : forall s h0 A c below r s0 s' h, Inv ar be vars s h0 A -> stack s = c :: below -> cur c = Some r ->
    last_call (length below) h0 = Some s0 -> deliverable ar s0 = false ->
    run s ls = Some (s', h) -> no_return (length below) h -> forall v, ~ In (IInterrupt v) ls.
  Proof.
    induction ls as [|l ls IH]; intros s h0 A c below r s0 s' h IV Est Ec L D H NR v; [easy|].
    cbn [irun] in H.
    destruct (step s l) as [[s1 e]|] eqn:Q; [|discriminate].
    destruct (run s1 ls) as [[s2 es]|] eqn:Q2; [|discriminate].
    apply some_inj, pair_equal_spec in H as [<- <-]. apply no_return_app in NR as [NR1 NR2].
    destruct (step_sim ar be vars rd wr AO LO RO WO s l s1 e h0 A IV Q) as (A1 & _ & I1 & _).
    pose proof IV as [_ _ (c0 & b0 & Est0 & C & _)]. rewrite Est in Est0. injection Est0 as <- <-.
    unfold ctx_inv in C. rewrite Ec in C. destruct C as (_ & _ & s0' & L' & K & _).
    assert (s0' = s0) as -> by congruence. specialize (K D).
    unfold istep in Q. rewrite Est, Ec in Q. destruct l as [a o| |w|w|w|]; try discriminate.
    - destruct (instr ar be rd wr (imem s) c r) as [[[m' c'] out]|] eqn:Qi; [|discriminate].
      pose proof (instr_cost ar be rd wr _ _ _ _ _ _ Ec Qi) as KC.
      destruct (cur c') as [r'|] eqn:Ec'.
      + destruct KC as [-> _]. apply some_inj, pair_equal_spec in Q as [<- <-]. rewrite app_nil_r in I1.
        intros [E|Hin]; [discriminate|]. exact (IH (mk_istate m' (c' :: below)) _ _ c' below r' s0 _ _ I1 eq_refl Ec' L D Q2 NR2 v Hin).
      + destruct KC as [KC _]. destruct out as [out|]; [|congruence]. apply some_inj, pair_equal_spec in Q as [<- <-].
        exfalso. apply (NR1 out (status (regs c'))). now left.
    - apply some_inj, pair_equal_spec in Q as [<- <-]. rewrite app_nil_r in I1.
      intros [E|Hin]; [discriminate|]. eapply (IH _ _ _ _ below r s0 _ _ I1); [reflexivity | reflexivity | exact L | exact D | exact Q2 | exact NR2 | exact Hin].
    - rewrite K in Q. discriminate.
  Qed.

  (** with interrupts off at the call, they stay off until the return *)
  Theorem int_masked m s0 ls s h c below a o s1 e ls2 s2 h2 : byte_mem m -> run (iinit m s0) ls = Some (s, h) ->
    stack s = c :: below -> deliverable ar (status (regs c)) = false -> step s (ICall a o) = Some (s1, e) ->
    run s1 ls2 = Some (s2, h2) -> no_return (length below) h2 -> forall v, ~ In (IInterrupt v) ls2.
  Proof.
    intros Hm H Est D HC HR NR. destruct (reach ar be vars rd wr AO LO RO WO m s0 ls s h Hm H) as (A & _ & I0 & _).
    destruct (step_sim ar be vars rd wr AO LO RO WO s (ICall a o) s1 e h A I0 HC) as (A1 & _ & I1 & _).
    unfold istep in HC. rewrite Est in HC. destruct (cur c) eqn:Ec; [discriminate|].
    destruct (vars a) as [ty|] eqn:Va; [|discriminate]. destruct (bcallable ty o); [|discriminate].
    apply some_inj, pair_equal_spec in HC as [<- <-].
    eapply masked_run; [exact I1 | reflexivity | reflexivity | | exact D | exact HR | exact NR].
    rewrite last_call_app. cbn. now rewrite Nat.eqb_refl.
  Qed.

  (** an operation in progress can always take its next instruction *)
  Theorem int_never_stuck m s0 ls s h c below r : byte_mem m -> run (iinit m s0) ls = Some (s, h) ->
    stack s = c :: below -> cur c = Some r -> step s IInstr <> None.
  Proof.
    intros Hm H Est Ec. destruct (reach ar be vars rd wr AO LO RO WO m s0 ls s h Hm H) as (A & _ & [_ _ (c0 & b0 & Est0 & C & _)] & _).
    rewrite Est in Est0. injection Est0 as <- <-.
    unfold istep. rewrite Est, Ec. unfold ctx_inv in C. rewrite Ec in C. destruct C as (_ & _ & s1 & _ & _ & P).
    unfold instr. unfold pc_inv in P. destruct (opc r) as [[]|[]|acc|v out []|out []| |out]; try discriminate.
    - destruct (emul _ _ _) as [[]]; discriminate.
    - destruct P as (_ & N & _). destruct (native _ _ _ _ _ _) as [[]|]; [discriminate | congruence].
  Qed.

  (** bytes outside the variables never change *)
  Theorem int_frame m s0 ls s h x : byte_mem m -> run (iinit m s0) ls = Some (s, h) ->
    (forall a t, vars a = Some t -> ~ inside a t x) -> imem s x = m x.
  Proof.
    intros Hm H Hx.
    assert (G : forall ls s h0 A s' h, Inv ar be vars s h0 A -> run s ls = Some (s', h) -> imem s' x = imem s x).
    { clear - AO LO RO WO Hx. induction ls as [|l ls IH]; intros s h0 A s' h IV H; cbn [irun] in H.
      - apply some_inj, pair_equal_spec in H as [<- _]. reflexivity.
      - destruct (step s l) as [[s1 e]|] eqn:Q; [|discriminate].
        destruct (run s1 ls) as [[s2 es]|] eqn:Q2; [|discriminate].
        apply some_inj, pair_equal_spec in H as [<- _].
        destruct (step_sim ar be vars rd wr AO LO RO WO s l s1 e h0 A IV Q) as (A1 & _ & I1 & _).
        rewrite (IH s1 _ A1 s2 es I1 Q2).
        destruct IV as [Hm _ (c & below & Est & C & _)]. unfold istep in Q. rewrite Est in Q.
        destruct l as [a o| |w|w|w|].
        + destruct (cur c); [discriminate|]. destruct (vars a) as [ty|]; [|discriminate]. destruct (bcallable ty o); [|discriminate].
          apply some_inj, pair_equal_spec in Q as [<- _]. reflexivity.
        + unfold ctx_inv in C. destruct (cur c) as [r|]; [|discriminate]. destruct C as (Va & Bc & s0 & _ & _ & P).
          destruct (instr ar be rd wr (imem s) c r) as [[[m' c'] out]|] eqn:Qi; [|discriminate].
          assert (imem s1 = m') as -> by (destruct out; apply some_inj, pair_equal_spec in Q as [<- _]; reflexivity).
          clear Q Q2 I1. unfold instr in Qi. unfold pc_inv in P.
          destruct (opc r) as [rest|rest acc|acc|v res0 rest|res0 rest| |res0].
          * destruct rest; apply some_inj, pair_equal_spec in Qi as [Qi _]; apply pair_equal_spec in Qi as [<- _]; reflexivity.
          * destruct rest; apply some_inj, pair_equal_spec in Qi as [Qi _]; apply pair_equal_spec in Qi as [<- _]; reflexivity.
          * destruct (emul _ _ _) as [[]]; apply some_inj, pair_equal_spec in Qi as [Qi _]; apply pair_equal_spec in Qi as [<- _]; reflexivity.
          * destruct P as (_ & _ & _ & RI & _).
            destruct rest as [|i rest]; apply some_inj, pair_equal_spec in Qi as [Qi _]; apply pair_equal_spec in Qi as [<- _]; [reflexivity|].
            unfold st1. destruct (Z.eqb_spec x (baddr be (nbytes (ot r)) (oa r) i)) as [->|]; [|reflexivity].
            exfalso. apply (Hx _ _ Va). unfold inside. apply baddr_in, RI. now left.
          * destruct rest; apply some_inj, pair_equal_spec in Qi as [Qi _]; apply pair_equal_spec in Qi as [<- _]; reflexivity.
          * destruct (native ar be (ot r) (oa r) (oo r) (imem s)) as [[m1 res0]|] eqn:Qn; [|discriminate].
            apply some_inj, pair_equal_spec in Qi as [Qi _]; apply pair_equal_spec in Qi as [<- _].
            apply (native_ok ar be vars _ _ _ _ _ _ AO LO Va Hm Bc Qn). now apply Hx.
          * apply some_inj, pair_equal_spec in Qi as [Qi _]; apply pair_equal_spec in Qi as [<- _]; reflexivity.
        + destruct (cur c); [discriminate|]. apply some_inj, pair_equal_spec in Q as [<- _]. reflexivity.
        + apply some_inj, pair_equal_spec in Q as [<- _]. reflexivity.
        + destruct (deliverable ar (status (regs c))); [|discriminate]. apply some_inj, pair_equal_spec in Q as [<- _]. reflexivity.
        + destruct (cur c); [discriminate|]. destruct below; [discriminate|]. apply some_inj, pair_equal_spec in Q as [<- _]. reflexivity. }
    rewrite (G ls _ _ _ s h (init_inv ar be vars LO m s0 Hm) H). reflexivity.
  Qed.
End Top.
