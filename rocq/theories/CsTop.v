(** Runs of the critical-section machine *)
From Coq Require Import ZArith List Bool Lia PeanoNat.
From Verif Require Import Words Spec WordsFacts OrderingModel LinFacts ByteMem ByteMemFacts ByteSpec RiscvModel RiscvProofs RiscvMain IntModel IntProofs IntMain CsSpec CsModel CsProofs CsMain.
Import ListNotations.
Open Scope Z_scope.

Section Top.
  Variables (c : cfg) (be : bool) (vars : layout) (rd_order wr_order : nat -> list nat).
  Hypothesis CO : cfg_ok c vars.
  Hypothesis LO : layout_ok vars.
  Hypothesis RO : forall n i, (i < n)%nat -> In i (rd_order n).
  Hypothesis WO : forall n i, In i (wr_order n) <-> (i < n)%nat.
  Variable sem : Z -> bop -> Z -> Z * res -> Prop.
  Hypothesis Sexact : forall a t o x, vars a = Some t -> sem a o x (bsem t o x).
  Hypothesis Sspur : forall a t cu nw su fa x, c <> Feature -> vars a = Some t -> sem a (BCasWeak cu nw su fa) x (x, RErr x).
  Notation step := (mstep c be vars rd_order wr_order).
  Notation run := (mruns c be vars rd_order wr_order).
  Notation init_vals m := (fun a => match vars a with Some t => value_at be m t a | None => 0 end).
  Notation Inv := (Inv c be vars).

  Lemma step_sim s l s' e A : Inv s A -> step s l = Some (s', e) -> exists A', asim sem A e A' /\ Inv s' A'.
  Proof.
    intros Hi H. pose proof Hi as [Hm Hr HT HL HV]. destruct l as [t a o|t sp|t|t]; cbn [mstep] in H.
    - destruct (mthr s t) eqn:Et; try discriminate. destruct (vars a) as [ty|] eqn:Va; [|discriminate].
      destruct (bcallable ty o) eqn:Bc; [|discriminate]. apply some_inj, pair_equal_spec in H as [<- <-].
      pose proof (HT t) as Ph. rewrite Et in Ph. cbn in Ph.
      exists (mk_astate (avals A) (updn (aphases A) t (APending a o))). split.
      + right. eapply a_call; [exact Ph | reflexivity | split; [apply updn_same | intros; now apply updn_other]].
      + constructor; cbn [mmem mlock mheld mthr avals aphases]; auto.
        * intros u. unfold updn. destruct (Nat.eqb_spec u t) as [->|]; [|apply HT].
          refine (conj Va (conj Bc _)). unfold pc_inv, start. cbn [mp ma mt mo]. destruct (path_of c a o); split; reflexivity.
        * apply lock_same; [|exact HL]. rewrite Et. cbn. unfold start. destruct (path_of c a o); reflexivity.
        * intros b ub Vb N. apply HV; [exact Vb|]. intros u Hu. destruct (Nat.eq_dec u t) as [->|Nu].
          -- destruct Hu as (? & ? & ? & ? & E0 & _). congruence.
          -- apply (N u). unfold updn. destruct (Nat.eqb_spec u t); [congruence | exact Hu].
    - destruct (mthr s t) as [|r|] eqn:Et; try discriminate.
      destruct (match mp r with MReturn _ => false | _ => true end) eqn:NR.
      + assert (H' : match minstr c be rd_order wr_order s t r sp with
            | Some (m', l', p') => Some (mk_mstate m' l' (mheld s) (updn (mthr s) t (match p' with Some p => MBusy (mk_mrun (ma r) (mt r) (mo r) p) | None => MDead end)), [])
            | None => None end = Some (s', e)) by (destruct (mp r); try discriminate NR; exact H).
        destruct (minstr c be rd_order wr_order s t r sp) as [[[m' l'] p']|] eqn:Q; [|discriminate].
        apply some_inj, pair_equal_spec in H' as [<- <-].
        exact (instr_sim c be vars rd_order wr_order CO LO RO WO sem Sexact Sspur s A t r sp m' l' p' Hi Et NR Q).
      + destruct (mp r) as [| | | | | | | | |out] eqn:Ep; try discriminate NR. apply some_inj, pair_equal_spec in H as [<- <-].
        pose proof (HT t) as Ph. rewrite Et in Ph. destruct Ph as (Va & Bc & P). unfold pc_inv in P. rewrite Ep in P.
        exists (mk_astate (avals A) (updn (aphases A) t AIdle)). split.
        * right. eapply a_return; [exact P | reflexivity | split; [apply updn_same | intros; now apply updn_other]].
        * constructor; cbn [mmem mlock mheld mthr avals aphases]; auto.
          -- intros u. unfold updn. destruct (Nat.eqb_spec u t) as [->|]; [reflexivity | apply HT].
          -- apply lock_same; [|exact HL]. rewrite Et. cbn. now rewrite Ep.
          -- intros b ub Vb N. apply HV; [exact Vb|]. intros u Hu. destruct (Nat.eq_dec u t) as [->|Nu].
             ++ destruct Hu as (? & ? & ? & ? & E0 & E1 & _). congruence.
             ++ apply (N u). unfold updn. destruct (Nat.eqb_spec u t); [congruence | exact Hu].
    - destruct (mthr s t) eqn:Et; try discriminate. destruct (enter (mlock s) t) as [l'|] eqn:El; [|discriminate].
      apply some_inj, pair_equal_spec in H as [<- <-]. exists A. split; [now left|].
      constructor; cbn [mmem mlock mheld mthr]; auto.
      eapply lock_enter; [exact HL | exact El | |].
      + rewrite updn_same. lia.
      + intros u Nu. rewrite updn_other by exact Nu. auto.
    - destruct (mthr s t) eqn:Et; try discriminate. destruct (mheld s t) as [|d] eqn:Eh; [discriminate|].
      apply some_inj, pair_equal_spec in H as [<- <-]. exists A. split; [now left|].
      constructor; cbn [mmem mlock mheld mthr]; auto.
      eapply lock_leave; [exact HL | |].
      + rewrite updn_same, Eh. lia.
      + intros u Nu. rewrite updn_other by exact Nu. auto.
  Qed.

  Lemma run_sim m0 ls : forall s s' h h0 A, asteps sem (mk_astate (init_vals m0) (fun _ => AIdle)) h0 A -> Inv s A ->
    run s ls = Some (s', h) -> exists A', asteps sem (mk_astate (init_vals m0) (fun _ => AIdle)) (h0 ++ h) A' /\ Inv s' A'.
  Proof.
    induction ls as [|l ls IH]; intros s s' h h0 A HA HI H; cbn [mruns] in H.
    - apply some_inj, pair_equal_spec in H as [<- <-]. rewrite app_nil_r. eauto.
    - destruct (step s l) as [[s1 e]|] eqn:Q; [|discriminate]. destruct (run s1 ls) as [[s2 es]|] eqn:Q2; [|discriminate].
      apply some_inj, pair_equal_spec in H as [<- <-]. destruct (step_sim s l s1 e A HI Q) as (A1 & S1 & I1).
      rewrite app_assoc. eapply (IH s1 s2 es (h0 ++ e) A1); [| exact I1 | exact Q2].
      destruct S1 as [[-> ->]|S1]; [now rewrite app_nil_r | eapply as_snoc; eassumption].
  Qed.
  Lemma init_inv m : byte_mem m -> Inv (minit m) (mk_astate (init_vals m) (fun _ => AIdle)).
  Proof.
    intros Hm. constructor; cbn [minit mmem mlock mheld mthr avals aphases]; auto; try reflexivity.
    - intros a t Va. rewrite Va. destruct (size_cases t (lo_size vars LO a t Va)) as (Hw & E8 & _).
      unfold value_at. apply of_bits_range; [exact Hw | rewrite <- E8; apply ld_range, Hm].
    - intros t. reflexivity.
    - intros a t Va _. now rewrite Va.
  Qed.
  Theorem reach m ls s h : byte_mem m -> run (minit m) ls = Some (s, h) ->
    exists A, asteps sem (mk_astate (init_vals m) (fun _ => AIdle)) h A /\ Inv s A.
  Proof.
    intros Hm H. apply (run_sim m ls (minit m) s h [] (mk_astate (init_vals m) (fun _ => AIdle))); [|now apply init_inv | exact H].
    apply as_nil; reflexivity.
  Qed.

  Lemma free_values s A : Inv s A -> mlock s = None -> forall a t, vars a = Some t -> avals A a = value_at be (mmem s) t a.
  Proof.
    intros Hi L a t Va. apply (inv_vals _ _ _ s A Hi); [exact Va|]. intros u (r & v & out & rest & E & Ep & _).
    pose proof (inv_lock _ _ _ s A Hi) as HL. rewrite L in HL. specialize (HL u). rewrite E in HL. cbn in HL. rewrite Ep in HL. cbn in HL. lia.
  Qed.
  Theorem cs_lin m ls s h : byte_mem m -> run (minit m) ls = Some (s, h) ->
    linearizable_to sem (init_vals m) h (match mlock s with None => values be vars (mmem s) | Some _ => fun _ => None end).
  Proof.
    intros Hm H. destruct (reach m ls s h Hm H) as (A & HA & Hi). exists A. split; [exact HA|].
    intros a v Hv. destruct (mlock s) eqn:L; [discriminate|]. unfold values in Hv. destruct (vars a) as [t|] eqn:Va; [|discriminate].
    injection Hv as <-. now apply (free_values s A Hi L).
  Qed.
End Top.

Section Facts.
  Variables (c : cfg) (be : bool) (vars : layout) (rd_order wr_order : nat -> list nat).
  Hypothesis CO : cfg_ok c vars.
  Hypothesis LO : layout_ok vars.
  Hypothesis RO : forall n i, (i < n)%nat -> In i (rd_order n).
  Hypothesis WO : forall n i, In i (wr_order n) <-> (i < n)%nat.
  Notation step := (mstep c be vars rd_order wr_order).
  Notation run := (mruns c be vars rd_order wr_order).
  Definition any_sem (a : Z) (o : bop) (x : Z) (out : Z * res) : Prop := True.

  Lemma reached m ls s h : byte_mem m -> run (minit m) ls = Some (s, h) -> exists A, Inv c be vars s A.
  Proof.
    intros Hm H. destruct (reach c be vars rd_order wr_order CO LO RO WO any_sem (fun _ _ _ _ _ => I) (fun _ _ _ _ _ _ _ _ _ => I) m ls s h Hm H) as (A & _ & Hi).
    eauto.
  Qed.
  Lemma run_app ls1 : forall ls2 s s' h, run s (ls1 ++ ls2) = Some (s', h) ->
    exists s1 h1 h2, run s ls1 = Some (s1, h1) /\ run s1 ls2 = Some (s', h2) /\ h = h1 ++ h2.
  Proof.
    induction ls1 as [|l ls1 IH]; intros ls2 s s' h H; cbn [app mruns] in *; [exists s, [], h; auto|].
    destruct (step s l) as [[s1 e]|]; [|discriminate]. destruct (run s1 (ls1 ++ ls2)) as [[s2 es]|] eqn:Q; [|discriminate].
    injection H as <- <-. destruct (IH _ _ _ _ Q) as (s3 & h1 & h2 & E1 & E2 & ->). rewrite E1. do 3 eexists. split; [reflexivity|].
    split; [exact E2 | apply app_assoc].
  Qed.

  (** *** the critical section after an operation *)
  Lemma idle_lock s A t : Inv c be vars s A -> mthr s t = MIdle ->
    match mheld s t with
    | O => forall d, mlock s <> Some (t, d)
    | d => mlock s = Some (t, d)
    end.
  Proof.
    intros Hi Et. pose proof (inv_lock _ _ _ s A Hi) as L. unfold lock_inv in L. destruct (mheld s t) as [|d] eqn:Eh.
    - intros d E. rewrite E in L. destruct L as (D & P & _). rewrite Et, Eh in D. cbn in D. lia.
    - destruct (mlock s) as [[u d']|].
      + destruct L as (D & P & N). destruct (Nat.eq_dec t u) as [->|Nt].
        * rewrite Et, Eh in D. cbn in D. f_equal. f_equal. lia.
        * specialize (N t Nt). lia.
      + specialize (L t). lia.
  Qed.

  (** *** progress *)
  Lemma blocked s A t r sp : Inv c be vars s A -> mthr s t = MBusy r -> step s (MStep t sp) = None ->
    mp r = MAcquire /\ exists u d, u <> t /\ mlock s = Some (u, d).
  Proof.
    intros Hi Et H. cbn [mstep] in H. rewrite Et in H. pose proof (inv_thr _ _ _ s A Hi t) as T. rewrite Et in T.
    destruct T as (Va & Bc & P). unfold pc_inv in P. unfold minstr in H. fold (op_of c r) in H.
    assert (ESP : path_of c (ma r) (mo r) = Inner \/ path_of c (ma r) (mo r) = NegLoop ->
      (match mo r with BOp (OLoad _) | BOp (OStore _ _) => true | _ => s32c1i_works (chip_of c) (mt r) (ma r) end) = true).
    { intros Pt. destruct (native_esp c _ _ Pt) as (ch & cs & Ec).
      pose proof (esp_size c vars CO LO ch cs (ma r) (mt r) Ec Va) as Sz.
      pose proof (lo_aligned vars LO _ _ Va) as Al. rewrite Ec in Pt |- *. cbn [chip_of].
      destruct (in_psram ch (ma r)) eqn:Ei; [|rewrite (s32c1i_spec ch _ _ Sz Al Ei); now destruct (mo r) as [[]| |]].
      unfold path_of in Pt. rewrite Ei in Pt. destruct (mo r) as [[]| |]; cbn in *; try reflexivity; destruct cs, Pt; discriminate. }
    assert (OP : forall o, mp r = MInner -> o = op_of c r -> core_op be (chip_of c) (mt r) (ma r) o sp (mmem s) <> None).
    { intros o Ep ->. rewrite Ep in P. destruct P as (_ & Pt). specialize (ESP (or_introl Pt)).
      destruct (native_esp c _ _ (or_introl Pt)) as (ch & cs & Ec). unfold op_of. rewrite Ec in *.
      apply core_total; unfold path_of in Pt.
      - destruct (mo r) as [[| |[]|]| |[]]; cbn in *; try reflexivity; destruct cs, (in_psram ch (ma r)); discriminate.
      - destruct (mo r) as [[| |[]|]| |[]]; cbn in *; try reflexivity; assumption. }
    destruct (mp r) as [|[|i rest] acc|acc|v out [|i rest]|out| | |pv| |out] eqn:Ep; try discriminate.
    - split; [reflexivity|]. unfold enter in H. destruct (mlock s) as [[u d]|]; [|discriminate].
      destruct (Nat.eqb_spec u t); [discriminate|]. eauto.
    - destruct (emul _ _ _) as [[]]; discriminate.
    - specialize (OP _ eq_refl eq_refl). destruct (core_op be (chip_of c) (mt r) (ma r) (op_of c r) sp (mmem s)) as [[]|]; [discriminate | congruence].
    - destruct P as ((_ & Pt) & _). specialize (ESP (or_intror Pt)). destruct (native_esp c _ _ (or_intror Pt)) as (ch & cs & Ec).
      assert (W : s32c1i_works (chip_of c) (mt r) (ma r) = true).
      { rewrite Ec in Pt. destruct (neg_only _ _ _ _ Pt) as (ord & [Eo|Eo]); rewrite Eo in ESP; exact ESP. }
      exfalso. revert H. cbn [core_op]. rewrite W. destruct sp; [discriminate|]. destruct (_ =? _); discriminate.
  Qed.

  (** *** races *)
  Lemma plain_lock s A t r : Inv c be vars s A -> mthr s t = MBusy r -> in_cs (mp r) = true -> exists d, mlock s = Some (t, d).
  Proof.
    intros Hi Et Hp. pose proof (inv_lock _ _ _ s A Hi) as L. unfold lock_inv in L.
    assert (G : guards (mthr s t) = 1%nat) by (rewrite Et; cbn; now rewrite Hp).
    destruct (mlock s) as [[u d]|].
    - destruct (Nat.eq_dec t u) as [->|Nt]; [eauto|]. destruct L as (_ & _ & N). specialize (N t Nt). lia.
    - specialize (L t). lia.
  Qed.

  (** *** only the bytes of variables change *)
  Lemma step_frame s A l s' e x : Inv c be vars s A -> step s l = Some (s', e) ->
    (forall a t, vars a = Some t -> ~ inside a t x) -> mmem s' x = mmem s x.
  Proof.
    intros Hi H N. destruct l as [t a o|t sp|t|t]; cbn [mstep] in H.
    - destruct (mthr s t); try discriminate. destruct (vars a); [|discriminate]. destruct (bcallable _ _); [|discriminate]. now injection H as <- <-.
    - destruct (mthr s t) as [|r|] eqn:Et; try discriminate.
      pose proof (inv_thr _ _ _ s A Hi t) as T. rewrite Et in T. destruct T as (Va & Bc & P). specialize (N _ _ Va).
      assert (M : forall m' l' p', minstr c be rd_order wr_order s t r sp = Some (m', l', p') -> m' x = mmem s x).
      { intros m' l' p' Q. unfold minstr in Q. unfold pc_inv in P.
        assert (CORE : forall o m1 out, core_op be (chip_of c) (mt r) (ma r) o sp (mmem s) = Some (m1, out) -> m1 x = mmem s x).
        { assert (ST : forall v, st be (nbytes (mt r)) (mmem s) (ma r) v x = mmem s x) by (intros v; apply st_out; unfold inside in N; lia).
          intros o m1 out. unfold core_op. destruct o as [[]| |]; try (intros [= <- <-]; reflexivity || apply ST).
          - destruct r0; try discriminate; (destruct (s32c1i_works _ _ _); [|discriminate]); intros [= <- <-]; apply ST.
          - destruct (s32c1i_works _ _ _); [|discriminate]. destruct (_ =? _); intros [= <- <-]; [apply ST | reflexivity].
          - destruct sp; (destruct (s32c1i_works _ _ _); [|discriminate]); [intros [= <- <-]; reflexivity|].
            destruct (_ =? _); intros [= <- <-]; [apply ST | reflexivity]. }
        destruct (mp r) as [|[|i rest] acc|acc|v out [|i rest]|out| | |pv| |out].
        - destruct (enter _ _); [|discriminate]. now injection Q as <- <- <-.
        - now injection Q as <- <- <-.
        - now injection Q as <- <- <-.
        - destruct (emul _ _ _) as [[]]; now injection Q as <- <- <-.
        - now injection Q as <- <- <-.
        - injection Q as <- <- <-. unfold st1. destruct P as (_ & _ & RI & _).
          destruct (Z.eqb_spec x (baddr be (nbytes (mt r)) (ma r) i)) as [E|]; [|reflexivity].
          destruct N. rewrite E. unfold inside. apply baddr_in, RI. now left.
        - now injection Q as <- <- <-.
        - destruct (core_op _ _ _ _ _ _ _) as [[m1 out]|] eqn:Q1; [|discriminate]. injection Q as <- <- <-. eapply CORE, Q1.
        - destruct (core_op _ _ _ _ _ _ _) as [[m1 []]|] eqn:Q1; try discriminate. injection Q as <- <- <-. eapply CORE, Q1.
        - destruct (core_op _ _ _ _ _ _ _) as [[m1 []]|] eqn:Q1; try discriminate; injection Q as <- <- <-; eapply CORE, Q1.
        - now injection Q as <- <- <-.
        - now injection Q as <- <- <-. }
      destruct (mp r) eqn:Ep; try (destruct (minstr c be rd_order wr_order s t r sp) as [[[m' l'] p']|] eqn:Q; [|discriminate]; injection H as <- <-; exact (M _ _ _ eq_refl)).
      now injection H as <- <-.
    - destruct (mthr s t); try discriminate. destruct (enter _ _); [|discriminate]. now injection H as <- <-.
    - destruct (mthr s t); try discriminate. destruct (mheld s t); [discriminate|]. now injection H as <- <-.
  Qed.
End Facts.
