(** Main lemmas about the fallback machine, in the shape used by the property files. *)
From Coq Require Import ZArith Lia Bool List PeanoNat ZifyBool.
From Verif Require Import Words Spec WordsFacts LinFacts OrderingModel FallbackModel FallbackFacts
  FallbackProofs FallbackStruct FallbackProgress.
Import ListNotations.
Open Scope Z_scope.

Section Main.
  Variable c : config.
  Hypothesis WF : wf_config c.

  Lemma R_init m : wf_mem c m -> R c (init m) (mk_rstate (var_value c m) (fun _ => RIdle)).
  Proof.
    intros WM. unfold R, init; cbn. splits; auto; try tauto.
    - intros k. unfold lock_inv, stamp, era; cbn. splits; try lia; try discriminate.
    - intros a ty Hty. cbn. unfold var_value. rewrite (obj_ty_eq _ _ _ Hty).
      destruct (to_of_chunks c WF a ty (chunks_at c m a (len c ty)) Hty) as [E1 E2].
      + apply chunks_at_length.
      + unfold chunks_at. rewrite Forall_forall. intros x Hx. apply in_map_iff in Hx. destruct Hx as [i [<- _]]. apply WM.
      + split; auto.
  Qed.

  Lemma sim_run I0 ls : forall s A h0 s' h,
    rsteps (atomic_var c) I0 h0 A -> R c s A -> windows_ok c s ls -> run c s ls = Some (s', h) ->
    exists A', rsteps (atomic_var c) I0 (h0 ++ h) A' /\ R c s' A'.
  Proof.
    induction ls as [|l ls IH]; intros s A h0 s' h HA HR HW; cbn [run].
    - intros [= <- <-]. rewrite app_nil_r. eauto.
    - cbn [windows_ok] in HW. destruct HW as [HW1 HW2].
      destruct (step c s l) as [[s1 e]|] eqn:Es; [|discriminate].
      destruct (run c s1 ls) as [[s2 es]|] eqn:Er; [|discriminate]. intros [= <- <-].
      destruct (sim_step c WF s A l s1 e HR HW1 Es) as (A1 & HA1 & HR1).
      rewrite app_assoc. eapply IH with (s := s1) (A := A1); eauto.
      destruct HA1 as [[-> ->]|HA1].
      + now rewrite app_nil_r.
      + eapply rs_snoc; eauto.
  Qed.

  Lemma fallback_sim m ls s h :
    wf_mem c m -> windows_ok c (init m) ls -> run c (init m) ls = Some (s, h) ->
    exists A, rsteps (atomic_var c) (mk_rstate (var_value c m) (fun _ => RIdle)) h A /\ R c s A.
  Proof.
    intros WM HW Hr.
    destruct (sim_run (mk_rstate (var_value c m) (fun _ => RIdle)) ls (init m) (mk_rstate (var_value c m) (fun _ => RIdle)) [] s h) as (A & HA & HR); eauto using R_init.
    apply rs_nil; reflexivity.
  Qed.

  Lemma fallback_linearizable_lemma m ls s h :
    wf_mem c m -> windows_ok c (init m) ls -> run c (init m) ls = Some (s, h) ->
    linearizable (atomic_var c) (var_value c m) h.
  Proof.
    intros WM HW Hr. destruct (fallback_sim m ls s h WM HW Hr) as (A & HA & HR).
    eapply linearizable_to_linearizable with (f := fun _ => None).
    eapply rsteps_linearizable_to; eauto. discriminate.
  Qed.

  (** When nobody is inside a call, memory holds exactly the abstract values. *)
  Lemma fallback_quiescent_lemma m ls s h :
    wf_mem c m -> windows_ok c (init m) ls -> run c (init m) ls = Some (s, h) ->
    (forall t, pcs s t = Idle) ->
    linearizable_to (atomic_var c) (var_value c m) h
      (fun a => match objs c a with Some _ => Some (var_value c (mem s) a) | None => None end).
  Proof.
    intros WM HW Hr HI. destruct (fallback_sim m ls s h WM HW Hr) as (A & HA & HR).
    eapply rsteps_linearizable_to; eauto. intros a v Hv.
    destruct (objs c a) as [ty|] eqn:Ety; [|discriminate]. injection Hv as <-.
    destruct HR as (_ & _ & _ & RO). destruct (RO a ty Ety) as [Hr' Hm].
    unfold var_value. rewrite (obj_ty_eq _ _ _ Ety), Hm.
    - symmetry. eapply of_to_chunks; eauto.
    - intros t. rewrite HI. cbn. tauto.
  Qed.

  Lemma reach_SInv m ls s h : run c (init m) ls = Some (s, h) -> SInv c s.
  Proof. intros. eapply SInv_run; eauto. apply SInv_init. Qed.

  (** All calls returned => all locks free. *)
  Lemma quiescent_locks_free m ls s h k :
    run c (init m) ls = Some (s, h) -> (forall t, pcs s t = Idle) -> lo (locks s k) <> LOCKED.
  Proof.
    intros Hr HI E. destruct (reach_SInv _ _ _ _ Hr) as (_ & _ & _ & I4 & _).
    destruct (I4 k E) as [t Ht]. rewrite HI in Ht. contradiction.
  Qed.

  (** A step changes the value of a variable only if it is a step of a store, RMW or successful
      compare_exchange on that very variable, made while holding its lock. *)
  Lemma only_owner_changes m ls s h l s' e b tb :
    run c (init m) ls = Some (s, h) -> step c s l = Some (s', e) -> objs c b = Some tb ->
    var_value c (mem s') b <> var_value c (mem s) b ->
    exists o, pc_obj (pcs s (tid l)) = Some (b, o) /\ is_load o = false /\
      exists st new j r, pcs s (tid l) = LWrite b o st new j r /\ is_err r = false.
  Proof.
    intros Hr Hs Hb Hv. pose proof (reach_SInv _ _ _ _ Hr) as I.
    assert (exists i, (i < len c tb)%nat /\ mem s' (chunk_addr c b i) <> mem s (chunk_addr c b i)) as [i [Hi Hx]].
    { destruct (Exists_dec (fun i => mem s' (chunk_addr c b i) <> mem s (chunk_addr c b i)) (seq 0 (len c tb))) as [H|H].
      - intros i. destruct (Z.eq_dec (mem s' (chunk_addr c b i)) (mem s (chunk_addr c b i))); [right|left]; auto.
      - apply Exists_exists in H. destruct H as [i [Hi Hx]]. apply in_seq in Hi. exists i. split; [lia|auto].
      - exfalso. apply Hv. unfold var_value. rewrite (obj_ty_eq _ _ _ Hb). f_equal. apply chunks_at_ext. intros i Hi.
        destruct (Z.eq_dec (mem s' (chunk_addr c b i)) (mem s (chunk_addr c b i))) as [E|E]; auto.
        exfalso. apply H. apply Exists_exists. exists i. split; auto. apply in_seq. lia. }
    destruct (step_mem_change c s l s' e _ I Hs Hx) as (a & o & ty & j & Ho & Hty & Hj & Ex & Hl & _ & st & new & n & r & Hp & He).
    assert (b = a) by (apply (proj2 WF b a tb ty i j); auto). subst a.
    exists o. splits; auto. exists st, new, n, r. auto.
  Qed.
End Main.
