(** C03: the window bound of C01/C02 cannot be improved.  Executions in which exactly
    [max_window] writes complete during one optimistic load and the load returns a value
    the variable never held. *)
From Coq Require Import ZArith Lia Bool List PeanoNat ZifyBool.
From Verif Require Import Words Spec WordsFacts LinFacts OrderingModel FallbackModel FallbackFacts
  FallbackProofs FallbackStruct FallbackProgress FallbackMain FallbackExtra.
Import ListNotations.
Open Scope Z_scope.

(** Like [windows_ok] with the bound [W] allowed to be reached. *)
Definition window_at_most (c : config) (W : Z) (s : state) (t : nat) : Prop :=
  match pcs s t with
  | ValLo a _ _ _ _ _ g2 => wide c = false -> writes s (lock_index a) - g2 <= W
  | ValHi a _ _ _ _ _ g _ _ => writes s (lock_index a) - g <= W
  | _ => True
  end.
Fixpoint windows_at_most (c : config) (W : Z) (s : state) (ls : list label) : Prop :=
  match ls with
  | [] => True
  | l :: ls' => window_at_most c W s (tid l) /\
                match step c s l with Some (s', _) => windows_at_most c W s' ls' | None => True end
  end.

Lemma windows_app c W l1 : forall s s1 h1 l2, run c s l1 = Some (s1, h1) ->
  windows_at_most c W s l1 -> windows_at_most c W s1 l2 -> windows_at_most c W s (l1 ++ l2).
Proof.
  induction l1 as [|l l1 IH]; intros s s1 h1 l2; cbn [run windows_at_most app].
  - now intros [= <- <-].
  - destruct (step c s l) as [[s' e]|]; [|discriminate].
    destruct (run c s' l1) as [[s2 es]|] eqn:Er; [|discriminate]. intros [= <- <-] [H1 H2] H3.
    split; eauto.
Qed.

(** A history in which only loads and stores of 0 and M on variable 0 are called returns
    only 0 and M. *)
Section Values.
  Variable c : config.
  Variable ty : ity.
  Variable M : Z.
  Hypothesis Hobj : objs c 0 = Some ty.
  Definition lab_ok (e : event op res) : Prop :=
    match e with
    | Call _ a o => a = 0 /\ match o with OLoad _ => True | OStore v _ => v = 0 \/ v = M | _ => False end
    | Return _ _ => True
    end.
  Definition ret_ok (e : event op res) : Prop :=
    match e with Return _ (RVal v) => v = 0 \/ v = M | _ => True end.
  Definition st_ok (s : astate op res) : Prop :=
    (avals s 0 = 0 \/ avals s 0 = M) /\
    forall t, match aphases s t with
              | AIdle => True
              | APending a o => lab_ok (Call t a o)
              | ADone r => ret_ok (Return t r)
              end.
  Lemma st_ok_step s e s' : astep (atomic_var c) s e s' -> st_ok s -> Forall lab_ok e -> st_ok s' /\ Forall ret_ok e.
  Proof.
    intros H [V P] L. inversion H as [? ? t a o Hp Hv Hu|? ? t a o v' r Hp Hs Hv Hu|? ? t r Hp Hv Hu]; subst.
    - inversion L; subst. destruct Hu as [U1 U2]. split; [|repeat constructor].
      split; [now rewrite Hv|]. intros u. destruct (Nat.eq_dec u t) as [->|]; [rewrite U1|rewrite U2 by auto]; auto. apply P.
    - destruct Hu as [U1 U2]. split; [|constructor]. pose proof (P t) as Pt. rewrite Hp in Pt. cbn in Pt.
      destruct Pt as [-> Po]. destruct Hs as (ty' & E & Hs). rewrite Hobj in E. injection E as <-.
      destruct Hv as [V1 V2].
      assert (K : (v' = 0 \/ v' = M) /\ ret_ok (Return t r)).
      { destruct o as [o|v o|r0 o|]; try contradiction; destruct o; cbn in Hs; injection Hs as -> ->; cbn; auto. }
      split; [rewrite V1; apply K|]. intros u. destruct (Nat.eq_dec u t) as [->|]; [rewrite U1; apply K|rewrite U2 by auto]; apply P.
    - destruct Hu as [U1 U2]. pose proof (P t) as Pt. rewrite Hp in Pt. split; [|repeat constructor; auto].
      split; [now rewrite Hv|]. intros u. destruct (Nat.eq_dec u t) as [->|]; [rewrite U1|rewrite U2 by auto]; auto. apply P.
  Qed.
  Lemma st_ok_steps s h s' : asteps (atomic_var c) s h s' -> st_ok s -> Forall lab_ok h -> st_ok s' /\ Forall ret_ok h.
  Proof.
    induction 1 as [s s' Hv Hp|s h s' e s'' H IH Hst]; intros HS HL.
    - destruct HS as [V P]. repeat split; [now rewrite Hv | intros t; rewrite Hp; apply P | constructor].
    - apply Forall_app in HL. destruct HL as [L1 L2]. destruct (IH HS L1) as [S1 R1].
      destruct (st_ok_step _ _ _ Hst S1 L2) as [S2 R2]. split; auto. apply Forall_app; auto.
  Qed.
  Lemma only_two_values init h : (init 0 = 0 \/ init 0 = M) -> Forall lab_ok h ->
    linearizable (atomic_var c) init h -> forall t v, In (Return t (RVal v)) h -> v = 0 \/ v = M.
  Proof.
    intros Hi HL [s Hs] t v Hin.
    destruct (st_ok_steps _ _ _ Hs) as [_ R]; auto.
    { split; [exact Hi|]. intros u. exact I. }
    rewrite Forall_forall in R. exact (R _ Hin).
  Qed.
End Values.

(** [n] stores by thread 1. *)
Definition st1 : label := mk_label 1 None.
Definition call_store (w : Z) : label := mk_label 1 (Some (0, OStore w Relaxed)).
Definition store_events (w : Z) : list (event op res) := [Call 1 0 (OStore w Relaxed); Return 1 RUnit].

Section Stores.
  Variable c : config.
  Variable ty : ity.
  Hypothesis Hobj : objs c 0 = Some ty.
  Hypothesis Hlen : len c ty = 2%nat.
  Variable X M : Z.
  Hypothesis H0 : to_chunks c ty 0 = [0; 0].
  Hypothesis HM : to_chunks c ty M = [X; X].
  Hypothesis T0 : in_rangeb ty 0 = true.
  Hypothesis TM : in_rangeb ty M = true.

  Definition okv (w : Z) : Prop := w = 0 \/ w = M.
  Definition ch (w : Z) : Z := if w =? 0 then 0 else X.
  Hypothesis MX : M <> 0.

  Lemma ch_spec w : okv w -> to_chunks c ty w = [ch w; ch w] /\ in_rangeb ty w = true.
  Proof. intros [->| ->]; unfold ch; [rewrite Z.eqb_refl|rewrite (proj2 (Z.eqb_neq M 0) MX)]; auto. Qed.

  Definition St (s : state) (p0 : pc) (n w : Z) : Prop :=
    pcs s 0%nat = p0 /\ pcs s 1%nat = Idle /\
    mem s (chunk_addr c 0 0) = ch w /\ mem s (chunk_addr c 0 1) = ch w /\
    lo (locks s 0) = stamp c n /\ (wide c = true -> hi (locks s 0) = era n mod 2 ^ 32) /\ writes s 0 = n.

  Lemma obj0 : obj_ty c 0 = ty.
  Proof. unfold obj_ty. now rewrite Hobj. Qed.

  Definition wraps (n : Z) : bool := wide c && (next_lo c (stamp c n) =? 0).
  Definition store_sched (n w : Z) : list label :=
    call_store w :: repeat st1 (if wraps n then 9 else 7).

  Lemma ca01 : chunk_addr c 0 0 <> chunk_addr c 0 1.
  Proof. unfold chunk_addr, chunk_bytes. destruct (wide c); cbn; lia. Qed.

  Ltac onestep := cbn [windows_at_most window_at_most run repeat]; unfold window_at_most;
    cbn [st1 call_store tid call step pcs go set_n Nat.eqb].

  Lemma St_store s p0 n w0 w W : St s p0 n w0 -> okv w ->
    exists s', run c s (store_sched n w) = Some (s', store_events w) /\ St s' p0 (n + 1) w /\
               windows_at_most c W s (store_sched n w).
  Proof.
    intros (P0 & P1 & M0 & M1 & L & Hh & Wn) Hw. destruct (ch_spec w Hw) as [Cw Tw].
    assert (NL : (stamp c n =? LOCKED) = false) by (apply Z.eqb_neq, stamp_even).
    unfold store_sched.
    (* step by step *)
    assert (S1 : step c s (call_store w) = Some (go s 1 (Start 0 (OStore w Relaxed)), [Call 1 0 (OStore w Relaxed)])).
    { unfold step. cbn [call_store tid call]. rewrite P1, Hobj. cbn [op_typedb]. now rewrite Tw. }
    set (s1 := go s 1 (Start 0 (OStore w Relaxed))) in *.
    set (s2 := go s1 1 (Acq 0 (OStore w Relaxed))).
    assert (S2 : step c s1 st1 = Some (s2, [])) by reflexivity.
    set (s3 := go (mk_state (mem s2) (set_z (locks s2) 0 (mk_lock LOCKED (hi (locks s2 0)))) (pcs s2) (writes s2)) 1
                  (LWrite 0 (OStore w Relaxed) (stamp c n) [ch w; ch w] 0 RUnit)).
    assert (S3 : step c s2 st1 = Some (s3, [])).
    { unfold step. cbn [st1 tid call]. unfold s2 at 1. cbn [go pcs]. rewrite set_n_same.
      change (lock_index 0) with 0. change (locks s2 0) with (locks s 0). rewrite L, NL, obj0, Cw. reflexivity. }
    set (s4 := mk_state (set_z (mem s3) (chunk_addr c 0 0) (ch w)) (locks s3)
                  (set_n (pcs s3) 1 (LWrite 0 (OStore w Relaxed) (stamp c n) [ch w; ch w] 1 RUnit)) (writes s3)).
    assert (S4 : step c s3 st1 = Some (s4, [])).
    { unfold step. cbn [st1 tid call]. unfold s3 at 1. cbn [go pcs]. rewrite set_n_same, obj0, Hlen. reflexivity. }
    set (s5 := mk_state (set_z (mem s4) (chunk_addr c 0 1) (ch w)) (locks s4)
                  (set_n (pcs s4) 1 (LWrite 0 (OStore w Relaxed) (stamp c n) [ch w; ch w] 2 RUnit)) (writes s4)).
    assert (S5 : step c s4 st1 = Some (s5, [])).
    { unfold step. cbn [st1 tid call]. unfold s4 at 1. cbn [go pcs]. rewrite set_n_same, obj0, Hlen. reflexivity. }
    assert (Hmem : forall s', mem s' = mem s5 -> mem s' (chunk_addr c 0 0) = ch w /\ mem s' (chunk_addr c 0 1) = ch w).
    { intros s' ->. cbn. split; [rewrite set_z_other by apply ca01|]; apply set_z_same. }
    unfold wraps. destruct (wide c && (next_lo c (stamp c n) =? 0)) eqn:Ew.
    - apply andb_true_iff in Ew. destruct Ew as [Ewd En]. apply Z.eqb_eq in En.
      set (s6 := go s5 1 (RelHiLd 0 (OStore w Relaxed) (stamp c n) RUnit)).
      assert (S6 : step c s5 st1 = Some (s6, [])).
      { unfold step. cbn [st1 tid call]. unfold s5 at 1. cbn [go pcs]. rewrite set_n_same, obj0, Hlen, Ewd, En. reflexivity. }
      set (s7 := go s6 1 (RelHiSt 0 (OStore w Relaxed) (stamp c n) (hi (locks s6 0)) RUnit)).
      assert (S7 : step c s6 st1 = Some (s7, [])) by reflexivity.
      set (s8 := mk_state (mem s7) (set_z (locks s7) 0 (mk_lock (lo (locks s7 0)) ((hi (locks s6 0) + 1) mod 2 ^ 32)))
                   (set_n (pcs s7) 1 (Rel 0 (OStore w Relaxed) (next_lo c (stamp c n)) true RUnit)) (writes s7)).
      assert (S8 : step c s7 st1 = Some (s8, [])) by reflexivity.
      set (s9 := mk_state (mem s8) (set_z (locks s8) 0 (mk_lock (next_lo c (stamp c n)) (hi (locks s8 0))))
                   (set_n (pcs s8) 1 (Fin RUnit)) (set_z (writes s8) 0 (writes s8 0 + 1))).
      assert (S9 : step c s8 st1 = Some (s9, [])) by reflexivity.
      set (s10 := go s9 1 Idle).
      assert (S10 : step c s9 st1 = Some (s10, [Return 1 RUnit])) by reflexivity.
      exists s10. splits.
      + cbn [run repeat]. rewrite S1, S2, S3, S4, S5, S6, S7, S8, S9, S10. reflexivity.
      + destruct (Hmem s10 eq_refl) as [A1 A2]. unfold St. splits; auto.
        * cbn. now rewrite next_lo_stamp.
        * intros _. cbn. rewrite Hh by assumption. rewrite (era_wrap c n Ewd En). now rewrite Zplus_mod_idemp_l.
        * cbn. now rewrite Wn.
      + cbn [windows_at_most repeat]. rewrite S1, S2, S3, S4, S5, S6, S7, S8, S9, S10.
        unfold window_at_most. cbn [call_store tid st1]. rewrite P1. cbn. repeat split.
    - set (s6 := go s5 1 (Rel 0 (OStore w Relaxed) (next_lo c (stamp c n)) true RUnit)).
      assert (S6 : step c s5 st1 = Some (s6, [])).
      { unfold step. cbn [st1 tid call]. unfold s5 at 1. cbn [go pcs]. rewrite set_n_same, obj0, Hlen, Ew. reflexivity. }
      set (s9 := mk_state (mem s6) (set_z (locks s6) 0 (mk_lock (next_lo c (stamp c n)) (hi (locks s6 0))))
                   (set_n (pcs s6) 1 (Fin RUnit)) (set_z (writes s6) 0 (writes s6 0 + 1))).
      assert (S9 : step c s6 st1 = Some (s9, [])) by reflexivity.
      set (s10 := go s9 1 Idle).
      assert (S10 : step c s9 st1 = Some (s10, [Return 1 RUnit])) by reflexivity.
      exists s10. splits.
      + cbn [run repeat]. rewrite S1, S2, S3, S4, S5, S6, S9, S10. reflexivity.
      + destruct (Hmem s10 eq_refl) as [A1 A2]. unfold St. splits; auto.
        * cbn. now rewrite next_lo_stamp.
        * intros Ewd. rewrite Ewd in Ew. cbn [andb] in Ew. apply Z.eqb_neq in Ew. cbn. rewrite Hh by assumption.
          now rewrite (era_next c n Ewd Ew).
        * cbn. now rewrite Wn.
      + cbn [windows_at_most repeat]. rewrite S1, S2, S3, S4, S5, S6, S9, S10.
        unfold window_at_most. cbn [call_store tid st1]. rewrite P1. cbn. repeat split.
  Qed.

  (** [k] stores of 0, then one store of [w]. *)
  Fixpoint stores (k : nat) (n w : Z) : list label :=
    match k with
    | O => store_sched n w
    | S k => store_sched n 0 ++ stores k (n + 1) w
    end.
  Lemma St_stores k : forall s p0 n w0 w W, St s p0 n w0 -> okv w ->
    exists s' h, run c s (stores k n w) = Some (s', h) /\ Forall (lab_ok M) h /\ St s' p0 (n + Z.of_nat k + 1) w /\
      windows_at_most c W s (stores k n w).
  Proof.
    assert (Ev : forall w, okv w -> Forall (lab_ok M) (store_events w)) by (intros w Hw; apply Forall_cons; [split; [reflexivity|exact Hw]|repeat constructor]).
    induction k as [|k IH]; intros s p0 n w0 w W HS Hw; cbn [stores].
    - destruct (St_store s p0 n w0 w W HS Hw) as (s' & Hr & HS' & Hwd). exists s', (store_events w). splits; auto.
      replace (n + Z.of_nat 0 + 1) with (n + 1) by lia. exact HS'.
    - destruct (St_store s p0 n w0 0 W HS (or_introl eq_refl)) as (s1 & Hr & HS' & Hwd).
      destruct (IH s1 p0 (n + 1) 0 w W HS' Hw) as (s2 & h2 & Hr2 & Hf & HS2 & Hwd2).
      exists s2, (store_events 0 ++ h2). splits.
      + eapply run_app; eauto.
      + apply Forall_app. split; auto. apply Ev. now left.
      + replace (n + Z.of_nat (S k) + 1) with (n + 1 + Z.of_nat k + 1) by lia. exact HS2.
      + eapply windows_app; eauto.
  Qed.
End Stores.

(** ** Narrow lock *)
Definition tight_narrow : config := mk_config false false (fun a => if a =? 0 then Some u128 else None).
Definition tight_wide : config := mk_config true false (fun a => if a =? 0 then Some u64 else None).
Definition zero_mem : Z -> Z := fun _ => 0.

Lemma tight_wf : wf_config tight_narrow /\ wf_config tight_wide.
Proof.
  split; (split;
  [ intros a t; cbn [objs tight_narrow tight_wide]; destruct (a =? 0); [|discriminate]; intros [= <-];
    exists 2%nat; split; [lia|reflexivity]
  | intros a b ta tb i j; cbn [objs tight_narrow tight_wide]; destruct (Z.eqb_spec a 0), (Z.eqb_spec b 0); try discriminate; lia ]).
Qed.
Lemma zero_mem_wf c : wf_mem c zero_mem.
Proof. intros x. unfold zero_mem, chunk_bits, chunk_bytes. destruct (wide c); cbn; lia. Qed.

Definition ld : op := OLoad Relaxed.
Definition st0 : label := mk_label 0 None.
Definition call_load : label := mk_label 0 (Some (0, ld)).

Lemma tight_narrow_lemma : exists ls s h,
  run tight_narrow (init zero_mem) ls = Some (s, h) /\
  windows_at_most tight_narrow (2 ^ 63) (init zero_mem) ls /\
  ~ linearizable (atomic_var tight_narrow) (var_value tight_narrow zero_mem) h.
Proof.
  set (c := tight_narrow). set (M := 2 ^ 128 - 1).
  assert (Hk : exists k, Z.of_nat k = 2 ^ 63 - 1) by (exists (Z.to_nat (2 ^ 63 - 1)); apply Z2Nat.id; lia).
  destruct Hk as [k Hk].
  (* reader: start, stamp, chunk 0 *)
  set (pre := [call_load; st0; st0; st0]).
  set (p0 := OptRead 0 ld 0 0 [0] 0 0).
  assert (exists s1, run c (init zero_mem) pre = Some (s1, [Call 0 0 ld]) /\
            St c (2 ^ 64 - 1) s1 p0 0 0 /\ windows_at_most c (2 ^ 63) (init zero_mem) pre) as (s1 & Hr1 & HS1 & Hw1).
  { eexists. splits; [reflexivity| |repeat split]. unfold St. splits; reflexivity. }
  destruct (St_stores c u128 eq_refl eq_refl (2 ^ 64 - 1) M eq_refl eq_refl eq_refl eq_refl ltac:(unfold M; lia)
     k s1 p0 0 0 M (2 ^ 63) HS1 (or_intror eq_refl)) as (s2 & h2 & Hr2 & Hf & HS2 & Hw2).
  replace (0 + Z.of_nat k + 1) with (2 ^ 63) in HS2 by lia.
  destruct HS2 as (P0 & P1 & M0 & M1 & L & _ & Wn).
  set (post := [st0; st0; st0; st0]).
  set (torn := of_chunks c u128 [0; 2 ^ 64 - 1]).
  assert (exists s3, run c s2 post = Some (s3, [Return 0 (RVal torn)]) /\ windows_at_most c (2 ^ 63) s2 post) as (s3 & Hr3 & Hw3).
  { set (t1 := go s2 0 (OptRead 0 ld 0 0 [0; 2 ^ 64 - 1] 0 0)).
    assert (S1 : step c s2 st0 = Some (t1, [])).
    { unfold step. cbn [st0 tid call]. rewrite P0. unfold p0.
      change (Nat.ltb (length [0]) (len c (obj_ty c 0))) with true. cbv iota.
      change (chunk_addr c 0 (length [0])) with (chunk_addr c 0 1). rewrite M1. reflexivity. }
    set (t2 := go t1 0 (ValLo 0 ld 0 0 torn 0 0)).
    assert (S2 : step c t1 st0 = Some (t2, [])) by reflexivity.
    set (t3 := go t2 0 (Fin (RVal torn))).
    assert (S3 : step c t2 st0 = Some (t3, [])).
    { unfold step. cbn [st0 tid call]. unfold t2 at 1. cbn [go pcs]. rewrite set_n_same.
      change (lock_index 0) with 0. change (locks t2 0) with (locks s2 0). rewrite L. reflexivity. }
    set (t4 := go t3 0 Idle).
    assert (S4 : step c t3 st0 = Some (t4, [Return 0 (RVal torn)])) by reflexivity.
    exists t4. split.
    - unfold post. cbn [run]. now rewrite S1, S2, S3, S4.
    - unfold post. cbn [windows_at_most]. rewrite S1, S2, S3, S4. unfold window_at_most. cbn [st0 tid].
      rewrite P0. unfold p0. cbn [t1 t2 t3 t4 go pcs set_n Nat.eqb]. repeat split.
      intros _. change (lock_index 0) with 0. change (writes t2 0) with (writes s2 0). lia. }
  exists (pre ++ (stores c k 0 M ++ post)), s3, ([Call 0 0 ld] ++ (h2 ++ [Return 0 (RVal torn)])). splits.
  - eapply run_app; eauto. eapply run_app; eauto.
  - eapply windows_app; eauto. eapply windows_app; eauto.
  - intros HL. assert (torn = 0 \/ torn = M) as HH.
    { eapply (only_two_values c u128 M eq_refl); [ | |exact HL|].
      - left. reflexivity.
      - apply Forall_app. split; [repeat constructor|]. apply Forall_app. split; [exact Hf|repeat constructor].
      - apply in_or_app. right. apply in_or_app. right. now left. }
    vm_compute in HH. destruct HH; discriminate.
Qed.

(** ** Split lock *)
Lemma tight_wide_lemma : exists ls s h,
  run tight_wide (init zero_mem) ls = Some (s, h) /\
  windows_at_most tight_wide (2 ^ 63 - 2 ^ 31) (init zero_mem) ls /\
  ~ linearizable (atomic_var tight_wide) (var_value tight_wide zero_mem) h.
Proof.
  set (c := tight_wide). set (M := 2 ^ 64 - 1). set (W := 2 ^ 63 - 2 ^ 31). set (X := 2 ^ 32 - 1).
  assert (HK : forall z, 0 <= z -> exists k, Z.of_nat k = z) by (intros z Hz; exists (Z.to_nat z); apply Z2Nat.id; lia).
  pose proof (fun k => St_stores c u64 eq_refl eq_refl X M eq_refl eq_refl eq_refl eq_refl ltac:(unfold M; lia) k) as Stores.
  assert (S0 : St c X (init zero_mem) Idle 0 0) by (unfold St; splits; reflexivity).
  (* 2^31 - 1 stores *)
  destruct (HK (2 ^ 31 - 2) ltac:(lia)) as [k1 Hk1].
  destruct (Stores k1 _ _ _ _ 0 W S0 (or_introl eq_refl)) as (s1 & h1 & Hr1 & Hf1 & HS1 & Hw1).
  replace (0 + Z.of_nat k1 + 1) with (2 ^ 31 - 1) in HS1 by lia.
  (* reader loads the high word *)
  set (p1 := OptLo 0 ld 0 (2 ^ 31 - 1)).
  assert (exists s2, run c s1 [call_load; st0; st0] = Some (s2, [Call 0 0 ld]) /\
            St c X s2 p1 (2 ^ 31 - 1) 0 /\ windows_at_most c W s1 [call_load; st0; st0]) as (s2 & Hr2 & HS2 & Hw2).
  { destruct HS1 as (P0 & P1 & M0 & M1 & L & Hh & Wn).
    assert (S1 : step c s1 call_load = Some (go s1 0 (Start 0 ld), [Call 0 0 ld])).
    { unfold step. cbn [call_load tid call]. rewrite P0. reflexivity. }
    set (t1 := go s1 0 (Start 0 ld)) in *.
    set (t2 := go t1 0 (OptHi 0 ld)).
    assert (S2 : step c t1 st0 = Some (t2, [])) by reflexivity.
    set (t3 := go t2 0 p1).
    assert (S3 : step c t2 st0 = Some (t3, [])).
    { unfold step. cbn [st0 tid call]. unfold t2 at 1. cbn [go pcs]. rewrite set_n_same.
      change (lock_index 0) with 0. change (locks t2 0) with (locks s1 0). change (writes t2 0) with (writes s1 0).
      rewrite Wn, (Hh eq_refl). reflexivity. }
    exists t3. splits.
    - cbn [run]. now rewrite S1, S2, S3.
    - unfold St. splits; auto.
    - cbn [windows_at_most]. rewrite S1, S2, S3. unfold window_at_most. cbn [call_load st0 tid]. rewrite P0.
      cbn [t1 t2 t3 go pcs set_n Nat.eqb]. repeat split. }
  (* one more store: the low word wraps to 0 *)
  destruct (Stores 0%nat _ _ _ _ 0 W HS2 (or_introl eq_refl)) as (s3 & h3 & Hr3 & Hf3 & HS3 & Hw3).
  replace (2 ^ 31 - 1 + Z.of_nat 0 + 1) with (2 ^ 31) in HS3 by lia.
  (* reader loads the low word and the first chunk *)
  set (p2 := OptRead 0 ld 0 0 [0] (2 ^ 31 - 1) (2 ^ 31)).
  assert (exists s4, run c s3 [st0; st0] = Some (s4, []) /\
            St c X s4 p2 (2 ^ 31) 0 /\ windows_at_most c W s3 [st0; st0]) as (s4 & Hr4 & HS4 & Hw4).
  { destruct HS3 as (P0 & P1 & M0 & M1 & L & Hh & Wn).
    set (t1 := go s3 0 (OptRead 0 ld 0 0 [] (2 ^ 31 - 1) (2 ^ 31))).
    assert (S1 : step c s3 st0 = Some (t1, [])).
    { unfold step. cbn [st0 tid call]. rewrite P0. unfold p1. change (lock_index 0) with 0. rewrite L, Wn. reflexivity. }
    set (t2 := go t1 0 p2).
    assert (S2 : step c t1 st0 = Some (t2, [])).
    { unfold step. cbn [st0 tid call]. unfold t1 at 1. cbn [go pcs]. rewrite set_n_same.
      change (Nat.ltb (length (@nil Z)) (len c (obj_ty c 0))) with true. cbv iota.
      change (chunk_addr c 0 (length (@nil Z))) with (chunk_addr c 0 0). change (mem t1) with (mem s3). rewrite M0. reflexivity. }
    exists t2. splits.
    - cbn [run]. now rewrite S1, S2.
    - unfold St. splits; auto.
    - cbn [windows_at_most]. rewrite S1, S2. unfold window_at_most. cbn [st0 tid]. rewrite P0. unfold p1.
      cbn [t1 t2 go pcs set_n Nat.eqb]. repeat split. }
  (* 2^63 - 2^32 stores, the last one of M *)
  destruct (HK (2 ^ 63 - 2 ^ 32 - 1) ltac:(lia)) as [k5 Hk5].
  destruct (Stores k5 _ _ _ _ M W HS4 (or_intror eq_refl)) as (s5 & h5 & Hr5 & Hf5 & HS5 & Hw5).
  replace (2 ^ 31 + Z.of_nat k5 + 1) with (2 ^ 63 - 2 ^ 31) in HS5 by lia.
  (* reader: second chunk, low word again *)
  set (torn := of_chunks c u64 [0; X]).
  set (p3 := ValHi 0 ld 0 0 0 torn (2 ^ 31 - 1) (2 ^ 31) (2 ^ 63 - 2 ^ 31)).
  assert (exists s6, run c s5 [st0; st0; st0] = Some (s6, []) /\
            St c X s6 p3 (2 ^ 63 - 2 ^ 31) M /\ windows_at_most c W s5 [st0; st0; st0]) as (s6 & Hr6 & HS6 & Hw6).
  { destruct HS5 as (P0 & P1 & M0 & M1 & L & Hh & Wn).
    set (t1 := go s5 0 (OptRead 0 ld 0 0 [0; X] (2 ^ 31 - 1) (2 ^ 31))).
    assert (S1 : step c s5 st0 = Some (t1, [])).
    { unfold step. cbn [st0 tid call]. rewrite P0. unfold p2.
      change (Nat.ltb (length [0]) (len c (obj_ty c 0))) with true. cbv iota.
      change (chunk_addr c 0 (length [0])) with (chunk_addr c 0 1). rewrite M1. reflexivity. }
    set (t2 := go t1 0 (ValLo 0 ld 0 0 torn (2 ^ 31 - 1) (2 ^ 31))).
    assert (S2 : step c t1 st0 = Some (t2, [])) by reflexivity.
    set (t3 := go t2 0 p3).
    assert (S3 : step c t2 st0 = Some (t3, [])).
    { unfold step. cbn [st0 tid call]. unfold t2 at 1. cbn [go pcs]. rewrite set_n_same.
      change (lock_index 0) with 0. change (locks t2 0) with (locks s5 0). change (writes t2 0) with (writes s5 0).
      rewrite L, Wn. reflexivity. }
    exists t3. splits.
    - cbn [run]. now rewrite S1, S2, S3.
    - unfold St. splits; auto.
    - cbn [windows_at_most]. rewrite S1, S2, S3. unfold window_at_most. cbn [st0 tid]. rewrite P0. unfold p2.
      cbn [t1 t2 t3 go pcs set_n Nat.eqb]. repeat split. discriminate. }
  (* 2^31 - 1 more stores *)
  destruct (Stores k1 _ _ _ _ 0 W HS6 (or_introl eq_refl)) as (s7 & h7 & Hr7 & Hf7 & HS7 & Hw7).
  replace (2 ^ 63 - 2 ^ 31 + Z.of_nat k1 + 1) with (2 ^ 63 - 1) in HS7 by lia.
  (* one store in progress: the high word has wrapped; then the reader validates *)
  destruct HS7 as (P0 & P1 & M0 & M1 & L & Hh & Wn).
  set (post := call_store 0 :: repeat st1 7 ++ [st0; st0]).
  assert (exists s8, run c s7 post = Some (s8, [Call 1 0 (OStore 0 Relaxed); Return 0 (RVal torn)]) /\ windows_at_most c W s7 post) as (s8 & Hr8 & Hw8).
  { set (o := OStore 0 Relaxed).
    assert (S1 : step c s7 (call_store 0) = Some (go s7 1 (Start 0 o), [Call 1 0 o])).
    { unfold step. cbn [call_store tid call]. rewrite P1. reflexivity. }
    set (t1 := go s7 1 (Start 0 o)) in *.
    set (t2 := go t1 1 (Acq 0 o)).
    assert (S2 : step c t1 st1 = Some (t2, [])) by reflexivity.
    set (sv := 2 ^ 32 - 2).
    set (t3 := go (mk_state (mem t2) (set_z (locks t2) 0 (mk_lock LOCKED (hi (locks t2 0)))) (pcs t2) (writes t2)) 1
                  (LWrite 0 o sv [0; 0] 0 RUnit)).
    assert (S3 : step c t2 st1 = Some (t3, [])).
    { unfold step. cbn [st1 tid call]. unfold t2 at 1. cbn [go pcs]. rewrite set_n_same.
      change (lock_index 0) with 0. change (locks t2 0) with (locks s7 0). rewrite L. reflexivity. }
    set (t4 := mk_state (set_z (mem t3) (chunk_addr c 0 0) 0) (locks t3) (set_n (pcs t3) 1 (LWrite 0 o sv [0; 0] 1 RUnit)) (writes t3)).
    assert (S4 : step c t3 st1 = Some (t4, [])) by reflexivity.
    set (t5 := mk_state (set_z (mem t4) (chunk_addr c 0 1) 0) (locks t4) (set_n (pcs t4) 1 (LWrite 0 o sv [0; 0] 2 RUnit)) (writes t4)).
    assert (S5 : step c t4 st1 = Some (t5, [])) by reflexivity.
    set (t6 := go t5 1 (RelHiLd 0 o sv RUnit)).
    assert (S6 : step c t5 st1 = Some (t6, [])) by reflexivity.
    set (t7 := go t6 1 (RelHiSt 0 o sv (2 ^ 32 - 1) RUnit)).
    assert (S7 : step c t6 st1 = Some (t7, [])).
    { unfold step. cbn [st1 tid call]. unfold t6 at 1. cbn [go pcs]. rewrite set_n_same.
      change (lock_index 0) with 0. change (hi (locks t6 0)) with (hi (locks s7 0)). rewrite (Hh eq_refl). reflexivity. }
    set (t8 := mk_state (mem t7) (set_z (locks t7) 0 (mk_lock (lo (locks t7 0)) 0))
                   (set_n (pcs t7) 1 (Rel 0 o (next_lo c sv) true RUnit)) (writes t7)).
    assert (S8 : step c t7 st1 = Some (t8, [])) by reflexivity.
    set (t9 := go t8 0 (Fin (RVal torn))).
    assert (S9 : step c t8 st0 = Some (t9, [])).
    { unfold step. cbn [st0 tid call]. change (pcs t8 0%nat) with (pcs s7 0%nat). rewrite P0. reflexivity. }
    set (t10 := go t9 0 Idle).
    assert (S10 : step c t9 st0 = Some (t10, [Return 0 (RVal torn)])) by reflexivity.
    exists t10. split.
    - unfold post. cbn [run repeat app]. now rewrite S1, S2, S3, S4, S5, S6, S7, S8, S9, S10.
    - unfold post. cbn [windows_at_most repeat app]. rewrite S1, S2, S3, S4, S5, S6, S7, S8, S9, S10.
      unfold window_at_most. cbn [call_store st1 st0 tid]. rewrite P1. change (pcs t8 0%nat) with (pcs s7 0%nat). rewrite P0.
      repeat split. unfold p3. change (lock_index 0) with 0. change (writes t8 0) with (writes s7 0). rewrite Wn. unfold W. lia. }
  eexists (_ ++ (_ ++ (_ ++ (_ ++ (_ ++ (_ ++ (_ ++ _))))))), s8, (_ ++ (_ ++ (_ ++ (_ ++ (_ ++ (_ ++ (_ ++ _))))))). splits.
  - do 7 (eapply run_app; [eassumption|]). exact Hr8.
  - do 7 (eapply windows_app; [eassumption|eassumption|]). exact Hw8.
  - intros HL. assert (torn = 0 \/ torn = M) as HH.
    { eapply (only_two_values c u64 M eq_refl); [ | |exact HL|].
      - left. reflexivity.
      - do 7 (apply Forall_app; split; [first [assumption|repeat constructor]|]). repeat constructor.
      - do 7 (apply in_or_app; right). right. now left. }
    vm_compute in HH. destruct HH; discriminate.
Qed.
