(** Invariant of the critical-section machine *)
From Coq Require Import ZArith List Bool Lia PeanoNat.
From Verif Require Import Words Spec WordsFacts OrderingModel LinFacts FallbackModel FallbackFacts ByteMem ByteMemFacts ByteSpec RiscvModel RiscvProofs RiscvMain IntModel IntProofs IntMain CsSpec CsModel CsProofs.
Import ListNotations.
Open Scope Z_scope.

Definition rw_pc (p : mpc) : bool := match p with MRead _ _ | MDecide _ | MWrite _ _ _ => true | _ => false end.
Definition in_cs (p : mpc) : bool := match p with MRead _ _ | MDecide _ | MWrite _ _ _ | MRelease _ => true | _ => false end.
Definition guards (th : mthread) : nat := match th with MBusy r => if in_cs (mp r) then 1%nat else 0%nat | _ => 0%nat end.
Definition writes (th : mthread) (a : Z) : Prop := exists r v out rest, th = MBusy r /\ mp r = MWrite v out rest /\ ma r = a.

(** On the ESP chips the module has no types wider than 32 bits. *)
Definition cfg_ok (c : cfg) (vars : layout) : Prop :=
  match c with Feature => True | Esp _ _ => forall a t, vars a = Some t -> ibits t <= 32 end.

Lemma native_esp c a o : path_of c a o = Inner \/ path_of c a o = NegLoop -> exists ch cs, c = Esp ch cs.
Proof. destruct c; [intros [H|H]; discriminate | eauto]. Qed.
Lemma path_excl c a o o' : path_of c a o = Guarded -> path_of c a o' = Inner \/ path_of c a o' = NegLoop -> False.
Proof.
  unfold path_of. destruct c as [|ch cs]; [intros _ [H|H]; discriminate|].
  destruct o as [[| |[]|]| |[]], o' as [[| |[]|]| |[]]; destruct cs, (in_psram ch a); cbn; intros H [H'|H']; discriminate.
Qed.
Lemma neg_only ch cs a o : path_of (Esp ch cs) a o = NegLoop -> exists ord, o = BOp (ORmw Neg ord) \/ o = BNoFetch Neg ord.
Proof. unfold path_of. destruct o as [[| |[]|]| |[]], cs, (in_psram ch a); cbn; intros; try discriminate; eauto. Qed.
Lemma lower_weak t o cu nw su fa : lower t o = BCasWeak cu nw su fa -> o = BCasWeak cu nw su fa.
Proof. destruct o as [[| |[]|]| |[]]; cbn; intros; try discriminate; assumption. Qed.

Section Inv.
  Variables (c : cfg) (be : bool) (vars : layout) (rd_order wr_order : nat -> list nat).
  Hypothesis CO : cfg_ok c vars.
  Hypothesis LO : layout_ok vars.
  Hypothesis RO : forall n i, (i < n)%nat -> In i (rd_order n).
  Hypothesis WO : forall n i, In i (wr_order n) <-> (i < n)%nat.
  Variable sem : Z -> bop -> Z -> Z * res -> Prop.
  Hypothesis Sexact : forall a t o x, vars a = Some t -> sem a o x (bsem t o x).
  Hypothesis Sspur : forall a t cu nw su fa x, c <> Feature -> vars a = Some t -> sem a (BCasWeak cu nw su fa) x (x, RErr x).
  Notation step := (mstep c be vars rd_order wr_order).
  Notation run := (mruns c be vars rd_order wr_order).
  Notation init_vals m := (fun a => match vars a with Some t => value_at be m t a | None => 0 end).

  Definition op_of (r : mrun) : bop := match c with Feature => mo r | Esp _ _ => lower (mt r) (mo r) end.

  Definition pc_inv (m : memory) (vals : Z -> Z) (q : aphase bop res) (r : mrun) : Prop :=
    let n := nbytes (mt r) in
    let pend p := q = APending (ma r) (mo r) /\ path_of c (ma r) (mo r) = p in
    match mp r with
    | MAcquire => pend Guarded
    | MRead rest acc => pend Guarded /\ forall i, (i < n)%nat -> In i rest \/ acc i = m (baddr be n (ma r) i)
    | MDecide acc => pend Guarded /\ (reads (op_of r) = true -> forall i, (i < n)%nat -> acc i = m (baddr be n (ma r) i))
    | MWrite v out rest => pend Guarded /\
        (exists w out0, emul (mt r) (op_of r) (vals (ma r)) = (Some w, out0) /\ v = to_bits (mt r) w /\ out = give (mo r) out0) /\
        (forall i, In i rest -> (i < n)%nat) /\
        forall i, (i < n)%nat -> In i rest \/ m (baddr be n (ma r) i) = byte_of v i
    | MRelease out => q = ADone out
    | MInner => pend Inner
    | MNegLoad => pend NegLoop
    | MNegCas p => pend NegLoop /\ in_range (mt r) p
    | MPanic => pend Panics
    | MReturn out => q = ADone out
    end.
  Definition thr_inv (m : memory) (vals : Z -> Z) (q : aphase bop res) (th : mthread) : Prop :=
    match th with
    | MIdle => q = AIdle
    | MDead => exists a o, q = APending a o
    | MBusy r => vars (ma r) = Some (mt r) /\ bcallable (mt r) (mo r) = true /\ pc_inv m vals q r
    end.
  Definition lock_inv (l : option (nat * nat)) (held : nat -> nat) (thr : nat -> mthread) : Prop :=
    match l with
    | None => forall t, (held t + guards (thr t) = 0)%nat
    | Some (u, d) => d = (held u + guards (thr u))%nat /\ (0 < d)%nat /\ forall t, t <> u -> (held t + guards (thr t) = 0)%nat
    end.
  Record Inv (s : mstate) (A : astate bop res) : Prop := {
    inv_mem : byte_mem (mmem s);
    inv_range : forall a t, vars a = Some t -> in_range t (avals A a);
    inv_thr : forall t, thr_inv (mmem s) (avals A) (aphases A t) (mthr s t);
    inv_lock : lock_inv (mlock s) (mheld s) (mthr s);
    inv_vals : forall a t, vars a = Some t -> (forall u, ~ writes (mthr s u) a) -> avals A a = value_at be (mmem s) t a }.

  (** *** exclusion *)
  Lemma lock_one l held thr t u : lock_inv l held thr -> guards (thr t) = 1%nat -> guards (thr u) = 1%nat -> t = u.
  Proof.
    destruct l as [[w d]|]; cbn.
    - intros (_ & _ & N) Ht Hu. destruct (Nat.eq_dec t w) as [->|Nt]; [|specialize (N t Nt); lia].
      destruct (Nat.eq_dec u w) as [->|Nu]; [reflexivity | specialize (N u Nu); lia].
    - intros N Ht _. specialize (N t). lia.
  Qed.
  Lemma rw_in_cs p : rw_pc p = true -> in_cs p = true. Proof. destruct p; auto. Qed.
  (** a thread inside its plain accesses excludes the others *)
  Lemma excl_cs s A t u r r' : Inv s A -> mthr s t = MBusy r -> in_cs (mp r) = true -> u <> t ->
    mthr s u = MBusy r' -> rw_pc (mp r') = true -> ma r' <> ma r.
  Proof.
    intros Hi Ht Hp Nu Hu Hp'. exfalso. apply Nu. symmetry. apply (lock_one _ _ _ t u (inv_lock s A Hi)).
    - rewrite Ht. cbn. now rewrite Hp.
    - rewrite Hu. cbn. now rewrite (rw_in_cs _ Hp').
  Qed.
  Lemma excl_native s A t u r r' : Inv s A -> mthr s t = MBusy r -> path_of c (ma r) (mo r) = Inner \/ path_of c (ma r) (mo r) = NegLoop ->
    mthr s u = MBusy r' -> rw_pc (mp r') = true -> ma r' <> ma r.
  Proof.
    intros Hi Ht Hp Hu Hp' E. pose proof (inv_thr s A Hi u) as H. rewrite Hu in H. destruct H as (_ & _ & P).
    unfold pc_inv in P. apply (path_excl c (ma r) (mo r') (mo r)); [|exact Hp].
    destruct (mp r'); try discriminate; destruct P as ((_ & P) & _); now rewrite <- E.
  Qed.

  (** *** framing *)
  Lemma thr_frame m vals q th m' vals' : thr_inv m vals q th ->
    (forall r, th = MBusy r -> rw_pc (mp r) = true -> (forall z, inside (ma r) (mt r) z -> m' z = m z) /\ vals' (ma r) = vals (ma r)) ->
    thr_inv m' vals' q th.
  Proof.
    destruct th as [|r|]; cbn; auto. intros (V & B & P) F. refine (conj V (conj B _)). specialize (F r eq_refl).
    assert (MB : forall i, (i < nbytes (mt r))%nat -> rw_pc (mp r) = true -> m' (baddr be (nbytes (mt r)) (ma r) i) = m (baddr be (nbytes (mt r)) (ma r) i)).
    { intros i Hi Hp. apply (F Hp). unfold inside. now apply baddr_in. }
    unfold pc_inv in *. destruct (mp r) as [|rest acc|acc|v out rest| | | | | |]; try exact P.
    - destruct P as (Q & R). refine (conj Q _). intros i Hi. rewrite MB; auto.
    - destruct P as (Q & R). refine (conj Q _). intros Hr i Hi. rewrite MB; auto.
    - destruct P as (Q & W & L & R). refine (conj Q (conj _ (conj L _))).
      + rewrite (proj2 (F eq_refl)). exact W.
      + intros i Hi. rewrite MB; auto.
  Qed.

  Lemma set_thr m l h thr t th u : mthr (mk_mstate m l h (updn thr t th)) u = if Nat.eqb u t then th else thr u.
  Proof. reflexivity. Qed.

  Lemma quiet s A t th l h' : Inv s A -> thr_inv (mmem s) (avals A) (aphases A t) th ->
    lock_inv l h' (updn (mthr s) t th) -> (forall a, writes (mthr s t) a -> writes th a) ->
    Inv (mk_mstate (mmem s) l h' (updn (mthr s) t th)) A.
  Proof.
    intros [Hm Hr HT HL HV] T L W. constructor; cbn [mmem mlock mheld mthr]; auto.
    - intros u. unfold updn. destruct (Nat.eqb_spec u t) as [->|]; [exact T | apply HT].
    - intros a ty Va N. apply HV; [exact Va|]. intros u Hu. apply (N u). unfold updn.
      destruct (Nat.eqb_spec u t) as [->|]; auto.
  Qed.

  Lemma effect s A t r m' l h' th v out : Inv s A -> mthr s t = MBusy r -> aphases A t = APending (ma r) (mo r) ->
    byte_mem m' -> (forall z, ~ inside (ma r) (mt r) z -> m' z = mmem s z) ->
    sem (ma r) (mo r) (avals A (ma r)) (v, out) -> value_at be m' (mt r) (ma r) = v ->
    (forall u r', u <> t -> mthr s u = MBusy r' -> rw_pc (mp r') = true -> ma r' <> ma r) ->
    (forall m0 vals0, thr_inv m0 vals0 (ADone out) th) -> (forall a, ~ writes th a) ->
    lock_inv l h' (updn (mthr s) t th) ->
    exists A', astep sem A [] A' /\ Inv (mk_mstate m' l h' (updn (mthr s) t th)) A' /\ avals A' (ma r) = v /\ aphases A' t = ADone out.
  Proof.
    intros Hi Ht Ph Hm' F S Ev Ex T NW L. pose proof Hi as [Hm Hr HT HL HV].
    pose proof (HT t) as Hself. rewrite Ht in Hself. destruct Hself as (Va & Bc & _).
    assert (Hw : wf_ity (mt r) /\ 8 * Z.of_nat (nbytes (mt r)) = ibits (mt r)) by (destruct (size_cases (mt r) (lo_size vars LO _ _ Va)) as (? & ? & _); auto).
    exists (mk_astate (upd (avals A) (ma r) v) (updn (aphases A) t (ADone out))).
    refine (conj _ (conj _ (conj (upd_same _ _ _) (updn_same _ _ _)))).
    - eapply a_take_effect with (t := t) (a := ma r) (o := mo r) (v' := v) (r := out); [exact Ph | exact S | |].
      + split; [apply upd_same | intros; now apply upd_other].
      + split; [apply updn_same | intros; now apply updn_other].
    - constructor; cbn [mmem mlock mheld mthr avals aphases]; auto.
      + intros a ty Vu. unfold upd. destruct (Z.eqb_spec a (ma r)) as [->|]; [|eauto].
        assert (ty = mt r) as -> by congruence. rewrite <- Ev. unfold value_at. apply of_bits_range; [apply Hw|].
        rewrite <- (proj2 Hw). apply ld_range, Hm'.
      + intros u. unfold updn. destruct (Nat.eqb_spec u t) as [->|Nu]; [apply T|].
        eapply thr_frame; [apply HT|]. intros r' Eu Hp. pose proof (Ex u r' Nu Eu Hp) as Na. split.
        * intros z Hz. apply F. intros Hz'. apply Na. pose proof (HT u) as H. rewrite Eu in H. destruct H as (Vu & _).
          exact (lo_disjoint vars LO _ _ _ _ z Vu Va Hz Hz').
        * now apply upd_other.
      + intros a ty Vu N. unfold upd. destruct (Z.eqb_spec a (ma r)) as [->|Na].
        * assert (ty = mt r) as -> by congruence. now symmetry.
        * rewrite (HV a ty Vu).
          -- unfold value_at. f_equal. symmetry. apply ld_ext. intros z Hz. apply F. intros Hz'. apply Na.
             exact (lo_disjoint vars LO _ _ _ _ z Vu Va Hz Hz').
          -- intros u Hu. destruct (Nat.eq_dec u t) as [->|Nu].
             ++ destruct Hu as (r0 & ? & ? & ? & E0 & _ & E1). congruence.
             ++ apply (N u). unfold updn. destruct (Nat.eqb_spec u t); [congruence | exact Hu].
  Qed.

  (** *** the lock *)
  Lemma lock_ext l h thr thr' : (forall t, guards (thr' t) = guards (thr t)) -> lock_inv l h thr -> lock_inv l h thr'.
  Proof.
    intros E. destruct l as [[u d]|]; cbn.
    - intros (D & P & N). rewrite E. refine (conj D (conj P _)). intros t Nt. rewrite E. auto.
    - intros N t. rewrite E. auto.
  Qed.
  Lemma lock_same l h thr t th : guards th = guards (thr t) -> lock_inv l h thr -> lock_inv l h (updn thr t th).
  Proof. intros E. apply lock_ext. intros u. unfold updn. destruct (Nat.eqb_spec u t) as [->|]; auto. Qed.
  Lemma lock_enter l h thr t l' h' thr' : lock_inv l h thr -> enter l t = Some l' ->
    (h' t + guards (thr' t) = S (h t + guards (thr t)))%nat -> (forall u, u <> t -> h' u = h u /\ guards (thr' u) = guards (thr u)) ->
    lock_inv l' h' thr'.
  Proof.
    intros L E Et Eo. destruct l as [[u d]|]; cbn in E.
    - destruct (Nat.eqb_spec u t) as [->|]; [|discriminate]. injection E as <-. cbn in *. destruct L as (D & P & N).
      rewrite Et. refine (conj _ (conj _ _)); [lia | lia|]. intros w Nw. destruct (Eo w Nw) as [-> ->]. auto.
    - injection E as <-. cbn in *. rewrite Et, L. refine (conj eq_refl (conj _ _)); [lia|].
      intros w Nw. destruct (Eo w Nw) as [-> ->]. auto.
  Qed.
  Lemma lock_leave l h thr t h' thr' : lock_inv l h thr ->
    (h t + guards (thr t) = S (h' t + guards (thr' t)))%nat -> (forall u, u <> t -> h' u = h u /\ guards (thr' u) = guards (thr u)) ->
    lock_inv (leave l) h' thr'.
  Proof.
    intros L Et Eo. destruct l as [[u d]|]; cbn in *.
    - destruct L as (D & P & N). destruct (Nat.eq_dec t u) as [->|Nt]; [|specialize (N t Nt); lia].
      destruct d as [|[|d]]; [lia| |].
      + cbn. intros w. destruct (Nat.eq_dec w u) as [->|Nw]; [lia|]. destruct (Eo w Nw) as [-> ->]. auto.
      + cbn. refine (conj _ (conj _ _)); [lia|lia|]. intros w Nw. destruct (Eo w Nw) as [-> ->]. auto.
    - specialize (L t). lia.
  Qed.

  (** *** what the operation computes *)
  Lemma op_callable r : vars (ma r) = Some (mt r) -> bcallable (mt r) (mo r) = true -> bcallable (mt r) (op_of r) = true.
  Proof.
    intros Va Hc. unfold op_of. destruct c; [exact Hc|]. apply lower_callable; [|exact Hc].
    apply (size_cases (mt r) (lo_size vars LO _ _ Va)).
  Qed.
  Lemma op_sem r x : vars (ma r) = Some (mt r) -> bcallable (mt r) (mo r) = true -> in_range (mt r) x ->
    bsem (mt r) (mo r) x = (fst (bsem (mt r) (op_of r) x), give (mo r) (snd (bsem (mt r) (op_of r) x))).
  Proof.
    intros Va Hc Hx. unfold op_of. destruct c.
    - destruct (mo r) as [| |r0 ord]; cbn [give]; [apply surjective_pairing | apply surjective_pairing | reflexivity].
    - apply lower_sem; auto. apply (size_cases (mt r) (lo_size vars LO _ _ Va)).
  Qed.
  Lemma op_emul r x : vars (ma r) = Some (mt r) -> bcallable (mt r) (mo r) = true -> in_range (mt r) x ->
    bsem (mt r) (mo r) x = (match fst (emul (mt r) (op_of r) x) with Some v => v | None => x end, give (mo r) (snd (emul (mt r) (op_of r) x))) /\
    forall v, fst (emul (mt r) (op_of r) x) = Some v -> in_range (mt r) v.
  Proof.
    intros Va Hc Hx. destruct (size_cases (mt r) (lo_size vars LO _ _ Va)) as (Hw & _).
    destruct (emul_ok (mt r) (op_of r) x Hw Hx (op_callable r Va Hc)) as [E R]. split; [|exact R].
    rewrite op_sem by assumption. now rewrite E.
  Qed.
  Lemma no_read_emul r x y : reads (op_of r) = false -> emul (mt r) (op_of r) x = emul (mt r) (op_of r) y.
  Proof. destruct (op_of r) as [[]| |]; cbn; try discriminate; reflexivity. Qed.

  Lemma acc_val m a t (acc : nat -> Z) : (forall i, (i < nbytes t)%nat -> acc i = m (baddr be (nbytes t) a i)) ->
    of_bits t (join_le 8 (map acc (seq 0 (nbytes t)))) = value_at be m t a.
  Proof.
    intros H. unfold value_at, ld. do 2 f_equal. apply map_ext_in. intros i Hi. apply in_seq in Hi. apply H. lia.
  Qed.
  Lemma esp_size ch cs a t : c = Esp ch cs -> vars a = Some t -> In (ibits t) [8; 16; 32].
  Proof.
    intros E Va. pose proof CO as C1. rewrite E in C1. pose proof (C1 a t Va) as L. pose proof (lo_size vars LO a t Va) as H. cbn [In] in *.
    destruct H as [H|[H|[H|[H|[H|[]]]]]]; auto; rewrite <- H in L; lia.
  Qed.

  Definition asim (A : astate bop res) (e : list (event bop res)) (A' : astate bop res) : Prop :=
    (e = [] /\ A' = A) \/ astep sem A e A'.

  Lemma busy_inv r p m vals q : vars (ma r) = Some (mt r) -> bcallable (mt r) (mo r) = true ->
    pc_inv m vals q (mk_mrun (ma r) (mt r) (mo r) p) -> thr_inv m vals q (MBusy (mk_mrun (ma r) (mt r) (mo r) p)).
  Proof. intros V B P. exact (conj V (conj B P)). Qed.
  Lemma not_writing r p a : match p with MWrite _ _ _ => false | _ => true end = true ->
    ~ writes (MBusy (mk_mrun (ma r) (mt r) (mo r) p)) a.
  Proof. intros H (r0 & v & out & rest & E & Ep & _). injection E as <-. cbn in Ep. subst p. discriminate. Qed.

  Lemma instr_sim s A t r sp m' l' p' : Inv s A -> mthr s t = MBusy r ->
    match mp r with MReturn _ => false | _ => true end = true ->
    minstr c be rd_order wr_order s t r sp = Some (m', l', p') ->
    exists A', asim A [] A' /\
      Inv (mk_mstate m' l' (mheld s) (updn (mthr s) t (match p' with Some p => MBusy (mk_mrun (ma r) (mt r) (mo r) p) | None => MDead end))) A'.
  Proof.
    intros Hi Ht NR H. pose proof Hi as [Hm Hr HT HL HV].
    pose proof (HT t) as Hself. rewrite Ht in Hself. destruct Hself as (Va & Bc & P).
    destruct (size_cases (mt r) (lo_size vars LO _ _ Va)) as (Hw & E8 & _).
    assert (GT : guards (mthr s t) = if in_cs (mp r) then 1%nat else 0%nat) by now rewrite Ht.
    assert (SG : forall p, in_cs p = in_cs (mp r) -> lock_inv (mlock s) (mheld s) (updn (mthr s) t (MBusy (mk_mrun (ma r) (mt r) (mo r) p)))).
    { intros p E. apply lock_same; [|exact HL]. rewrite GT. cbn. now rewrite E. }
    assert (NWR : match mp r with MWrite _ _ _ => false | _ => true end = true -> forall a, ~ writes (mthr s t) a).
    { intros N a (r0 & v & out & rest & E & Ep & _). rewrite Ht in E. injection E as <-. rewrite Ep in N. discriminate. }
    assert (EV : in_cs (mp r) = true \/ path_of c (ma r) (mo r) = Inner \/ path_of c (ma r) (mo r) = NegLoop ->
      match mp r with MWrite _ _ _ => false | _ => true end = true -> avals A (ma r) = value_at be (mmem s) (mt r) (ma r)).
    { intros D N. apply HV; [exact Va|]. intros u (r' & v & out & rest & Eu & Ep & Ea).
      destruct (Nat.eq_dec u t) as [->|Nu]; [apply (NWR N (ma r)); unfold writes; eauto 10|].
      assert (RW : rw_pc (mp r') = true) by now rewrite Ep.
      destruct D as [D|D]; [exact (excl_cs s A t u r r' Hi Ht D Nu Eu RW Ea) | exact (excl_native s A t u r r' Hi Ht D Eu RW Ea)]. }
    unfold minstr in H. fold (op_of r) in H. unfold pc_inv in P.
    destruct (mp r) as [|rest acc|acc|v out rest|out| | |pv| |out] eqn:Ep; try discriminate NR.
    - (* MAcquire *)
      destruct P as (Ph & Pt). destruct (enter (mlock s) t) as [l1|] eqn:El; [|discriminate].
      apply some_inj, pair_equal_spec in H as [H <-]. apply pair_equal_spec in H as [<- <-].
      exists A. split; [now left|]. apply quiet; [exact Hi | | |].
      + apply busy_inv; auto. unfold pc_inv. cbn [mp ma mt mo]. change (op_of (mk_mrun (ma r) (mt r) (mo r) _)) with (op_of r).
        destruct (reads (op_of r)) eqn:Rd.
        * split; [split; assumption|]. intros i Hii. left. now apply RO.
        * split; [split; assumption|]. change (op_of _) with (op_of r). congruence.
      + eapply lock_enter; [exact HL | exact El | |].
        * rewrite updn_same, GT. cbn. destruct (reads (op_of r)); cbn; lia.
        * intros u Nu. rewrite updn_other by exact Nu. auto.
      + intros a W. destruct (NWR eq_refl a W).
    - (* MRead *)
      destruct P as (Pq & R). destruct rest as [|i rest]; apply some_inj, pair_equal_spec in H as [H <-]; apply pair_equal_spec in H as [<- <-].
      + exists A. split; [now left|]. apply quiet; [exact Hi | | |].
        * apply busy_inv; auto. unfold pc_inv. cbn [mp ma mt mo]. refine (conj Pq _). intros _ i Hii. destruct (R i Hii) as [[]|E]; exact E.
        * now apply SG.
        * intros a W. destruct (NWR eq_refl a W).
      + exists A. split; [now left|]. apply quiet; [exact Hi | | |].
        * apply busy_inv; auto. unfold pc_inv. cbn [mp ma mt mo]. refine (conj Pq _). intros j Hj. destruct (Nat.eqb_spec j i) as [->|N].
          -- now right.
          -- destruct (R j Hj) as [[E|I]|E]; [congruence | now left | now right].
        * now apply SG.
        * intros a W. destruct (NWR eq_refl a W).
    - (* MDecide *)
      destruct P as (Pq & R). specialize (EV (or_introl eq_refl) eq_refl).
      assert (EM : emul (mt r) (op_of r) (of_bits (mt r) (join_le 8 (map acc (seq 0 (nbytes (mt r)))))) = emul (mt r) (op_of r) (avals A (ma r))).
      { rewrite EV. destruct (reads (op_of r)) eqn:Rd; [now rewrite (acc_val (mmem s) (ma r) (mt r) acc (R eq_refl)) | now apply no_read_emul]. }
      rewrite EM in H. destruct (op_emul r (avals A (ma r)) Va Bc (Hr _ _ Va)) as [Sem _].
      destruct (emul (mt r) (op_of r) (avals A (ma r))) as [[w|] out] eqn:Q; cbn [fst snd] in Sem;
        apply some_inj, pair_equal_spec in H as [H <-]; apply pair_equal_spec in H as [<- <-].
      + exists A. split; [now left|]. apply quiet; [exact Hi | | |].
        * apply busy_inv; auto. unfold pc_inv. cbn [mp ma mt mo]. refine (conj Pq (conj _ (conj _ _))).
          -- change (op_of _) with (op_of r). eauto.
          -- intros i. apply WO.
          -- intros i Hii. left. now apply WO.
        * now apply SG.
        * intros a W. destruct (NWR eq_refl a W).
      + destruct (effect s A t r (mmem s) (mlock s) (mheld s) (MBusy (mk_mrun (ma r) (mt r) (mo r) (MRelease (give (mo r) out)))) (avals A (ma r)) (give (mo r) out)) as (A' & S1 & I1 & _); auto.
        * exact (proj1 Pq).
        * rewrite <- Sem. now apply Sexact.
        * intros u r' Nu Eu Hp. eapply excl_cs; [exact Hi | exact Ht | now rewrite Ep | exact Nu | exact Eu | exact Hp].
        * intros m0 v0. apply busy_inv; auto. reflexivity.
        * intros a. now apply not_writing.
        * exists A'. split; [now right | exact I1].
    - (* MWrite *)
      destruct P as (Pq & (w & out0 & Ew & -> & ->) & RI & R).
      destruct rest as [|i rest]; apply some_inj, pair_equal_spec in H as [H <-]; apply pair_equal_spec in H as [<- <-].
      + destruct (op_emul r (avals A (ma r)) Va Bc (Hr _ _ Va)) as [Sem RW]. rewrite Ew in Sem, RW. cbn [fst snd] in Sem, RW.
        specialize (RW w eq_refl).
        assert (LV : value_at be (mmem s) (mt r) (ma r) = w).
        { unfold value_at. replace (ld be (nbytes (mt r)) (mmem s) (ma r)) with (to_bits (mt r) w); [now apply of_to_bits|].
          symmetry. apply (bytes_eq (nbytes (mt r))); [apply ld_range, Hm | rewrite E8; now apply to_bits_range |].
          intros i Hii. rewrite ld_byte by assumption. destruct (R i Hii) as [[]|E]; exact E. }
        destruct (effect s A t r (mmem s) (mlock s) (mheld s) (MBusy (mk_mrun (ma r) (mt r) (mo r) (MRelease (give (mo r) out0)))) w (give (mo r) out0)) as (A' & S1 & I1 & _); auto.
        * exact (proj1 Pq).
        * rewrite <- Sem. now apply Sexact.
        * intros u r' Nu Eu Hp. eapply excl_cs; [exact Hi | exact Ht | now rewrite Ep | exact Nu | exact Eu | exact Hp].
        * intros m0 v0. apply busy_inv; auto. reflexivity.
        * intros a. now apply not_writing.
        * exists A'. split; [now right | exact I1].
      + exists A. split; [now left|].
        assert (Hii : (i < nbytes (mt r))%nat) by (apply RI; now left).
        set (m1 := st1 (mmem s) (baddr be (nbytes (mt r)) (ma r) i) (byte_of (to_bits (mt r) w) i)) in *.
        assert (Hm1 : byte_mem m1).
        { intros z. unfold m1, st1. destruct (Z.eqb z _); [apply byte_of_range | apply Hm]. }
        assert (Fm : forall z, ~ inside (ma r) (mt r) z -> m1 z = mmem s z).
        { intros z Hz. unfold m1, st1. destruct (Z.eqb_spec z (baddr be (nbytes (mt r)) (ma r) i)) as [->|]; [|reflexivity].
          destruct Hz. unfold inside. now apply baddr_in. }
        constructor; cbn [mmem mlock mheld mthr].
        * exact Hm1.
        * exact Hr.
        * intros u. unfold updn. destruct (Nat.eqb_spec u t) as [->|Nu].
          -- apply busy_inv; auto. unfold pc_inv. cbn [mp ma mt mo]. refine (conj Pq (conj _ (conj _ _))).
             ++ change (op_of _) with (op_of r). eauto.
             ++ intros j Hj. apply RI. now right.
             ++ intros j Hj. unfold m1, st1. destruct (Z.eqb_spec (baddr be (nbytes (mt r)) (ma r) j) (baddr be (nbytes (mt r)) (ma r) i)) as [E|N].
                ** right. apply baddr_inj in E; [now subst | exact Hj | exact Hii].
                ** destruct (R j Hj) as [[E|I]|E]; [congruence | now left | now right].
          -- eapply thr_frame; [apply HT|]. intros r' Eu Hp. split; [|reflexivity]. exfalso.
             apply Nu. symmetry. apply (lock_one _ _ _ t u HL); [now rewrite GT | rewrite Eu; cbn; now rewrite (rw_in_cs _ Hp)].
        * now apply SG.
        * intros a ty Vu N.
          assert (Na : a <> ma r).
          { intros ->. apply (N t). rewrite updn_same. eexists _, _, _, _. refine (conj eq_refl (conj eq_refl eq_refl)). }
          rewrite (HV a ty Vu).
          -- unfold value_at. f_equal. symmetry. apply ld_ext. intros z Hz. apply Fm. intros Hz'. apply Na.
             exact (lo_disjoint vars LO _ _ _ _ z Vu Va Hz Hz').
          -- intros u Hu. destruct (Nat.eq_dec u t) as [->|Nu].
             ++ destruct Hu as (r0 & ? & ? & ? & E0 & _ & E1). congruence.
             ++ apply (N u). unfold updn. destruct (Nat.eqb_spec u t); [congruence | exact Hu].
    - (* MRelease *)
      apply some_inj, pair_equal_spec in H as [H <-]. apply pair_equal_spec in H as [<- <-].
      exists A. split; [now left|]. apply quiet; [exact Hi | | |].
      + apply busy_inv; auto.
      + eapply lock_leave; [exact HL | |].
        * rewrite updn_same, GT. cbn. lia.
        * intros u Nu. rewrite updn_other by exact Nu. auto.
      + intros a W. destruct (NWR eq_refl a W).
    - (* MInner *)
      destruct P as (Ph & Pt). destruct (native_esp c _ _ (or_introl Pt)) as (ch & cs & Ec).
      specialize (EV (or_intror (or_introl Pt)) eq_refl).
      destruct (core_op be (chip_of c) (mt r) (ma r) (op_of r) sp (mmem s)) as [[m1 out]|] eqn:Q; [|discriminate].
      apply some_inj, pair_equal_spec in H as [H <-]. apply pair_equal_spec in H as [<- <-].
      pose proof (esp_size ch cs (ma r) (mt r) Ec Va) as Sz.
      assert (RES : exists v, byte_mem m1 /\ (forall z, ~ inside (ma r) (mt r) z -> m1 z = mmem s z) /\
        value_at be m1 (mt r) (ma r) = v /\ sem (ma r) (mo r) (avals A (ma r)) (v, give (mo r) out)).
      { destruct (core_ok be (chip_of c) (mt r) (ma r) (mmem s) Sz Hm (op_of r) sp m1 out (op_callable r Va Bc) Q) as [(E & B & F)|((cu & nw & su & fa & Eo) & -> & ->)].
        - exists (value_at be m1 (mt r) (ma r)). refine (conj B (conj F (conj eq_refl _))).
          replace (value_at be m1 (mt r) (ma r), give (mo r) out) with (bsem (mt r) (mo r) (avals A (ma r))); [now apply Sexact|].
          rewrite op_sem by auto. rewrite EV. rewrite E. reflexivity.
        - exists (avals A (ma r)). refine (conj Hm (conj (fun _ _ => eq_refl) (conj _ _))); [now symmetry|].
          assert (Eo' : mo r = BCasWeak cu nw su fa).
          { unfold op_of in Eo. rewrite Ec in Eo. exact (lower_weak _ _ _ _ _ _ Eo). }
          rewrite Eo'. cbn [give]. rewrite <- EV. apply (Sspur (ma r) (mt r)); [congruence | exact Va]. }
      destruct RES as (v & B & F & Ev & S).
      destruct (effect s A t r m1 (mlock s) (mheld s) (MBusy (mk_mrun (ma r) (mt r) (mo r) (MReturn (give (mo r) out)))) v (give (mo r) out)) as (A' & S1 & I1 & _); auto.
      + intros u r' Nu Eu Hp. eapply excl_native; [exact Hi | exact Ht | left; exact Pt | exact Eu | exact Hp].
      + intros m0 v0. apply busy_inv; auto. reflexivity.
      + intros a. now apply not_writing.
      + exists A'. split; [now right | exact I1].
    - (* MNegLoad *)
      destruct P as (Ph & Pt). cbn [core_op] in H.
      apply some_inj, pair_equal_spec in H as [H <-]. apply pair_equal_spec in H as [<- <-].
      exists A. split; [now left|]. apply quiet; [exact Hi | | |].
      + apply busy_inv; auto. refine (conj (conj Ph Pt) _). cbn [mt]. rewrite <- (EV (or_intror (or_intror Pt)) eq_refl). now apply Hr.
      + now apply SG.
      + intros a W. destruct (NWR eq_refl a W).
    - (* MNegCas *)
      destruct P as ((Ph & Pt) & Rp). destruct (native_esp c _ _ (or_intror Pt)) as (ch & cs & Ec).
      specialize (EV (or_intror (or_intror Pt)) eq_refl).
      assert (Bn : bcallable (mt r) (BCasWeak pv (wrapping_neg (mt r) pv) Relaxed Relaxed) = true).
      { cbn. rewrite andb_true_r. apply andb_true_iff. split; apply in_rangeb_iff; [exact Rp|].
        rewrite wrapping_neg_spec by assumption. apply norm_range, Hw. }
      destruct (core_op be (chip_of c) (mt r) (ma r) (BCasWeak pv (wrapping_neg (mt r) pv) Relaxed Relaxed) sp (mmem s)) as [[m1 [|x0|x|x|]]|] eqn:Q; try discriminate;
        apply some_inj, pair_equal_spec in H as [H <-]; apply pair_equal_spec in H as [<- <-];
        pose proof (esp_size ch cs (ma r) (mt r) Ec Va) as Sz;
        destruct (core_ok be (chip_of c) (mt r) (ma r) (mmem s) Sz Hm _ sp m1 _ Bn Q) as [(E & B & F)|(_ & -> & Eo)]; try discriminate Eo.
      + cbn [bsem spec_op] in E. destruct (Z.eqb_spec (value_at be (mmem s) (mt r) (ma r)) pv) as [Ev|]; [|discriminate].
        injection E as E1 <-. rewrite Ev in *.
        assert (S : sem (ma r) (mo r) (avals A (ma r)) (wrapping_neg (mt r) pv, give (mo r) (RVal pv))).
        { replace (wrapping_neg (mt r) pv, give (mo r) (RVal pv)) with (bsem (mt r) (mo r) (avals A (ma r))); [now apply Sexact|].
          rewrite EV. rewrite Ec in Pt. destruct (neg_only ch cs _ _ Pt) as (ord & [Em|Em]); rewrite Em; cbn [bsem spec_op give];
            rewrite <- (rmw_next_spec (mt r) Neg pv) by (auto; exact I); reflexivity. }
        destruct (effect s A t r m1 (mlock s) (mheld s) (MBusy (mk_mrun (ma r) (mt r) (mo r) (MReturn (give (mo r) (RVal pv))))) (wrapping_neg (mt r) pv) (give (mo r) (RVal pv))) as (A' & S1 & I1 & _); auto.
        * intros u r' Nu Eu Hp. eapply excl_native; [exact Hi | exact Ht | right; exact Pt | exact Eu | exact Hp].
        * intros m0 v0. apply busy_inv; auto. reflexivity.
        * intros a. now apply not_writing.
        * exists A'. split; [now right | exact I1].
      + (* lost the race *)
        cbn [bsem spec_op] in E. destruct (Z.eqb_spec (value_at be (mmem s) (mt r) (ma r)) pv) as [Ev|Nv]; [discriminate|].
        injection E as E1 <-.
        assert (m1 = mmem s) as ->.
        { cbn [core_op] in Q. destruct sp; destruct (s32c1i_works (chip_of c) (mt r) (ma r)); try discriminate Q; [injection Q as <-; reflexivity|].
          destruct (Z.eqb_spec (value_at be (mmem s) (mt r) (ma r)) pv); [contradiction|]. injection Q as <-. reflexivity. }
        exists A. split; [now left|]. apply quiet; [exact Hi | | |].
        * apply busy_inv; auto. refine (conj (conj Ph Pt) _). cbn [mt]. rewrite <- EV. now apply Hr.
        * now apply SG.
        * intros a W. destruct (NWR eq_refl a W).
      + injection Eo as ->.
        exists A. split; [now left|]. apply quiet; [exact Hi | | |].
        * apply busy_inv; auto. refine (conj (conj Ph Pt) _). cbn [mt]. rewrite <- EV. now apply Hr.
        * now apply SG.
        * intros a W. destruct (NWR eq_refl a W).
    - (* MPanic *)
      destruct P as (Ph & Pt). apply some_inj, pair_equal_spec in H as [H <-]. apply pair_equal_spec in H as [<- <-].
      exists A. split; [now left|]. apply quiet; [exact Hi | | |].
      + cbn. eauto.
      + apply lock_same; [|exact HL]. now rewrite GT.
      + intros a W. destruct (NWR eq_refl a W).
  Qed.
End Inv.
