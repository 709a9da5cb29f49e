(** Registers and flags after an aarch64 block: only declared outputs have changed. *)
From Coq Require Import ZArith List Bool Lia PeanoNat.
From Verif Require Import Words Spec WideSpec Halves LoopModel AsmModel BlockModel BlockClobber OrderingModel
  Aarch64Model Aarch64Proofs Aarch64Blocks.
Import ListNotations.
Open Scope Z_scope.

(** [s'] agrees with [s] on every register outside [outs], and on the condition flags if [fl] *)
Definition keeps (outs : list reg) (fl : bool) (s s' : st) : Prop :=
  (forall r, ~ In r outs -> r <> Xzr -> rg s' r = rg s r) /\
  (fl = true -> fN s' = fN s /\ fZ s' = fZ s /\ fC s' = fC s /\ fV s' = fV s).
Lemma keeps_refl outs fl s : keeps outs fl s s.
Proof. split; auto. Qed.
Lemma keeps_trans outs fl s1 s2 s3 : keeps outs fl s1 s2 -> keeps outs fl s2 s3 -> keeps outs fl s1 s3.
Proof.
  intros [A B] [C D]. split.
  - intros r H1 H2. rewrite C by assumption. auto.
  - intros F. destruct (B F) as (? & ? & ? & ?). destruct (D F) as (? & ? & ? & ?). repeat split; congruence.
Qed.

(** syntactic sufficient condition *)
Definition dest (i : instr) : option reg :=
  match i with
  | ADDS d _ _ | ADC d _ _ | SUBS d _ _ | SBC d _ _ | SBCS d _ _ | NEGS d _ | NGC d _
  | AND d _ _ | ORR d _ _ | EOR d _ _ | MVN d _ | MOV d _ | CSEL d _ _ _ => Some d
  | CMP _ _ | CCMP0 _ _ _ | DMB _ => None
  end.
Definition sets_flags (i : instr) : bool :=
  match i with ADDS _ _ _ | SUBS _ _ _ | SBCS _ _ _ | CMP _ _ | CCMP0 _ _ _ | NEGS _ _ => true | _ => false end.
Definition mdests (m : minstr) : list reg :=
  match m with
  | LDP l h _ | LDIAPP l h _ | LDXP _ l h _ | CASP _ _ l h _ _ _ | SWPP _ _ l h _ | LDCLRP _ _ l h _ | LDSETP _ _ l h _ => [l; h]
  | LDP64 _ d _ | LDAR d _ | LDXP64 _ _ _ d _ => [d]
  | STXP _ r _ _ _ => [r]
  | STP _ _ _ | STILP _ _ _ => []
  end.
Definition inb (outs : list reg) (r : reg) : bool := match r with Xzr => true | _ => existsb (reg_eqb r) outs end.
Definition cleanb (outs : list reg) (fl : bool) (b : binstr instr jump minstr) : bool :=
  match b with
  | BI i => match dest i with None => true | Some d => inb outs d end && negb (fl && sets_flags i)
  | BJ _ _ => true
  | BM m => forallb (inb outs) (mdests m)
  end.
Lemma inb_ok outs d r : inb outs d = true -> ~ In r outs -> r <> Xzr -> r <> d.
Proof.
  intros H N Z E. subst. unfold inb in H. destruct d; try congruence;
    (apply N; apply existsb_exists in H as (x & X & E); destruct x; try discriminate; exact X).
Qed.
Lemma keeps_set1 outs fl s d v : inb outs d = true -> keeps outs fl s (set1 s d v).
Proof. intros H. split; [|auto]. intros r N Z. cbn [set1 rg]. apply setr_other. eapply inb_ok; eauto. Qed.
Lemma keeps_put outs fl b l h v s : inb outs l = true -> inb outs h = true -> keeps outs fl s (put b l h v s).
Proof. intros A B. unfold put. eapply keeps_trans; apply keeps_set1; assumption. Qed.
Lemma keeps_awc outs fl s d flags x y c : inb outs d = true -> fl && flags = false -> keeps outs fl s (awc s d flags x y c).
Proof.
  intros H F. split.
  - intros r N Z. unfold awc. destruct flags; cbn [rg]; apply setr_other; eapply inb_ok; eauto.
  - intros ->. destruct flags; [discriminate|]. cbn. auto.
Qed.
Section One.
  Variables (b : bool) (h : hw) (outs : list reg) (fl : bool).
  Lemma clean_keeps i : cleanb outs fl i = true -> i_keeps exec1 (access b h) (keeps outs fl) i.
  Proof.
    destruct i as [i|j n|m]; cbn [cleanb i_keeps]; intros H.
    - apply andb_true_iff in H as [D F]. apply negb_true_iff in F. intros s.
      destruct i; cbn [dest sets_flags exec1] in *; rewrite ?andb_false_r in *;
        try (apply keeps_awc; [first [exact D|reflexivity]|exact F || apply andb_false_r]);
        try (apply keeps_set1; exact D); try apply keeps_refl.
      (* ccmp *)
      destruct (holds c s); [apply keeps_awc; [reflexivity|exact F]|].
      rewrite andb_true_r in F. split; [reflexivity|congruence].
    - exact I.
    - intros s. destruct m; cbn [mdests forallb access] in *; rewrite ?andb_true_r in *;
        repeat (apply andb_true_iff in H as [? H]);
        repeat match goal with |- context [if ?x then _ else _] => destruct x end; auto;
        intros; cbn [fst snd]; first [apply keeps_put; assumption | apply keeps_set1; assumption | apply keeps_refl].
  Qed.
End One.

(** The block [c] leaves everything but the registers [outs] (and the flags unless [fl]) alone. *)
Definition respects (b : bool) (h : hw) (outs : list reg) (fl : bool) (c : bconf instr jump minstr st res) : Prop :=
  forall c', steps (bnext exec1 test (access b h)) c c' -> keeps outs fl (bst c) (bst c').
Lemma clean_respects b h outs fl c : forallb (cleanb outs fl) (bprog c) = true -> respects b h outs fl c.
Proof.
  intros H c' S. eapply (steps_keep exec1 test (access b h) (keeps outs fl)); eauto using keeps_refl.
  - intros s1 s2 s3. apply keeps_trans.
  - rewrite forallb_forall in H. apply Forall_forall. intros i Hi. apply clean_keeps. auto.
Qed.

Section Fns.
  Variables (g : target) (h : hw) (t : ity).
  Local Notation rsp outs fl c := (forall k, c = Some k -> respects (be g) h outs fl k).
  Ltac fin := intros k E; repeat match type of E with
      | (match ?x with _ => _ end) = _ => destruct x; try discriminate
      | (let '(_, _) := ?x in _) = _ => destruct x
      end.
  Lemma fence_clean outs fl p : Forall (fun i => exists f, i = DMB f) p -> forallb (cleanb outs fl) (map (@BI instr jump minstr) p) = true.
  Proof. intros H. induction H as [|i p [f ->] H IH]; [reflexivity|]. cbn. now rewrite andb_false_r, IH. Qed.
  Lemma rmw_sfx_dmb o w : Forall (fun i => exists f, i = DMB f) (snd (rmw_sfx g o w)).
  Proof. destruct o; cbn; try constructor. destruct (msvc g), w; cbn; repeat constructor; eauto. Qed.
  Lemma ldp_clean outs fl l hi : inb outs l = true -> inb outs hi = true -> forallb (cleanb outs fl) (ldp h l hi) = true.
  Proof. intros A B. unfold ldp. destruct (h_lse2 h), (h_up_first h); cbn [forallb cleanb mdests]; now rewrite ?A, ?B. Qed.
  Lemma ldxp_clean outs fl a l hi : inb outs l = true -> inb outs hi = true -> forallb (cleanb outs fl) (ldxp h a l hi) = true.
  Proof. intros A B. unfold ldxp. destruct (h_xp_single h), (h_up_first h); cbn [forallb cleanb mdests]; now rewrite ?A, ?B. Qed.
  Ltac go := apply clean_respects; cbn [bprog]; repeat (cbn [forallb]; rewrite forallb_app); rewrite ?ldp_clean, ?ldxp_clean by reflexivity; cbn [forallb]; try reflexivity.
  Lemma some_eq (x y : bconf instr jump minstr st res) : Some x = Some y -> x = y.
  Proof. congruence. Qed.
  Ltac inj E := apply some_eq in E as <-.

  Lemma ldiapp_rsp o s : rsp [PrevLo; PrevHi; TmpLo] true (load_ldiapp g t o s).
  Proof. intros k E. destruct o; try discriminate; inj E; go. Qed.
  Lemma ldp_rsp o s : rsp [PrevLo; PrevHi; TmpLo] true (load_ldp g h t o s).
  Proof.
    intros k E. destruct o; try discriminate; cbn [load_ldp] in E.
    - inj E; go.
    - destruct (c_rcpc3 g); [now apply (ldiapp_rsp Acquire s)|]. inj E; go.
    - destruct (c_rcpc3 g); [now apply (ldiapp_rsp SeqCst s)|]. inj E; go.
  Qed.
  Lemma lcasp_rsp o s : rsp [X2; X3] true (load_casp g t o s).
  Proof. intros k E. unfold load_casp in E. destruct (load_sfx o) as [[a r]|]; [|discriminate]. inj E. go. Qed.
  Lemma lldxp_rsp o s : rsp [PrevLo; PrevHi; Rr] true (load_ldxp_stxp g h t o s).
  Proof. intros k E. unfold load_ldxp_stxp in E. destruct (load_sfx o) as [[a r]|]; [|discriminate]. inj E. go. Qed.
  Lemma swpp_rsp v u o s : rsp [ValLo; ValHi] true (swap_swpp g t v u o s).
  Proof. intros k E. unfold swap_swpp in E. destruct (rmw_sfx g o o) as [[a r] f]. inj E. go. Qed.
  Lemma swap_casp_rsp v u o s : rsp [TmpLo; TmpHi; X4; X5] false (swap_casp g h t v u o s).
  Proof. intros k E. unfold swap_casp in E. destruct (rmw_sfx g o o) as [[a r] f]. inj E. go. Qed.
  Lemma swap_ll_rsp v u o s : rsp [PrevLo; PrevHi; Rr] true (swap_ldxp_stxp g h t v u o s).
  Proof.
    intros k E. unfold swap_ldxp_stxp in E. pose proof (rmw_sfx_dmb o o) as F. destruct (rmw_sfx g o o) as [[a r] f]. inj E. go.
    now rewrite (fence_clean _ _ f).
  Qed.
  Lemma stilp_rsp v o s : rsp [] true (store_stilp g v o s).
  Proof. intros k E. destruct o; try discriminate; inj E; go. Qed.
  (** [stp] declares no outputs; the release and SeqCst stores may be a [swpp] *)
  Lemma stp_rsp v o s : rsp [ValLo; ValHi] true (store_stp g t v o s).
  Proof.
    assert (W : forall fl c, respects (be g) h [] fl c -> respects (be g) h [ValLo; ValHi] fl c).
    { intros fl c H c' S. destruct (H c' S) as [A B]. split; [|exact B]. intros r N Z. apply A; [intros []|exact Z]. }
    intros k E. destruct o; try discriminate; cbn [store_stp] in E.
    - inj E. go.
    - destruct (c_rcpc3 g); [now apply W, (stilp_rsp v Release s)|]. destruct (c_lse128 g); [now apply (swpp_rsp v true Release s)|]. inj E; go.
    - destruct (c_lse128 g); [now apply (swpp_rsp v true SeqCst s)|]. destruct (c_rcpc3 g); [now apply W, (stilp_rsp v SeqCst s)|]. inj E; go.
  Qed.
  Lemma store_ll_rsp v o s : rsp [TmpLo] true (store_ldxp_stxp g h v o s).
  Proof.
    intros k E. unfold store_ldxp_stxp in E. pose proof (rmw_sfx_dmb o o) as F. destruct (rmw_sfx g o o) as [[a r] f]. inj E. go.
    now rewrite (fence_clean _ _ f).
  Qed.
  Lemma cas_casp_rsp ol nw sc fl s : rsp [X6; X7] true (cas_casp g t ol nw sc fl s).
  Proof. intros k E. unfold cas_casp in E. destruct (rmw_sfx g _ sc) as [[a r] f]. inj E. go. Qed.
  Lemma cas_ll_rsp ol nw sc fl s : rsp [PrevLo; PrevHi; Rr; TmpLo; TmpHi] false (cas_ldxp_stxp g h t ol nw sc fl s).
  Proof.
    intros k E. unfold cas_ldxp_stxp in E. pose proof (rmw_sfx_dmb (upgrade_success_ordering sc fl) sc) as F.
    destruct (rmw_sfx g _ sc) as [[a r] f]. inj E. go. now rewrite (fence_clean _ _ f).
  Qed.
  (** 2006, 2066, 2082, 2142, 2153: and, nand, or, xor, not are declared [preserves_flags] *)
  Definition ll_preserves (r : rmw) : bool := match r with And _ | Nand _ | Or _ | Xor _ | Not => true | _ => false end.
  Lemma rmw_ll_rsp r p o s : body_ll g t r = Some p ->
    rsp [PrevLo; PrevHi; NewLo; NewHi; Rr] (ll_preserves r) (rmw_ll_sc g h t r p o s).
  Proof.
    intros B k E. unfold rmw_ll_sc in E. pose proof (rmw_sfx_dmb o o) as F. destruct (rmw_sfx g o o) as [[a q] f]. inj E. go.
    rewrite (fence_clean _ _ f) by exact F. cbn [andb]. destruct r; try discriminate B; injection B as <-; cbn [ll_preserves];
      unfold maxmin_ll, le_or_be; destruct (be g); try destruct (isigned t); reflexivity.
  Qed.
  Lemma rmw_casp_rsp r p o s : body_cas g t r = Some p ->
    rsp [TmpLo; TmpHi; X6; X7; X4; X5] false (rmw_casp g h t r p o s).
  Proof.
    intros B k E. unfold rmw_casp in E. destruct (rmw_sfx g o o) as [[a q] f]. inj E. go.
    cbn [andb map app].
    destruct r; try discriminate B; injection B as <-; unfold maxmin_cas, le_or_be; destruct (be g); try destruct (isigned t); reflexivity.
  Qed.
  Lemma ldclrp_rsp v o s : rsp [ValLo; ValHi] true (and_ldclrp g t v o s).
  Proof. intros k E. unfold and_ldclrp in E. destruct (rmw_sfx g o o) as [[a r] f]. inj E. go. Qed.
  Lemma ldsetp_rsp v o s : rsp [ValLo; ValHi] true (or_ldsetp g t v o s).
  Proof. intros k E. unfold or_ldsetp in E. destruct (rmw_sfx g o o) as [[a r] f]. inj E. go. Qed.
End Fns.
