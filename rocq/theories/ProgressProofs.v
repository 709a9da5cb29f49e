(** Proofs about system-wide progress of fetch_update: see ProgressSpec. *)
From Coq Require Import ZArith List Bool PeanoNat Lia.
From Verif Require Import Words Spec LinFacts ClientSpec ClientModel ClientProofs EvalSpec EvalProofs ProgressSpec.
Import ListNotations.
Open Scope Z_scope.

Section Progress.
  Context {Op Res : Type}.
  Variable sem : Z -> Op -> Z -> Z * Res -> Prop.
  Variable reads : Op -> bool.
  Hypothesis reads_ok : reads_only reads sem.
  Local Notation hphase := (rphase (Op := hop Op) (Res := hres Res)).
  Local Notation hstate := (rstate (Op := hop Op) (Res := hres Res)).
  Local Notation hsm := (hsem sem).
  Local Notation opens := (nat -> option (Z * hop Op)).

  (** Who is idle is known from the events. *)
  Definition O2 (s : hstate) (op : opens) : Prop := O1 s op /\ forall j, rphases s j = RIdle <-> op j = None.
  Lemma O2_eq op s s' : (forall x, rvals s' x = rvals s x) -> (forall t, rphases s' t = rphases s t) -> O2 s op -> O2 s' op.
  Proof. intros V P [A B]. split; [now apply (O1_eq op s)|]. intros j. rewrite P. apply B. Qed.
  Lemma O2_silent op s s' : rstep hsm s [] s' -> O2 s op -> O2 s' op.
  Proof.
    intros St [A B]. split; [now apply (O1_silent sem op s)|]. intros j. rewrite <- (B j).
    inversion St as [|? ? t a o r P Sm V [U1 U2]|? ? t a o v r P Sm V [U1 U2]|]; subst; (destruct (Nat.eq_dec j t) as [->|N]; [rewrite U1|now rewrite U2 by assumption]);
      (split; [discriminate|]); intros X; destruct P as [P|(r0 & P)]; rewrite P in X; discriminate X.
  Qed.
  Lemma O2_high op e s s' : rstep hsm s [e] s' -> O2 s op -> O2 s' (open_step op (High e)) /\ forall j a o, e = Call j a o -> op j = None.
  Proof.
    intros St [A B]. split.
    - split; [now apply (O1_high sem op e s)|]. intros j.
      inversion St as [? ? t a o P V [U1 U2]| | |? ? t r P V [U1 U2]]; subst; cbn [open_step]; (destruct (Nat.eqb_spec j t) as [->|N]; [rewrite U1|rewrite U2 by assumption; apply B]);
        split; congruence.
    - intros j a o ->. inversion St as [? ? t b q P V [U1 U2]| | |]; subst. now apply B.
  Qed.
  Lemma O2_rsilent op s s' : rsteps hsm s [] s' -> O2 s op -> O2 s' op.
  Proof. intros R. refine (proj1 (rsteps_inv sem (fun s => O2 s op) (fun _ => True) (Return 0%nat HPanic) (O2_eq op) _ (O2_silent op) _ _) _ _ R); auto. Qed.
  Lemma O2_rhigh op e s s' : rsteps hsm s [e] s' -> O2 s op -> O2 s' (open_step op (High e)) /\ forall j a o, e = Call j a o -> op j = None.
  Proof.
    intros R. refine (proj2 (rsteps_inv sem (fun s => O2 s op) (fun s => O2 s (open_step op (High e)) /\ forall j a o, e = Call j a o -> op j = None) e (O2_eq op) _ (O2_silent op) _ (O2_high op e)) _ _ R).
    - intros q q' V P [X Y]. split; [now apply (O2_eq _ q)|exact Y].
    - intros q q' St [X Y]. split; [now apply (O2_silent _ q)|exact Y].
  Qed.
  Lemma track tr1 : forall s op tr, O2 s op -> erun sem s (tr1 ++ tr) -> exists s', O2 s' (fold_left open_step tr1 op) /\ erun sem s' tr.
  Proof.
    induction tr1 as [|e tr1 IH]; intros s op tr H R; [exists s; auto|]. cbn [app] in R.
    inversion R as [|? e0 s1 ? R1 R2|? i x s1 ? R1 P R2|? i y s1 ? R1 R2|? e0 s1 ? R1 R2]; subst; cbn [fold_left]; (eapply IH; [|exact R2]); try (cbn [open_step]; now apply (O2_rsilent _ _ _ R1)).
    exact (proj1 (O2_rhigh _ _ _ _ R1 H)).
  Qed.
  (** Finitely many are open. *)
  Lemma finite (tr : list (cevent Op Res)) : forall op l, (forall j, op j <> None -> In j l) -> exists l', forall j, fold_left open_step tr op j <> None -> In j l'.
  Proof.
    induction tr as [|e tr IH]; intros op l H; [exists l; exact H|]. cbn [fold_left].
    destruct e as [[j a o|j r]|j x|j y|e]; cbn [open_step]; try (eapply IH; exact H).
    - apply (IH _ (j :: l)). intros k. destruct (Nat.eqb_spec k j) as [->|N]; [now left|]. intros X. right. now apply H.
    - apply (IH _ l). intros k. destruct (Nat.eqb_spec k j) as [->|N]; [congruence|apply H].
  Qed.

  Variables (i : nat) (A : Z).
  Local Notation J := (J reads i A).
  Lemma during_J tr2 : forall s L n B tr3, (forall r, ~ In (High (Return i r)) tr2) -> J L n B s -> erun sem s (tr2 ++ tr3) ->
    forall op, O2 s op -> exists s' n' B', J (last_value i L tr2) n' B' s' /\ erun sem s' tr3 /\ O2 s' (fold_left open_step tr2 op).
  Proof.
    induction tr2 as [|e tr2 IH]; intros s L n B tr3 NR H R op O; [exists s, n, B; auto|]. cbn [app] in R.
    assert (NR' : forall r, ~ In (High (Return i r)) tr2) by (intros r X; apply (NR r); now right).
    inversion R as [|? e0 s1 ? R1 R2|? j x s1 ? R1 Ph R2|? j y s1 ? R1 R2|? e0 s1 ? R1 R2]; subst; cbn [last_value fold_left].
    - assert (NRe : forall r, e0 <> Return i r) by (intros r ->; apply (NR r); now left).
      assert (D : J L n (B + new_rival reads i A e0) s1).
      { refine (proj2 (rsteps_inv sem (J L n B) (J L n (B + new_rival reads i A e0)) e0 (J_eq reads i A L n B) (J_eq reads i A _ _ _) (J_silent sem reads reads_ok i A L n B) (J_silent sem reads reads_ok i A _ _ _) _) _ _ R1 H).
        intros q q' St X. exact (proj1 (J_high sem reads i A L n B e0 q q' NRe St X)). }
      eapply IH; [exact NR'|exact D|exact R2|]. exact (proj1 (O2_rhigh _ _ _ _ R1 O)).
    - pose proof (J_rsilent sem reads reads_ok i A _ _ _ _ _ R1 H) as H1. apply (O2_rsilent _ _ _ R1) in O. destruct (Nat.eqb_spec j i) as [->|N]; [|eapply IH; eauto].
      eapply (IH s1 (Some x) n B); [exact NR'| |exact R2|exact O].
      destruct H1 as (S & P & Le & Oth & Ow). exists S, P. split; [exact Le|]. split; [exact Oth|]. unfold own in *. destruct Ph as (a & o & Ph). rewrite Ph in *.
      destruct Ow as (E1 & E2 & v & E3 & Ow). split; [exact E1|]. split; [exact E2|]. exists v. split; [exact E3|]. rewrite <- (E3 x eq_refl) in *. cbn [differs]. rewrite Z.eqb_refl. lia.
    - eapply IH; [exact NR'|exact (J_rsilent sem reads reads_ok i A _ _ _ _ _ R1 H)|exact R2|exact (O2_rsilent _ _ _ R1 O)].
    - eapply IH; [exact NR'|exact (J_rsilent sem reads reads_ok i A _ _ _ _ _ R1 H)|exact R2|exact (O2_rsilent _ _ _ R1 O)].
  Qed.
  (** Counting anew. *)
  Lemma restart L n B (s : hstate) P : J L n B s -> (forall j o, j <> i -> live (Res := Res) (rphases s j) A o -> changes reads o = true -> In j P) -> J L 0 (1 + length P) s.
  Proof.
    intros (S & P0 & _ & _ & Ow) H. exists 1%nat, P. split; [lia|]. split; [exact H|]. unfold own in *. destruct (rphases s i) as [|a o|a o r|r]; [exact Ow| | |lia].
    - destruct Ow as (E1 & E2 & E3 & _). auto.
    - destruct Ow as (E1 & E2 & v & E3 & _). split; [exact E1|]. split; [exact E2|]. exists v. split; [exact E3|].
      assert (differs L v <= 1)%nat by (unfold differs; destruct L as [w|]; [destruct (w =? v)|]; lia).
      assert (moved (rvals s A) v <= 1)%nat by (unfold moved; destruct (rvals s A =? v); lia). lia.
  Qed.
  Definition isopen (op : opens) (j : nat) : bool := negb (Nat.eqb j i) && match op j with Some _ => true | None => false end.
  Definition isidle (op : opens) (j : nat) : bool := negb (Nat.eqb j i) && match op j with Some _ => false | None => true end.
  Lemma fewer (p q : nat -> bool) (l : list nat) j : In j l -> p j = true -> q j = false -> (forall k, q k = true -> p k = true) -> (length (filter q l) + 1 <= length (filter p l))%nat.
  Proof.
    intros I P Q H. assert (Le : forall l, (length (filter q l) <= length (filter p l))%nat).
    { clear - H. induction l as [|k l IH]; [auto|]. cbn [filter]. specialize (H k). destruct (q k); [rewrite H by reflexivity; cbn; lia|]. destruct (p k); cbn; lia. }
    induction l as [|k l IH]; [contradiction I|]. cbn [filter]. destruct I as [->|I].
    - rewrite P, Q. cbn [length]. specialize (Le l). lia.
    - specialize (IH I). specialize (H k). destruct (q k); [rewrite H by reflexivity; cbn; lia|]. destruct (p k); cbn; lia.
  Qed.
  Lemma stays tr : forall op j, (forall k r, ~ In (@High Op Res (Return k r)) tr) -> op j <> None -> fold_left open_step tr op j <> None.
  Proof.
    induction tr as [|e tr IH]; intros op j NR H; [exact H|]. cbn [fold_left]. apply IH; [intros k r X; apply (NR k r); now right|].
    destruct e as [[k a o|k r]|k x|k y|e]; cbn [open_step]; try exact H; [destruct (j =? k)%nat; congruence|].
    exfalso. apply (NR k r). now left.
  Qed.
  Lemma starts tr3 : forall s op tr4 ids, erun sem s (tr3 ++ tr4) -> O2 s op -> (forall j r, ~ In (High (Return j r)) tr3) ->
    (forall j, fold_left open_step tr3 op j <> None -> In j ids) -> (rival_calls reads A i tr3 <= length (filter (isidle op) ids))%nat.
  Proof.
    induction tr3 as [|e tr3 IH]; intros s op tr4 ids R O NR H; [cbn; lia|]. cbn [app] in R. cbn [fold_left] in H.
    assert (NR' : forall j r, ~ In (High (Return j r)) tr3) by (intros j r X; apply (NR j r); now right).
    inversion R as [|? e0 s1 ? R1 R2|? j x s1 ? R1 Ph R2|? j y s1 ? R1 R2|? e0 s1 ? R1 R2]; subst; cbn [rival_calls];
      try (eapply IH; [exact R2|exact (O2_rsilent _ _ _ R1 O)|exact NR'|exact H]).
    destruct (O2_rhigh _ _ _ _ R1 O) as [O' Cl]. pose proof (IH _ _ _ _ R2 O' NR' H) as Le. destruct e0 as [j a o|j r]; [|exfalso; apply (NR j r); now left].
    specialize (Cl _ _ _ eq_refl).
    destruct (Nat.eqb_spec j i) as [->|N]; cbn [negb andb].
    - assert (E : filter (isidle (open_step op (@High Op Res (Call i a o)))) ids = filter (isidle op) ids); [|rewrite E in Le; exact Le].
      apply filter_ext. intros k. unfold isidle. cbn [open_step]. destruct (Nat.eqb_spec k i); reflexivity.
    - assert (Ij : In j ids) by (apply H, stays; [exact NR'|]; cbn [open_step]; rewrite Nat.eqb_refl; discriminate).
      assert (length (filter (isidle (open_step op (@High Op Res (Call j a o)))) ids) + 1 <= length (filter (isidle op) ids))%nat.
      { apply (fewer _ _ _ j Ij); unfold isidle; cbn [open_step].
        - destruct (Nat.eqb_spec j i); [contradiction|]. now rewrite Cl.
        - rewrite Nat.eqb_refl. apply andb_false_r.
        - intros k. destruct (Nat.eqb_spec k j) as [->|]; [rewrite andb_false_r; discriminate|auto]. }
      destruct ((a =? A)%Z && changes reads o); lia.
  Qed.
  Lemma together op ids : In i ids -> (length (filter (isopen op) ids) + length (filter (isidle op) ids) + 1 <= length ids)%nat.
  Proof.
    assert (Le : forall l, (length (filter (isopen op) l) + length (filter (isidle op) l) <= length l)%nat).
    { induction l as [|k l IH]; [auto|]. cbn [filter length]. unfold isopen at 1, isidle at 1. destruct (k =? i)%nat, (op k); cbn [negb andb length]; lia. }
    induction ids as [|k l IH]; intros I; [contradiction I|]. destruct I as [->|I].
    - cbn [filter length]. unfold isopen at 1, isidle at 1. rewrite Nat.eqb_refl. cbn [negb andb]. specialize (Le l). lia.
    - specialize (IH I). cbn [filter length]. unfold isopen at 1, isidle at 1. destruct (k =? i)%nat, (op k); cbn [negb andb length]; lia.
  Qed.
End Progress.

Section Main.
  Context {Op Res : Type}.
  Variable sem : Z -> Op -> Z -> Z * Res -> Prop.
  Variable F : iface Op Res.
  Hypothesis F_ok : iface_ok sem F.
  Variable reads : Op -> bool.
  Hypothesis reads_ok : reads_only reads sem.

  Lemma stretch3 St progs ls c tr init fin : client_run F St (client_init St progs) ls = Some (c, tr) -> linearizable_to sem init (base_of tr) fin ->
    forall tr1 i a so fo tr2 tr3 tr4 ids, tr = tr1 ++ High (Call i a (HUpdate so fo)) :: tr2 ++ tr3 ++ tr4 ->
      (forall r, ~ In (High (Return i r)) tr2) -> (forall j r, ~ In (High (Return j r)) tr3) ->
      (forall j, open_after (tr1 ++ High (Call i a (HUpdate so fo)) :: tr2 ++ tr3) j <> None -> In j ids) ->
      (new_values i (last_value i None tr2) tr3 <= 1 + length ids)%nat /\ forall b o, ~ In (High (Call i b o)) (tr2 ++ tr3).
  Proof.
    intros R (bf & S & _) tr1 i a so fo tr2 tr3 tr4 ids E NR NR3 Cov. pose proof (crun_erun sem F F_ok St ls _ _ _ _ _ _ _ R (init_inv F St progs init) S) as ER. rewrite E in ER.
    assert (O0 : O2 (mk_rstate init (fun _ => RIdle)) (fun _ => @None (Z * hop Op)) (Res := Res)).
    { split; [intros j b o [X|(r & X)]; discriminate X|]. intros j. cbn. split; reflexivity. }
    destruct (track sem tr1 _ _ _ O0 ER) as (s & O & ER').
    set (op := fold_left open_step tr1 (fun _ => None)) in *. set (e := Call i a (HUpdate so fo)) in *.
    destruct (finite tr1 (fun _ => None) [] (fun j X => X eq_refl)) as (others & Fin). fold op in Fin.
    inversion ER' as [|? e0 s1 ? R1 R2| | |]; subst.
    destruct (O2_rhigh sem _ _ _ _ R1 O) as [O' _].
    assert (D : J reads i a None 0 (length others) s1).
    { refine (proj2 (rsteps_inv sem (fun s => O1 s op) (J reads i a None 0 (length others)) e (O1_eq op) (J_eq reads i a _ _ _) (O1_silent sem op) (J_silent sem reads reads_ok i a _ _ _) _) _ _ R1 (proj1 O)).
      intros q q' St1 Oq. unfold e in St1. inversion St1 as [? ? t b o P V [U1 U2]| | |]; subst. exists 0%nat, others. split; [lia|]. split.
      - intros j o N Lv C. rewrite U2 in Lv by assumption. apply Fin. rewrite (Oq _ _ _ Lv). discriminate.
      - unfold own. rewrite U1. split; [reflexivity|]. split; [eauto|auto]. }
    destruct (during_J sem reads reads_ok i a tr2 _ _ _ _ _ NR D R2 _ O') as (s2 & n2 & B2 & J2 & R3 & O2').
    unfold open_after in Cov. rewrite fold_left_app in Cov. cbn [fold_left] in Cov. fold op e in Cov. rewrite fold_left_app in Cov.
    set (op2 := fold_left open_step tr2 (open_step op (High e))) in *.
    assert (Oi : op2 i <> None).
    { intros X. apply (proj2 O2') in X. destruct J2 as (? & ? & _ & _ & Ow). unfold own in Ow. now rewrite X in Ow. }
    assert (Cov2 : forall j, op2 j <> None -> In j ids) by (intros j X; apply Cov; now apply stays).
    assert (J3 : J reads i a (last_value i None tr2) 0 (1 + length (filter (isopen i op2) ids)) s2).
    { eapply restart; [exact J2|]. intros j o N Lv C. pose proof (proj1 O2' _ _ _ Lv) as X. apply filter_In. split; [apply Cov2; congruence|].
      unfold isopen. destruct (Nat.eqb_spec j i); [contradiction|]. now rewrite X. }
    assert (NRi : forall r, ~ In (High (Return i r)) tr3) by (intros r; apply NR3).
    destruct (during sem reads reads_ok i a tr3 _ _ _ _ _ NRi J3 R3) as [Le NC].
    pose proof (starts sem reads i a tr3 _ _ _ _ R3 O2' NR3 Cov) as Le2. pose proof (together i op2 ids (Cov2 i Oi)) as Le3.
    split; [lia|]. intros b o X. apply in_app_iff in X as [X|X]; [|now apply (NC b o)].
    exact (proj2 (during sem reads reads_ok i a tr2 _ _ _ _ _ NR D R2) b o X).
  Qed.
  Theorem client_progress St progs ls c tr init fin : client_run F St (client_init St progs) ls = Some (c, tr) -> linearizable_to sem init (base_of tr) fin -> few_before_progress tr.
  Proof. intros R L tr1 i a so fo tr2 tr3 tr4 ids E N1 N2 C. exact (proj1 (stretch3 _ _ _ _ _ _ _ R L _ _ _ _ _ _ _ _ _ E N1 N2 C)). Qed.
  Lemma logged i (tr : list (cevent Op Res)) : forall lg, (forall a o, ~ In (High (Call i a o)) tr) -> (exists u, args (lg i) = Some u) ->
    (exists u, args (fold_left log_step tr lg i) = Some u) /\ value_of (fold_left log_step tr lg i) = last_value i (value_of (lg i)) tr.
  Proof.
    induction tr as [|e tr IH]; intros lg NC (u & Hu); [cbn; eauto|].
    assert (NC' : forall a o, ~ In (High (Call i a o)) tr) by (intros a o X; apply (NC a o); now right).
    assert (St : (exists u, args (log_step lg e i) = Some u) /\ value_of (log_step lg e i) = last_value i (value_of (lg i)) [e]).
    { destruct e as [[j a o|j r]|j x|j y|e]; cbn [log_step last_value].
      - assert (j <> i) by (intros ->; apply (NC a o); now left). destruct o; destruct (Nat.eqb_spec i j); try congruence; eauto.
      - eauto.
      - destruct (Nat.eqb_spec j i) as [->|N]; [rewrite Hu, Nat.eqb_refl; cbn; eauto|]. destruct (args (lg j)); [destruct (Nat.eqb_spec i j); [congruence|]|]; eauto.
      - destruct (Nat.eq_dec j i) as [->|N].
        + destruct (lg i) as [|u0|u0 x|u0 x y0] eqn:El; rewrite ?Nat.eqb_refl, ?El; cbn; eauto.
        + destruct (lg j); try (eauto; fail). destruct (Nat.eqb_spec i j); [congruence|eauto].
      - eauto. }
    destruct St as [S1 S2]. cbn [fold_left]. destruct (IH (log_step lg e) NC' S1) as [A B]. split; [exact A|]. rewrite B, S2. destruct e; reflexivity.
  Qed.
  Theorem client_progress_strong St progs ls c tr init fin : never_for_no_reason sem F ->
    client_run F St (client_init St progs) ls = Some (c, tr) -> linearizable_to sem init (base_of tr) fin -> few_before_progress_strong tr.
  Proof.
    intros Sg R L tr1 i a so fo tr2 tr3 tr4 ids E N1 N2 C. destruct (stretch3 _ _ _ _ _ _ _ R L _ _ _ _ _ _ _ _ _ E N1 N2 C) as [Le NC]. destruct L as (bf & S & _).
    assert (N : no_repeat (fun _ => Never) tr).
    { eapply (crun_no_repeat sem F F_ok St Sg); [exact R|apply init_inv|exact S| |exact S]. intros t. exact Logic.I. }
    rewrite E in N. apply no_repeat_tail in N. cbn [no_repeat] in N. destruct N as [_ N]. apply no_repeat_tail in N. apply no_repeat_head in N.
    set (lg := log_step (Op := Op) (Res := Res) (fold_left log_step tr1 (fun _ => Never)) (High (Call i a (HUpdate so fo)))) in *.
    assert (Ua : exists u, args (lg i) = Some u) by (unfold lg; cbn [log_step]; rewrite Nat.eqb_refl; cbn; eauto).
    assert (NC2 : forall b o, ~ In (High (Call i b o)) tr2) by (intros b o X; apply (NC b o), in_app_iff; now left).
    assert (NC3 : forall b o, ~ In (High (Call i b o)) tr3) by (intros b o X; apply (NC b o), in_app_iff; now right).
    destruct (logged i tr2 lg NC2 Ua) as [Ub Vb]. rewrite (all_new i tr3 _ NC3 Ub N), Vb.
    assert (V0 : value_of (lg i) = None) by (unfold lg; cbn [log_step]; rewrite Nat.eqb_refl; reflexivity). rewrite V0. exact Le.
  Qed.

  (** ** Everybody together *)
  Definition upd_seen (s : rstate (Op := hop Op) (Res := hres Res)) (op : nat -> option (Z * hop Op)) : Prop :=
    O2 s op /\ forall j a o v, rphases s j = RSeen a o (HErr v) -> exists so fo, o = HUpdate so fo.
  Lemma upd_eq op s s' : (forall x, rvals s' x = rvals s x) -> (forall t, rphases s' t = rphases s t) -> upd_seen s op -> upd_seen s' op.
  Proof. intros V P [A B]. split; [now apply (O2_eq op s)|]. intros j a o v. rewrite P. apply B. Qed.
  Lemma upd_silent op s s' : rstep (hsem sem) s [] s' -> upd_seen s op -> upd_seen s' op.
  Proof.
    intros St [A B]. split; [now apply (O2_silent sem op s)|]. intros j b q v.
    inversion St as [|? ? t a o r P Sm V [U1 U2]|? ? t a o w r P Sm V [U1 U2]|]; subst; (destruct (Nat.eq_dec j t) as [->|N]; [rewrite U1|rewrite U2 by assumption; apply B]); [|discriminate].
    intros X. injection X as -> -> ->. destruct q as [q|so fo]; [contradiction Sm|eauto].
  Qed.
  Lemma upd_high op e s s' : rstep (hsem sem) s [e] s' -> upd_seen s op -> upd_seen s' (open_step op (High e)).
  Proof.
    intros St [A B]. split; [exact (proj1 (O2_high sem op e s s' St A))|]. intros j b q v.
    inversion St as [? ? t a o P V [U1 U2]| | |? ? t r P V [U1 U2]]; subst; (destruct (Nat.eq_dec j t) as [->|N]; [rewrite U1; discriminate|rewrite U2 by assumption; apply B]).
  Qed.
  Lemma eval_in_update tr1 : forall s op i v tr, upd_seen s op -> erun sem s (tr1 ++ Eval i v :: tr) -> exists a so fo, fold_left open_step tr1 op i = Some (a, HUpdate so fo).
  Proof.
    assert (Si : forall op s s', rsteps (hsem sem) s [] s' -> upd_seen s op -> upd_seen s' op).
    { intros op s s' R. refine (proj1 (rsteps_inv sem (fun s => upd_seen s op) (fun _ => True) (Return 0%nat HPanic) (upd_eq op) _ (upd_silent op) _ _) _ _ R); auto. }
    induction tr1 as [|e tr1 IH]; intros s op i v tr H R; cbn [app] in R.
    - inversion R as [| |? ? ? s1 ? R1 (a & o & P) R2| |]; subst. apply (Si _ _ _ R1) in H. destruct H as [O U]. destruct (U _ _ _ _ P) as (so & fo & ->).
      exists a, so, fo. cbn. apply (proj1 O). right. eauto.
    - inversion R as [|? e0 s1 ? R1 R2|? j x s1 ? R1 P R2|? j y s1 ? R1 R2|? e0 s1 ? R1 R2]; subst; cbn [fold_left]; (eapply IH; [|exact R2]); try (cbn [open_step]; now apply (Si _ _ _ R1)).
      exact (proj2 (rsteps_inv sem (fun s => upd_seen s op) (fun s => upd_seen s (open_step op (High e0))) e0 (upd_eq op) (upd_eq _) (upd_silent op) (upd_silent _) (upd_high op e0)) _ _ R1 H).
  Qed.
  Lemma find_call i a o (tr : list (cevent Op Res)) : open_after tr i = Some (a, o) -> exists x y, tr = x ++ High (Call i a o) :: y /\ forall r, ~ In (High (Return i r)) y.
  Proof.
    unfold open_after. induction tr as [|e tr IH] using rev_ind; [discriminate|]. rewrite fold_left_app. cbn [fold_left]. intros H.
    assert (Go : fold_left open_step tr (fun _ => None) i = Some (a, o) -> (forall r, e <> High (Return i r)) -> exists x y, tr ++ [e] = x ++ High (Call i a o) :: y /\ forall r, ~ In (High (Return i r)) y).
    { intros H' Ne. destruct (IH H') as (x & y & -> & Ny). exists x, (y ++ [e]). split; [now rewrite <- app_assoc|]. intros r X. apply in_app_iff in X as [X|[X|[]]]; [now apply (Ny r)|now apply (Ne r)]. }
    destruct e as [[j b q|j r]|j x|j y|e]; cbn [open_step] in H; try (apply Go; [exact H|discriminate]).
    - destruct (Nat.eqb_spec i j) as [->|N]; [|apply Go; [exact H|discriminate]]. injection H as -> ->. exists tr, []. auto.
    - destruct (Nat.eqb_spec i j) as [->|N]; [discriminate H|]. apply Go; [exact H|]. intros r' X. congruence.
  Qed.
  Lemma first_eval i (tr : list (cevent Op Res)) : evals i tr = 0%nat \/ exists y1 v y2, tr = y1 ++ Eval i v :: y2 /\ evals i tr = evals i (@Eval Op Res i v :: y2).
  Proof.
    induction tr as [|e tr IH]; [now left|].
    assert (Go : evals i (e :: tr) = evals i tr -> evals i (e :: tr) = 0%nat \/ exists y1 v y2, e :: tr = y1 ++ Eval i v :: y2 /\ evals i (e :: tr) = evals i (@Eval Op Res i v :: y2)).
    { intros E. rewrite E. destruct IH as [IH|(y1 & v & y2 & -> & IH)]; [now left|]. right. exists (e :: y1), v, y2. split; [reflexivity|exact IH]. }
    destruct e as [e|j x|j y|e]; try (apply Go; reflexivity). destruct (Nat.eq_dec j i) as [->|N].
    - right. exists [], x, tr. auto.
    - apply Go. cbn [evals]. now destruct (Nat.eqb_spec j i).
  Qed.
  Lemma each_few St progs ls c tr init fin : never_for_no_reason sem F ->
    client_run F St (client_init St progs) ls = Some (c, tr) -> linearizable_to sem init (base_of tr) fin ->
    forall tr1 tr3 tr4 ids, tr = tr1 ++ tr3 ++ tr4 -> (forall j r, ~ In (High (Return j r)) tr3) -> (forall j, open_after (tr1 ++ tr3) j <> None -> In j ids) ->
    forall i, (evals i tr3 <= 1 + length ids)%nat /\ (evals i tr3 <> 0%nat -> In i ids).
  Proof.
    intros Sg R L tr1 tr3 tr4 ids E NR Cov i. pose proof (client_progress_strong _ _ _ _ _ _ _ Sg R L) as Pr. destruct L as (bf & S & _).
    pose proof (crun_erun sem F F_ok St ls _ _ _ _ _ _ _ R (init_inv F St progs init) S) as ER.
    assert (U0 : upd_seen (mk_rstate init (fun _ => RIdle)) (fun _ => None)).
    { split; [split; [intros j b o [X|(r & X)]; discriminate X|intros j; cbn; split; reflexivity]|]. intros j a o v X. discriminate X. }
    destruct (first_eval i tr3) as [Z0|(y1 & v & y2 & E3 & Ev)]; [rewrite Z0; split; [lia|congruence]|].
    assert (E' : tr = (tr1 ++ y1) ++ Eval i v :: y2 ++ tr4) by (rewrite E, E3; now rewrite <- !app_assoc).
    rewrite E' in ER. destruct (eval_in_update _ _ _ _ _ _ U0 ER) as (a & so & fo & Op1).
    destruct (find_call i a (HUpdate so fo) (tr1 ++ y1) Op1) as (x & y & Exy & Ny).
    assert (E1 : tr = x ++ High (Call i a (HUpdate so fo)) :: y ++ (Eval i v :: y2) ++ tr4) by (rewrite E', Exy; now rewrite <- !app_assoc).
    assert (E2 : tr1 ++ tr3 = x ++ High (Call i a (HUpdate so fo)) :: y ++ Eval i v :: y2).
    { rewrite E3, app_assoc, Exy, <- app_assoc. reflexivity. }
    assert (NR' : forall j r, ~ In (High (Return j r)) (@Eval Op Res i v :: y2)) by (intros j r X; apply (NR j r); rewrite E3; apply in_app_iff; now right).
    split.
    - rewrite Ev. apply (Pr x i a so fo y (Eval i v :: y2) tr4 ids E1 Ny NR'). intros j X. apply Cov. now rewrite E2.
    - intros _. apply Cov. rewrite E3, app_assoc. unfold open_after. rewrite fold_left_app. apply stays; [exact NR'|].
      change (fold_left open_step (tr1 ++ y1) (fun _ => None) i) with (fold_left open_step (tr1 ++ y1) (fun _ => @None (Z * hop Op)) i). rewrite Op1. discriminate.
  Qed.
  Lemma total (tr : list (cevent Op Res)) ids : forall k, (forall i, (evals i tr <= k)%nat /\ (evals i tr <> 0%nat -> In i ids)) -> (all_evals tr <= length ids * k)%nat.
  Proof.
    intros k H.
    assert (LC : forall x l, list_sum (x :: l) = (x + list_sum l)%nat) by reflexivity.
    assert (G : forall ids (tr : list (cevent Op Res)), (forall i, evals i tr <> 0%nat -> In i ids) -> (all_evals tr <= list_sum (map (fun i => evals i tr) ids))%nat).
    { clear - LC. intros ids tr. induction tr as [|e tr IH]; intros H; [cbn; lia|].
      assert (H' : forall i, evals i tr <> 0%nat -> In i ids) by (intros i X; apply H; destruct e as [e|j x|j y|e]; cbn [evals]; lia). specialize (IH H').
      destruct e as [e|j x|j y|e]; cbn [all_evals evals]; try exact IH.
      assert (Ij : In j ids) by (apply H; cbn [evals]; rewrite Nat.eqb_refl; lia).
      assert (1 + list_sum (map (fun i => evals i tr) ids) <= list_sum (map (fun i => (if Nat.eqb j i then 1 else 0) + evals i tr) ids))%nat; [|lia].
      clear - Ij LC.
      assert (Le : forall l, (list_sum (map (fun i => evals i tr) l) <= list_sum (map (fun i => (if Nat.eqb j i then 1 else 0) + evals i tr) l))%nat)
        by (induction l as [|q l IH]; [cbn; lia|]; cbn [map]; rewrite !LC; destruct (j =? q)%nat; cbn [Nat.add]; lia).
      induction ids as [|k ids IH]; [contradiction Ij|]. destruct Ij as [->|Ij].
      - specialize (Le ids). cbn [map]. rewrite !LC, Nat.eqb_refl. lia.
      - specialize (IH Ij). cbn [map]. rewrite !LC. destruct (j =? k)%nat; cbn [Nat.add]; lia. }
    pose proof (G ids tr (fun i => proj2 (H i))) as Le. eapply Nat.le_trans; [exact Le|]. assert (Hk : forall i, (evals i tr <= k)%nat) by (intros i; apply H). clear - Hk LC. induction ids as [|j ids IH]; [cbn; lia|].
    change (list_sum (map (fun i => evals i tr) (j :: ids))) with (evals j tr + list_sum (map (fun i => evals i tr) ids))%nat. change (length (j :: ids) * k)%nat with (k + length ids * k)%nat. pose proof (Hk j) as Hj. lia.
  Qed.
  Theorem client_lock_free St progs ls c tr init fin : never_for_no_reason sem F ->
    client_run F St (client_init St progs) ls = Some (c, tr) -> linearizable_to sem init (base_of tr) fin -> lock_free tr.
  Proof.
    intros Sg R L tr1 tr3 tr4 ids E NR Cov. apply total. exact (each_few _ _ _ _ _ _ _ Sg R L _ _ _ _ E NR Cov).
  Qed.
End Main.
