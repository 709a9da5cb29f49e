(** Every public operation is good code (see LayerProofs) around an integer type. *)
From Coq Require Import ZArith List Bool Lia ZifyBool.
From Verif Require Import Words Spec WordsFacts FrontSpec FloatSpec ByteSpec OrderSpec OrderingModel FrontModel FrontProofs FrontMain FallbackFacts
  LayerSpec LayerModel LayerProofs.
Import ListNotations.
Open Scope Z_scope.

Lemma at_least_refl o : at_least o o. Proof. repeat split; auto. Qed.
Lemma upgrade_success s f : ~ cas_panics s f -> at_least (upgrade_success_ordering s f) s /\ at_least (upgrade_success_ordering s f) f.
Proof.
  unfold cas_panics, at_least, has_acquire, has_release, is_seqcst. intros N.
  destruct s, f; cbn; repeat split; intros; intuition (try discriminate; auto).
Qed.

Section P.
  Variable g : pcfg.
  Variable kd : Z -> kind.
  Variable ev : Z -> fop -> list Z -> Z -> Z.
  Hypothesis kok : forall a, kind_ok (kd a).
  Hypothesis unit_ok : float_unit kd ev.
  Context {Op : Type}.
  Variable base : Z -> Op -> Z -> Z * res -> Prop.
  Variable enc : bop -> Op.
  Hypothesis base_ok : backend_ok (fun a => int_of (kd a)) base enc.
  Local Notation sem := (fun a o => base a (enc o)).
  Local Notation valid := (fun a => value_ok (kd a)).
  Local Notation hsem := (fsem kd (ieee kd)).
  Local Notation good := (good hsem sem valid (front_call (miri g) kd) front_return).
  Local Notation step_ok := (step_ok hsem sem valid (front_call (miri g) kd) front_return).

  (** A single integer operation. *)
  Lemma single a o i k : bop_typed (int_of (kd a)) i ->
    (forall x x' r, value_ok (kd a) x -> base a (enc i) x (x', r) -> value_ok (kd a) x' /\
       exists rr, k r = Give rr /\ hsem a o x (x', rr) /\ front_return a o [(i, r)] rr) -> good a o [] (Ask i k).
  Proof.
    intros T H. exists (fun cs c => cs = [] /\ c = Ask i k). split; [auto|]. intros cs c (-> & ->). cbn [LayerProofs.step_ok].
    split; [split; [exact T|congruence]|]. intros x x' r V M. destruct (H x x' r V M) as [V' E]. auto.
  Qed.
  (** A load and a compare_exchange loop. *)
  Lemma looping a o f s fo lo k1 k2 okr errr :
    retries (miri g) (kd a) o -> (load_panics lo -> panics o) -> (load_panics fo -> load_panics lo) ->
    (forall x, k1 x = Give (Some (okr x))) -> (forall x, k2 x = Give (Some (errr x))) ->
    (forall hist x y, value_ok (kd a) x -> ~ load_panics lo -> f hist x = Some y -> value_ok (kd a) y /\ hsem a o x (y, Some (okr x)) /\ at_least s (wanted o (okr x))) ->
    (forall hist x, value_ok (kd a) x -> ~ load_panics lo -> f hist x = None -> hsem a o x (x, Some (errr x)) /\ at_least fo (wanted o (errr x)) /\ at_least lo (wanted o (errr x))) ->
    good a o [] (update f s fo lo k1 k2).
  Proof.
    intros RT PL PF K1 K2 HS HN.
    assert (Unf : forall hist x, update_loop f s fo k1 k2 hist x =
      match f hist x with
      | None => k2 x
      | Some next => Ask (BCasWeak x next s fo) (fun r => match r with ROk x => k1 x | RErr p => update_loop f s fo k1 k2 (hist ++ [x]) p | _ => Give None end)
      end).
    { intros hist x. transitivity (match update_loop f s fo k1 k2 hist x with Give r => Give r | Ask i k => Ask i k end); [now destruct (update_loop f s fo k1 k2 hist x)|].
      cbn. destruct (f hist x); [reflexivity|]. now destruct (k2 x). }
    set (G := fun (cs : list (bop * res)) (c : pcode) => (cs = [] /\ c = update f s fo lo k1 k2) \/
       exists hist x y, value_ok (kd a) x /\ ~ load_panics lo /\ f hist x = Some y /\ c = update_loop f s fo k1 k2 hist x).
    (* having read [x] *)
    assert (Nx : forall hist x i r cs, value_ok (kd a) x -> ~ load_panics lo -> carried i r = lo \/ carried i r = fo ->
      (exists rr, update_loop f s fo k1 k2 hist x = Give rr /\ hsem a o x (x, rr) /\ front_return a o ((i, r) :: cs) rr) \/
      G ((i, r) :: cs) (update_loop f s fo k1 k2 hist x)).
    { intros hist x i r cs V NP C. destruct (f hist x) as [y|] eqn:EF.
      - right. right. exists hist, x, y. auto.
      - left. destruct (HN hist x V NP EF) as (H1 & H2 & H3). exists (Some (errr x)). split; [rewrite Unf, EF; apply K2|]. split; [exact H1|].
        cbn [front_return]. destruct C as [-> | ->]; assumption. }
    exists G. split; [left; auto|]. intros cs c [(-> & ->)|(hist & x & y & V & NP & EF & ->)].
    - cbn [update load LayerProofs.step_ok]. split; [split; [exact Logic.I|congruence]|]. intros x x' r V M. apply base_ok in M.
      destruct (Bool.bool_dec (match lo with Release | AcqRel => true | _ => false end) true) as [E|E].
      + assert (P : load_panics lo) by (unfold load_panics; destruct lo; try discriminate E; auto).
        assert (EE : (x', r) = (x, RPanic)) by (destruct lo; try discriminate E; exact M). injection EE as -> ->.
        split; [exact V|]. left. exists None. split; [reflexivity|]. split; [cbn; auto|]. cbn. auto.
      + assert (P : ~ load_panics lo) by (unfold load_panics; intros [-> | ->]; now apply E).
        assert (EE : (x', r) = (x, RVal x)) by (destruct lo; try (now elim E); exact M). injection EE as -> ->.
        split; [exact V|]. cbn [on_val]. destruct (Nx [] x (BOp (OLoad lo)) (RVal x) [] V P (or_introl eq_refl)) as [F|F]; auto.
    - rewrite Unf, EF. cbn [LayerProofs.step_ok]. destruct (HS hist x y V NP EF) as (Vy & Sy & Ay).
      split; [split; [exact (conj (proj1 V) (proj1 Vy))|auto]|]. intros z z' r Vz M. apply base_ok in M.
      assert (NF : fo <> Release /\ fo <> AcqRel) by (split; intros ->; apply NP, PF; unfold load_panics; auto).
      assert (EE : (z = x /\ z' = y /\ r = ROk x) \/ (z' = z /\ r = RErr z)).
      { destruct NF as [N1 N2]. unfold spec_op in M. destruct (Z.eqb_spec z x) as [->|N]; destruct fo; try contradiction; destruct M as [M|[M _]]; injection M as -> ->; auto. }
      destruct EE as [(-> & -> & ->)|(-> & ->)].
      + split; [exact Vy|]. left. exists (Some (okr x)). split; [apply K1|]. split; [exact Sy|]. exact Ay.
      + split; [exact Vz|]. destruct (Nx (hist ++ [x]) z (BCasWeak x y s fo) (RErr z) cs Vz NP (or_intror eq_refl)) as [F|F]; auto.
  Qed.

  (** ** What the integer operations do *)
  Lemma m_load a o x x' r : base a (enc (BOp (OLoad o))) x (x', r) -> x' = x /\ (r = RVal x /\ ~ load_panics o \/ r = RPanic /\ load_panics o).
  Proof.
    intros M. apply base_ok in M. unfold load_panics. destruct o; cbn in M; injection M as -> ->; (split; [reflexivity|]);
      first [right; split; [reflexivity|]; now auto | left; split; [reflexivity|]; intros [N|N]; discriminate N].
  Qed.
  Lemma m_store a v o x x' r : base a (enc (BOp (OStore v o))) x (x', r) -> x' = v /\ r = RUnit /\ ~ store_panics o \/ x' = x /\ r = RPanic /\ store_panics o.
  Proof.
    intros M. apply base_ok in M. unfold store_panics. destruct o; cbn in M; injection M as -> ->;
      first [right; split; [reflexivity|]; split; [reflexivity|]; now auto | left; split; [reflexivity|]; split; [reflexivity|]; intros [N|N]; discriminate N].
  Qed.
  Lemma m_rmw a q o x x' r : base a (enc (BOp (ORmw q o))) x (x', r) -> x' = spec_rmw (int_of (kd a)) q x /\ r = RVal x.
  Proof. intros M. apply base_ok in M. cbn in M. now injection M as -> ->. Qed.
  Lemma m_nofetch a q o x x' r : base a (enc (BNoFetch q o)) x (x', r) -> x' = spec_rmw (int_of (kd a)) q x /\ (r = RUnit \/ r = RVal x).
  Proof. intros M. now apply base_ok in M. Qed.
  Lemma spec_cas t c n s f x x' r : (x', r) = spec_op t (OCas c n s f) x ->
    ~ cas_panics s f /\ (x = c /\ x' = n /\ r = ROk x \/ x <> c /\ x' = x /\ r = RErr x) \/ x' = x /\ r = RPanic /\ cas_panics s f.
  Proof.
    unfold cas_panics. intros M. destruct f; cbn in M; try (right; injection M as -> ->; now auto);
      (left; split; [intros [N|N]; discriminate N|]; destruct (Z.eqb_spec x c) as [->|N]; injection M as -> ->; auto).
  Qed.
  Lemma m_cas a c n s f x x' r : base a (enc (BOp (OCas c n s f))) x (x', r) ->
    ~ cas_panics s f /\ (x = c /\ x' = n /\ r = ROk x \/ x <> c /\ x' = x /\ r = RErr x) \/ x' = x /\ r = RPanic /\ cas_panics s f.
  Proof. intros M. apply base_ok in M. now apply spec_cas in M. Qed.
  Lemma m_weak a c n s f x x' r : base a (enc (BCasWeak c n s f)) x (x', r) ->
    ~ cas_panics s f /\ (x = c /\ x' = n /\ r = ROk x) \/ (x' = x /\ r = RErr x /\ ~ cas_panics s f) \/ x' = x /\ r = RPanic /\ cas_panics s f.
  Proof. intros M. apply base_ok in M. destruct M as [M|[M N]]; [apply spec_cas in M; tauto|]. injection M as -> ->. auto. Qed.

  (** ** One operation each *)
  Lemma g_load a o ord k kr : (forall v, k v = Give (Some (kr v))) -> (load_panics ord <-> panics o) ->
    (forall x, value_ok (kd a) x -> psem kd (ieee kd) a o x (x, kr x)) -> (forall r, wanted o r = ord) -> good a o [] (load ord k).
  Proof.
    intros K P S W. apply single; [exact Logic.I|]. intros x x' r V M. destruct (m_load _ _ _ _ _ M) as [-> [[-> N]|[-> N]]]; (split; [exact V|]).
    - exists (Some (kr x)). split; [apply K|]. split; [split; [now apply S|]|cbn; rewrite W; apply at_least_refl]. intros Q. now apply P in Q.
    - exists None. split; [reflexivity|]. cbn. split; [split; [reflexivity|]|]; now apply P.
  Qed.
  Lemma g_store a o v ord rr : value_ok (kd a) v -> (store_panics ord <-> panics o) ->
    (forall x, value_ok (kd a) x -> psem kd (ieee kd) a o x (v, rr)) -> (forall r, wanted o r = ord) -> good a o [] (store v ord (ok rr)).
  Proof.
    intros T P S W. apply single; [exact (proj1 T)|]. intros x x' r V M. destruct (m_store _ _ _ _ _ _ M) as [(-> & -> & N)|(-> & -> & N)].
    - split; [exact T|]. exists (Some rr). split; [reflexivity|]. split; [split; [now apply S|]|cbn; rewrite W; apply at_least_refl]. intros Q. now apply P in Q.
    - split; [exact V|]. exists None. split; [reflexivity|]. cbn. split; [split; [reflexivity|]|]; now apply P.
  Qed.
  Lemma g_fetch a o q ord k kr : (forall v, k v = Give (Some (kr v))) -> rmw_typed (int_of (kd a)) q -> ~ panics o ->
    (forall x, value_ok (kd a) x -> value_ok (kd a) (spec_rmw (int_of (kd a)) q x) /\ psem kd (ieee kd) a o x (spec_rmw (int_of (kd a)) q x, kr x)) ->
    (forall x, value_ok (kd a) x -> at_least ord (wanted o (kr x))) -> good a o [] (fetch q ord k).
  Proof.
    intros K T P S W. apply single; [exact T|]. intros x x' r V M. destruct (m_rmw _ _ _ _ _ _ M) as [-> ->]. destruct (S x V) as [V' S'].
    split; [exact V'|]. exists (Some (kr x)). split; [apply K|]. split; [split; [exact S'|assumption]|]. now apply W.
  Qed.
  Lemma g_nofetch a o q ord rr : nofetch_exists q = true -> rmw_typed (int_of (kd a)) q -> ~ panics o ->
    (forall x, value_ok (kd a) x -> value_ok (kd a) (spec_rmw (int_of (kd a)) q x) /\ psem kd (ieee kd) a o x (spec_rmw (int_of (kd a)) q x, rr)) ->
    wanted o rr = ord -> good a o [] (no_result q ord (ok rr)).
  Proof.
    intros E T P S W. apply single; [exact (conj E T)|]. intros x x' r V M. destruct (m_nofetch _ _ _ _ _ _ M) as [-> R]. destruct (S x V) as [V' S'].
    split; [exact V'|]. exists (Some rr). split; [destruct R as [-> | ->]; reflexivity|]. split; [split; [exact S'|assumption]|]. cbn. rewrite W. apply at_least_refl.
  Qed.
  Lemma g_cas a o c n s f k kr : (forall b v, k b v = Give (Some (kr b v))) -> value_ok (kd a) c -> value_ok (kd a) n -> (cas_panics s f <-> panics o) ->
    (psem kd (ieee kd) a o c (n, kr true c)) -> (forall x, value_ok (kd a) x -> x <> c -> psem kd (ieee kd) a o x (x, kr false x)) ->
    (forall x, wanted o (kr true x) = s) -> (forall x, wanted o (kr false x) = f) -> good a o [] (cas c n s f k).
  Proof.
    intros K Tc Tn P S1 S2 W1 W2. apply single; [exact (conj (proj1 Tc) (proj1 Tn))|]. intros x x' r V M.
    destruct (m_cas _ _ _ _ _ _ _ _ M) as [(N & [(-> & -> & ->)|(Nx & -> & ->)])|(-> & -> & N)].
    - split; [exact Tn|]. exists (Some (kr true c)). split; [apply K|]. split; [split; [exact S1|]|cbn; rewrite W1; apply at_least_refl]. intros Q. now apply P in Q.
    - split; [exact V|]. exists (Some (kr false x)). split; [apply K|]. split; [split; [now apply S2|]|cbn; rewrite W2; apply at_least_refl]. intros Q. now apply P in Q.
    - split; [exact V|]. exists None. split; [reflexivity|]. cbn. split; [split; [reflexivity|]|]; now apply P.
  Qed.
  Lemma g_weak a o c n s f k kr : (forall b v, k b v = Give (Some (kr b v))) -> value_ok (kd a) c -> value_ok (kd a) n -> (cas_panics s f <-> panics o) ->
    (psem kd (ieee kd) a o c (n, kr true c)) -> (forall x, value_ok (kd a) x -> psem kd (ieee kd) a o x (x, kr false x)) ->
    (forall x, wanted o (kr true x) = s) -> (forall x, wanted o (kr false x) = f) -> good a o [] (cas_weak c n s f k).
  Proof.
    intros K Tc Tn P S1 S2 W1 W2. apply single; [exact (conj (proj1 Tc) (proj1 Tn))|]. intros x x' r V M.
    destruct (m_weak _ _ _ _ _ _ _ _ M) as [(N & (-> & -> & ->))|[(-> & -> & N)|(-> & -> & N)]].
    - split; [exact Tn|]. exists (Some (kr true c)). split; [apply K|]. split; [split; [exact S1|]|cbn; rewrite W1; apply at_least_refl]. intros Q. now apply P in Q.
    - split; [exact V|]. exists (Some (kr false x)). split; [apply K|]. split; [split; [now apply S2|]|cbn; rewrite W2; apply at_least_refl]. intros Q. now apply P in Q.
    - split; [exact V|]. exists None. split; [reflexivity|]. cbn. split; [split; [reflexivity|]|]; now apply P.
  Qed.

  (** ** AtomicBool *)
  Lemma bval b : value_ok KBool (Z.b2z b).
  Proof. split; [|destruct b; auto]. unfold in_range. destruct b; cbn; lia. Qed.
  Lemma bcase x : value_ok KBool x -> exists b, x = Z.b2z b.
  Proof. intros [_ [-> | ->]]; [now exists false|now exists true]. Qed.
  Lemma nz_b2z b : nz (Z.b2z b) = b. Proof. now destruct b. Qed.
  Ltac bsolve K := let x := fresh "x" in let V := fresh "V" in intros x V; destruct (bcase x V) as [[] ->]; cbn;
    (try (split; [first [exact (bval true)|exact (bval false)]|])); unfold psem; rewrite K; cbn;
    first [reflexivity | exists true; split; reflexivity | exists false; split; reflexivity
          | exists true; split; [reflexivity|]; right; reflexivity | exists false; split; [reflexivity|]; right; reflexivity
          | exists true; split; [reflexivity|]; left; reflexivity | exists false; split; [reflexivity|]; left; reflexivity ].
  Ltac btyped := cbn; unfold in_range; cbn; lia.
  (** The two ways of compare_exchange, with whatever follows. *)
  Lemma b_swap_code b o k : exists q, b_swap g b o k = fetch q o (fun v => k (nz v)) /\ rmw_typed u8 q /\ forall c, spec_rmw u8 q (Z.b2z c) = Z.b2z b.
  Proof.
    unfold b_swap, b_fetch_or, b_fetch_and. destruct (wbool g); [destruct b|]; eexists; (split; [reflexivity|]); (split; [try destruct b; btyped|]); intros []; try destruct b; reflexivity.
  Qed.
  (** compare_exchange(cur, new) is one integer operation [i], followed by [k true cur] if the value was [cur] - then it is
      [new] - or [k false v] if it was [v], unchanged; the former only for [cur], the latter perhaps also for [cur] if weak *)
  Lemma b_cas_code (wk : bool) cur new s f k : ~ cas_panics s f ->
    exists i ki, (if wk then b_cas_weak g cur new s f k else b_cas g cur new s f k) = Ask i ki /\ bop_typed u8 i /\
      forall a x x' r, kd a = KBool -> value_ok KBool x -> base a (enc i) x (x', r) -> exists v, x = Z.b2z v /\
        (v = cur /\ x' = Z.b2z new /\ ki r = k true v /\ at_least (carried i r) s \/
         (v <> cur \/ wk = true) /\ x' = x /\ ki r = k false v /\ at_least (carried i r) f).
  Proof.
    intros NP. pose proof (upgrade_success s f NP) as [U1 U2].
    assert (A : assert_compare_exchange_ordering s f = Some tt).
    { unfold cas_panics in NP. destruct s, f; cbn; try reflexivity; elim NP; auto. }
    assert (Wd : exists i ki, (if Bool.eqb cur new then b_fetch_or false (upgrade_success_ordering s f) (fun old => if Bool.eqb old cur then k true old else k false old)
                     else b_swap g new (upgrade_success_ordering s f) (fun old => if Bool.eqb old cur then k true old else k false old)) = Ask i ki /\ bop_typed u8 i /\
      forall a x x' r, kd a = KBool -> value_ok KBool x -> base a (enc i) x (x', r) -> exists v, x = Z.b2z v /\
        (v = cur /\ x' = Z.b2z new /\ ki r = k true v /\ at_least (carried i r) s \/
         (v <> cur \/ wk = true) /\ x' = x /\ ki r = k false v /\ at_least (carried i r) f)).
    { assert (Q : exists q, (if Bool.eqb cur new then b_fetch_or false (upgrade_success_ordering s f) (fun old => if Bool.eqb old cur then k true old else k false old)
                     else b_swap g new (upgrade_success_ordering s f) (fun old => if Bool.eqb old cur then k true old else k false old)) =
              fetch q (upgrade_success_ordering s f) (fun v => if Bool.eqb (nz v) cur then k true (nz v) else k false (nz v)) /\ rmw_typed u8 q /\
              forall v, spec_rmw u8 q (Z.b2z v) = Z.b2z (if Bool.eqb v cur then new else v)).
      { destruct (Bool.eqb cur new) eqn:E.
        - apply Bool.eqb_prop in E. subst new. exists (Or 0). split; [reflexivity|]. split; [btyped|]. intros v. cbn. rewrite Z.lor_0_r.
          destruct v, cur; reflexivity.
        - destruct (b_swap_code new (upgrade_success_ordering s f) (fun old => if Bool.eqb old cur then k true old else k false old)) as (q & E1 & E2 & E3).
          exists q. split; [exact E1|]. split; [exact E2|]. intros v. rewrite E3. destruct v, cur, new; try discriminate E; reflexivity. }
      destruct Q as (q & E & T & S). eexists _, _. split; [exact E|]. split; [exact T|]. intros a x x' r K V M.
      apply m_rmw in M as [-> ->]. rewrite K. cbn [int_of]. destruct (bcase x V) as [v ->]. exists v. split; [reflexivity|]. rewrite S. cbn [on_val carried]. rewrite nz_b2z.
      destruct (Bool.eqb v cur) eqn:EQ.
      - apply Bool.eqb_prop in EQ. auto.
      - right. split; [left; intros ->; now rewrite Bool.eqb_reflx in EQ|]. auto. }
    unfold b_cas_weak, b_cas. rewrite A. destruct (wbool g); [destruct wk; exact Wd|]. clear Wd.
    destruct wk; eexists _, _; (split; [reflexivity|]); (split; [split; destruct cur, new; btyped|]); intros a x x' r K V M; destruct (bcase x V) as [v ->]; exists v; (split; [reflexivity|]).
    - destruct (m_weak _ _ _ _ _ _ _ _ M) as [(N & (E & -> & ->))|[(-> & -> & N)|(-> & -> & N)]]; [| |contradiction].
      + left. cbn [on_cas carried]. rewrite nz_b2z. split; [destruct v, cur; try discriminate E; reflexivity|]. split; [reflexivity|]. split; [reflexivity|apply at_least_refl].
      + right. cbn [on_cas carried]. rewrite nz_b2z. split; [auto|]. split; [reflexivity|]. split; [reflexivity|apply at_least_refl].
    - destruct (m_cas _ _ _ _ _ _ _ _ M) as [(N & [(E & -> & ->)|(E & -> & ->)])|(-> & -> & N)]; [| |contradiction].
      + left. cbn [on_cas carried]. rewrite nz_b2z. split; [destruct v, cur; try discriminate E; reflexivity|]. split; [reflexivity|]. split; [reflexivity|apply at_least_refl].
      + right. cbn [on_cas carried]. rewrite nz_b2z. split; [left; intros ->; now elim E|]. split; [reflexivity|]. split; [reflexivity|apply at_least_refl].
  Qed.
  (** with an invalid ordering *)
  Lemma b_cas_invalid a o (wk : bool) cur new s f k : kd a = KBool -> cas_panics s f -> panics o ->
    good a o [] (if wk then b_cas_weak g cur new s f k else b_cas g cur new s f k).
  Proof.
    intros K P PO. unfold b_cas_weak, b_cas. destruct (wbool g).
    - assert (A : assert_compare_exchange_ordering s f = None) by (unfold cas_panics in P; destruct s, f; cbn; try reflexivity; destruct P; discriminate).
      rewrite A. replace (if wk then Give None else Give None) with (@Give (option pres) bop res None) by now destruct wk.
      exists (fun cs c => cs = [] /\ c = Give None). split; [auto|]. intros cs c (-> & ->). cbn. auto.
    - destruct wk; apply single; try (rewrite K; split; destruct cur, new; btyped); rewrite K; intros x x' r V M.
      + destruct (m_weak _ _ _ _ _ _ _ _ M) as [(N & _)|[(_ & _ & N)|(-> & -> & N)]]; [contradiction|contradiction|].
        split; [exact V|]. exists None. split; [reflexivity|]. cbn. auto.
      + destruct (m_cas _ _ _ _ _ _ _ _ M) as [(N & _)|(-> & -> & N)]; [contradiction|]. split; [exact V|]. exists None. split; [reflexivity|]. cbn. auto.
  Qed.
  Lemma load_panics_dec o : load_panics o \/ ~ load_panics o.
  Proof. unfold load_panics. destruct o; try (now auto); right; intros [N|N]; discriminate N. Qed.
  Lemma cas_panics_dec s f : cas_panics s f \/ ~ cas_panics s f.
  Proof. unfold cas_panics. destruct f; try (now auto); right; intros [N|N]; discriminate N. Qed.
  Lemma bool_cas_good a (wk : bool) cur new s f : kd a = KBool ->
    good a (if wk then BoolCasWeak cur new s f else BoolCas cur new s f) []
      (if wk then b_cas_weak g cur new s f (fun is_ok b => ok (if is_ok then POkB b else PErrB b)) else b_cas g cur new s f (fun is_ok b => ok (if is_ok then POkB b else PErrB b))).
  Proof.
    intros K. destruct (cas_panics_dec s f) as [P|NP].
    - apply b_cas_invalid; [exact K|exact P|destruct wk; exact P].
    - destruct (b_cas_code wk cur new s f (fun is_ok b => ok (if is_ok then POkB b else PErrB b)) NP) as (i & ki & E & T & H).
      refine (eq_ind_r (fun c => good a _ [] c) _ E). clear E. apply single; [rewrite K; exact T|]. intros x x' r V M. rewrite K in *. destruct (H a x x' r K V M) as (v & -> & [(-> & -> & -> & Al)|(D & -> & -> & Al)]).
      + split; [apply bval|]. eexists. split; [reflexivity|]. split; [split|].
        * unfold psem. rewrite K. destruct wk; exists cur; rewrite Bool.eqb_reflx; auto.
        * intros Q. destruct wk; contradiction.
        * destruct wk; exact Al.
      + split; [exact V|]. eexists. split; [reflexivity|]. split; [split|].
        * unfold psem. rewrite K. destruct D as [D| ->]; [|exists v; auto]. destruct wk; exists v; [auto|]. split; [reflexivity|].
          destruct (Bool.eqb v cur) eqn:E; [apply Bool.eqb_prop in E; contradiction|reflexivity].
        * intros Q. destruct wk; contradiction.
        * destruct wk; exact Al.
  Qed.
  Lemma bool_update_good a f s fo : kd a = KBool -> good a (BoolUpdate f s fo) [] (b_update g f s fo).
  Proof.
    intros K.
    set (kk := fun hist prev (is_ok old : bool) => if is_ok then Give (Some (POkB old)) else b_update_loop g f s fo (hist ++ [prev]) old).
    assert (Unf : forall hist x, b_update_loop g f s fo hist x =
      match f hist x with None => Give (Some (PErrB x)) | Some next => b_cas_weak g x next s fo (kk hist x) end).
    { intros hist x. transitivity (match b_update_loop g f s fo hist x with Give r => Give r | Ask i k => Ask i k end); [now destruct (b_update_loop g f s fo hist x)|].
      transitivity (match (match f hist x with None => Give (Some (PErrB x)) | Some next => b_cas_weak g x next s fo (kk hist x) end) with
                    | Give r => Give r | Ask i k => Ask i k end); [reflexivity|].
      now destruct (match f hist x with None => Give (Some (PErrB x)) | Some next => b_cas_weak g x next s fo (kk hist x) end). }
    set (G := fun (cs : list (bop * res)) (c : pcode) => (cs = [] /\ c = b_update g f s fo) \/
       exists hist x y, ~ load_panics fo /\ f hist x = Some y /\ c = b_update_loop g f s fo hist x).
    assert (Nx : forall hist x i r cs, ~ load_panics fo -> at_least (carried i r) fo ->
      (exists rr, b_update_loop g f s fo hist x = Give rr /\ hsem a (BoolUpdate f s fo) (Z.b2z x) (Z.b2z x, rr) /\ front_return a (BoolUpdate f s fo) ((i, r) :: cs) rr) \/
      G ((i, r) :: cs) (b_update_loop g f s fo hist x)).
    { intros hist x i r cs NP C. destruct (f hist x) as [y|] eqn:EF.
      - right. right. exists hist, x, y. auto.
      - left. exists (Some (PErrB x)). split; [rewrite Unf, EF; reflexivity|]. split; [split; [|intros Q; contradiction]|exact C].
        unfold psem. rewrite K. exists x, hist. split; [reflexivity|]. now rewrite EF. }
    exists G. split; [left; auto|]. intros cs c [(-> & ->)|(hist & x & y & NP & EF & ->)].
    - cbn [b_update load LayerProofs.step_ok]. split; [split; [exact Logic.I|congruence]|]. intros x x' r V M. rewrite K in V. rewrite K.
      destruct (m_load _ _ _ _ _ M) as [-> [[-> N]|[-> N]]]; (split; [exact V|]).
      + destruct (bcase x V) as [v ->]. cbn [on_val]. rewrite nz_b2z. destruct (Nx [] v (BOp (OLoad fo)) (RVal (Z.b2z v)) [] N (at_least_refl fo)) as [F|F]; auto.
      + left. exists None. split; [reflexivity|]. cbn. auto.
    - rewrite Unf, EF. destruct (b_cas_code true x y s fo (kk hist x) NP) as (i & ki & E & T & H). cbn [LayerProofs.step_ok] in *. rewrite E.
      split; [split; [rewrite K; exact T|intros _; unfold retries; rewrite K; exact Logic.I]|]. intros z z' r V M. rewrite K in V |- *.
      destruct (H a z z' r K V M) as (v & -> & [(-> & -> & E2 & Al)|(D & -> & E2 & Al)]); rewrite E2; cbn [kk].
      + split; [apply bval|]. left. eexists. split; [reflexivity|]. split; [split; [|intros Q; contradiction]|exact Al].
        unfold psem. rewrite K. exists x, hist. split; [reflexivity|]. now rewrite EF.
      + split; [exact V|]. destruct (Nx (hist ++ [x]) v i r cs NP Al) as [F|F]; auto.
  Qed.
  Lemma bool_good a o c : kd a = KBool -> public_code ev g kd a o = Some c -> good a o [] c.
  Proof.
    intros K. unfold public_code. rewrite K. destruct o; try discriminate; intros H.
    - injection H as <-. apply g_load with (kr := fun v => PBool (nz v)); [reflexivity|reflexivity| |reflexivity]. rewrite K. bsolve K.
    - injection H as <-. apply g_store; [rewrite K; apply bval|reflexivity| |reflexivity]. rewrite K. intros x V. unfold psem. now rewrite K.
    - injection H as <-. assert (D : exists q, b_rmw g op o (fun b => ok (PBool b)) = fetch q o (fun v => ok (PBool (nz v))) /\ rmw_typed u8 q /\
        forall c, spec_rmw u8 q (Z.b2z c) = Z.b2z (bool_fn op c)).
      { assert (Sw : forall b, exists q, b_swap g b o (fun b => ok (PBool b)) = fetch q o (fun v => ok (PBool (nz v))) /\ rmw_typed u8 q /\ forall c, spec_rmw u8 q (Z.b2z c) = Z.b2z b)
          by (intros b; exact (b_swap_code b o (fun b => ok (PBool b)))).
        destruct op as [b|b|b|b|b|]; cbn [b_rmw bool_fn]; unfold b_fetch_nand.
        - apply Sw.
        - eexists. split; [reflexivity|]. split; [destruct b; btyped|]. intros []; destruct b; reflexivity.
        - destruct b; [|destruct (Sw true) as (q & ? & ? & E); exists q; split; [assumption|split; [assumption|]]; intros []; apply E].
          eexists. split; [reflexivity|]. split; [btyped|]. intros []; reflexivity.
        - eexists. split; [reflexivity|]. split; [destruct b; btyped|]. intros []; destruct b; reflexivity.
        - eexists. split; [reflexivity|]. split; [destruct b; btyped|]. intros []; destruct b; reflexivity.
        - eexists. split; [reflexivity|]. split; [btyped|]. intros []; reflexivity. }
      destruct D as (q & -> & T & S). apply g_fetch with (kr := fun v => PBool (nz v)); [reflexivity|rewrite K; exact T|exact (fun F => F)| |].
      + rewrite K. intros x V. destruct (bcase x V) as [b ->]. cbn [int_of]. rewrite S. split; [apply bval|]. unfold psem. rewrite K, nz_b2z. eauto.
      + intros. apply at_least_refl.
    - assert (D : exists q, c = no_result q o (ok PUnit) /\ nofetch_exists q = true /\ rmw_typed u8 q /\ forall c, spec_rmw u8 q (Z.b2z c) = Z.b2z (bool_fn op c)).
      { destruct op as [b|b|b|b|b|]; try discriminate H; injection H as <-; eexists; (split; [reflexivity|]); (split; [reflexivity|]); cbn [bool_fn];
          (split; [try destruct b; btyped|]); intros []; try destruct b; reflexivity. }
      destruct D as (q & -> & E & T & S). apply g_nofetch; [exact E|rewrite K; exact T|exact (fun F => F)| |reflexivity].
      rewrite K. intros x V. destruct (bcase x V) as [b ->]. cbn [int_of]. rewrite S. split; [apply bval|]. unfold psem. rewrite K. eauto.
    - injection H as <-. exact (bool_cas_good a false current new s f K).
    - injection H as <-. exact (bool_cas_good a true current new s f K).
    - injection H as <-. now apply bool_update_good.
  Qed.

  (** ** Integers and pointers *)
  Lemma int_pos a : 0 < ibits (int_of (kd a)).
  Proof.
    pose proof (kok a) as H. destruct (kd a) as [t| |w z|mw ew]; cbn [int_of ibits kind_ok] in *.
    - destruct H as (e & E & ->). apply Z.pow_pos_nonneg; lia.
    - reflexivity.
    - destruct H as [(e & E & ->) _]. apply Z.pow_pos_nonneg; lia.
    - lia.
  Qed.
  Definition word a t : Prop := kd a = KInt t \/ exists w z, kd a = KPtr w z /\ t = usize w.
  Lemma word_facts a t : word a t -> int_of (kd a) = t /\ (forall x, value_ok (kd a) x <-> in_range t x) /\ (exists e, 0 <= e /\ ibits t = 2 ^ e) /\ wf_ity t.
  Proof.
    intros W. pose proof (int_pos a) as P. pose proof (kok a) as K. destruct W as [W|(w & z & W & ->)]; rewrite W in *; cbn [int_of kind_ok] in *.
    - split; [reflexivity|]. split; [intros x; unfold value_ok; cbn; tauto|]. split; [exact K|exact P].
    - split; [reflexivity|]. split; [intros x; unfold value_ok; cbn; tauto|]. split; [exact (proj1 K)|exact P].
  Qed.
  Lemma typed_rmw t r : nofetch_typed t r = true -> rmw_typed t r.
  Proof. destruct r; cbn; try (intros; exact Logic.I); apply in_rangeb_iff. Qed.
  Lemma plain_good a t ptr p : word a t -> op_ok t ptr p = true -> good a (Plain p) [] (plain_code p).
  Proof.
    intros Wd T. destruct (word_facts a t Wd) as (E & V & _ & W).
    assert (S : forall x out, out = (fst (spec_op t p x), PPlain (snd (spec_op t p x))) -> psem kd (ieee kd) a (Plain p) x out)
      by (destruct Wd as [K|(w & z & K & ->)]; intros x out Q; unfold psem; rewrite K; exact Q).
    destruct p as [ord|v ord|r ord|c n so fo]; cbn [op_ok plain_code] in *.
    - apply single; [exact Logic.I|]. intros x x' r Vx M. destruct (m_load _ _ _ _ _ M) as [-> [[-> N]|[-> N]]]; (split; [exact Vx|]).
      + exists (Some (PPlain (RVal x))). split; [reflexivity|]. split; [split; [apply S|assumption]|cbn; apply at_least_refl].
        unfold load_panics in N. destruct ord; try reflexivity; elim N; auto.
      + exists None. split; [reflexivity|]. cbn. auto.
    - apply in_rangeb_iff in T. apply single; [cbn; now rewrite E|]. intros x x' r Vx M. destruct (m_store _ _ _ _ _ _ M) as [(-> & -> & N)|(-> & -> & N)].
      + split; [now apply V|]. exists (Some (PPlain RUnit)). split; [reflexivity|]. split; [split; [apply S|assumption]|cbn; apply at_least_refl].
        unfold store_panics in N. destruct ord; try reflexivity; elim N; auto.
      + split; [exact Vx|]. exists None. split; [reflexivity|]. cbn. auto.
    - apply andb_prop in T as [T _]. apply typed_rmw in T. apply g_fetch with (kr := fun v => PPlain (RVal v)); [reflexivity|now rewrite E|exact (fun F => F)| |].
      + intros x Vx. rewrite E. split; [apply V; apply spec_rmw_range; [exact W|now apply V|exact T]|]. apply S. reflexivity.
      + intros. apply at_least_refl.
    - apply andb_prop in T as [T1 T2]. apply in_rangeb_iff in T1, T2. apply single; [cbn; now rewrite E|]. intros x x' r Vx M.
      destruct (m_cas _ _ _ _ _ _ _ _ M) as [(N & [(-> & -> & ->)|(Nx & -> & ->)])|(-> & -> & N)].
      + split; [now apply V|]. eexists. split; [reflexivity|]. split; [split; [apply S|assumption]|cbn; apply at_least_refl].
        unfold cas_panics in N. unfold spec_op. rewrite Z.eqb_refl. destruct fo; try reflexivity; elim N; auto.
      + split; [exact Vx|]. eexists. split; [reflexivity|]. split; [split; [apply S|assumption]|cbn; apply at_least_refl].
        unfold cas_panics in N. unfold spec_op. rewrite (proj2 (Z.eqb_neq x c) Nx). destruct fo; try reflexivity; elim N; auto.
      + split; [exact Vx|]. exists None. split; [reflexivity|]. cbn. auto.
  Qed.
  Lemma weak_good a t c n s f : word a t -> in_range t c -> in_range t n -> good a (PlainCasWeak c n s f) [] (plain_weak c n s f).
  Proof.
    intros Wd C N. destruct (word_facts a t Wd) as (E & V & _ & W).
    assert (S : forall x out, out = (if x =? c then (n, PPlain (ROk x)) else (x, PPlain (RErr x))) \/ out = (x, PPlain (RErr x)) ->
              psem kd (ieee kd) a (PlainCasWeak c n s f) x out) by (destruct Wd as [K|(w & z & K & ->)]; intros x out Q; unfold psem; rewrite K; exact Q).
    apply g_weak with (kr := fun (is_ok : bool) v => PPlain (if is_ok then ROk v else RErr v)); try reflexivity; try (now apply V).
    - apply S. rewrite Z.eqb_refl. auto.
    - intros x _. apply S. auto.
  Qed.
  (** What the bit operations do to the value. *)
  Lemma bit_value a t k bit x : word a t -> in_range t x ->
    let mask := wrapping_shl1 t bit in
    let r := match k with BSet => Or mask | BClear => And (bit_not t mask) | BToggle => Xor mask end in
    rmw_typed t r /\ in_range t (spec_rmw t r x) /\ bit_changed (ibits t) k bit x (spec_rmw t r x) /\ nz (bit_and t x mask) = Z.testbit x (bit mod ibits t).
  Proof.
    intros Wd X mask r. destruct (word_facts a t Wd) as (_ & _ & (e & E & Q) & W). assert (W0 : 0 < ibits t) by exact W.
    pose proof (to_bits_range t x W) as B. pose proof (of_to_bits t x W X) as OB. pose proof (Z.mod_pos_bound bit (ibits t) W0) as P.
    assert (MR : in_range t mask) by (unfold mask, wrapping_shl1; apply of_bits_range; [exact W|apply Z.mod_pos_bound, pow2_pos; lia]).
    assert (T : rmw_typed t r).
    { unfold r. destruct k; cbn [rmw_typed]; try exact MR. rewrite bit_not_spec by exact W. apply norm_range, W. }
    split; [exact T|]. split; [now apply spec_rmw_range|].
    destruct (default_bit_access t k bit e (to_bits t x) false E Q B) as [A1 A2]. fold mask in A1, A2. fold r in A1. rewrite OB in A2.
    destruct (b_rmw_next t r (to_bits t x) false W T B) as [A3 A4]. rewrite A3 in A1. rewrite OB in A1, A4. injection A1 as A1.
    destruct (bit_next_ok (ibits t) k bit (to_bits t x) W0 B) as [R C].
    assert (TB : forall n, 0 <= n < ibits t -> Z.testbit x n = Z.testbit (to_bits t x) n) by (intros n N; rewrite <- OB at 1; now apply of_bits_testbit).
    split.
    - intros n N. rewrite <- A4, of_bits_testbit by (auto; now apply to_bits_range). rewrite A1, TB by lia. now apply C.
    - rewrite A2. symmetry. now apply TB.
  Qed.
  Lemma bit_sem a t k bit ord x y : word a t -> in_range t y -> bit_changed (ibits t) k bit x y ->
    psem kd (ieee kd) a (BitOp k bit ord) x (y, PBool (Z.testbit x (bit mod ibits t))).
  Proof.
    intros [K|(w & z & K & ->)] R B; unfold psem; rewrite K; exists y; (split; [|split; [exact B|reflexivity]]); [exact R|].
    unfold in_range in R. change (imin (usize w)) with 0 in R. change (imax (usize w)) with (2 ^ w - 1) in R. lia.
  Qed.
  Lemma int_good t a o c : kd a = KInt t -> public_code ev g kd a o = Some c -> good a o [] c.
  Proof.
    intros K. unfold public_code. rewrite K. assert (Wd : word a t) by now left. destruct (word_facts a t Wd) as (E & V & _ & W).
    destruct o; try discriminate; intros H.
    - destruct (op_ok t false p) eqn:T; [|discriminate H]. injection H as <-. now apply plain_good with (t := t) (ptr := false).
    - destruct (in_rangeb t current) eqn:C; [|discriminate H]. destruct (in_rangeb t new) eqn:N; [|discriminate H]. injection H as <-.
      apply in_rangeb_iff in C, N. now apply weak_good with (t := t).
    - destruct ((0 <=? bit) && (bit <? 2 ^ 32)); [|discriminate H]. injection H as <-. unfold bit_code. cbv zeta.
      apply g_fetch with (kr := fun old => PBool (nz (bit_and t old (wrapping_shl1 t bit)))); [reflexivity| |exact (fun F => F)| |].
      + rewrite E. assert (Z0 : in_range t (of_bits t 0)) by (apply of_bits_range; [exact W|split; [lia|apply pow2_pos; exact (Z.lt_le_incl _ _ W)]]).
        exact (proj1 (bit_value a t k bit _ Wd Z0)).
      + intros x Vx. rewrite E. apply V in Vx. destruct (bit_value a t k bit x Wd Vx) as (T & R & B & N). split; [now apply V|]. rewrite N. now apply bit_sem.
      + intros. apply at_least_refl.
    - destruct (nofetch_typed t r) eqn:T; [|discriminate H]. destruct (nofetch_exists r) eqn:N; [|discriminate H]. injection H as <-.
      apply typed_rmw in T. apply g_nofetch; [exact N|now rewrite E|exact (fun F => F)| |reflexivity].
      intros x Vx. rewrite E. split; [apply V; apply spec_rmw_range; [exact W|now apply V|exact T]|]. unfold psem. now rewrite K.
  Qed.

  (** *** AtomicPtr, in both ways *)
  Lemma ptr_fetch_good a w z o q k kr : kd a = KPtr w z -> (forall v, k v = Give (Some (kr v))) -> rmw_typed (usize w) q ->
    match q with Add _ | Sub _ | Or _ | And _ | Xor _ => True | _ => False end -> ~ panics o -> (miri g = true -> retries (miri g) (kd a) o) ->
    (forall x, in_range (usize w) x -> psem kd (ieee kd) a o x (spec_rmw (usize w) q x, kr x)) ->
    forall ord, (forall r, wanted o r = ord) -> good a o [] (ptr_fetch g w q ord k).
  Proof.
    intros K Kk T Q NP RT S ord Wn. assert (Wd : word a (usize w)) by (right; eauto). destruct (word_facts a _ Wd) as (E & V & _ & W).
    unfold ptr_fetch. destruct (miri g) eqn:MI.
    - rewrite <- MI in RT |- *. apply looping with (okr := kr) (errr := kr); [now apply RT|intros [N|N]; discriminate N|auto|exact Kk|exact Kk| |discriminate].
      intros hist x y Vx _ F. apply V in Vx. pose proof (spec_rmw_range (usize w) q x W Vx T) as R.
      assert (y = spec_rmw (usize w) q x).
      { injection F as <-. destruct q; try contradiction; cbn [spec_rmw rmw_typed] in *.
        - now rewrite wrapping_add_spec.
        - now rewrite wrapping_sub_spec.
        - now rewrite bit_and_spec.
        - now rewrite bit_or_spec.
        - now rewrite bit_xor_spec. }
      subst y. split; [now apply V|]. split; [split; [now apply S|assumption]|]. rewrite Wn. apply at_least_refl.
    - rewrite <- MI. apply g_fetch with (kr := kr); [exact Kk|now rewrite E|exact NP| |].
      + intros x Vx. rewrite E. apply V in Vx. split; [apply V; now apply spec_rmw_range|now apply S].
      + intros. rewrite Wn. apply at_least_refl.
  Qed.

  Lemma ptr_good w z a o c : kd a = KPtr w z -> public_code ev g kd a o = Some c -> good a o [] c.
  Proof.
    intros K. unfold public_code. rewrite K. assert (Wd : word a (usize w)) by (right; eauto). destruct (word_facts a _ Wd) as (E & V & _ & W).
    assert (W0 : 0 < w) by exact W. destruct o; try discriminate; intros H.
    - destruct (op_ok (usize w) true p) eqn:T; [|discriminate H]. injection H as <-. now apply plain_good with (t := usize w) (ptr := true).
    - destruct (in_rangeb (usize w) current) eqn:C; [|discriminate H]. destruct (in_rangeb (usize w) new) eqn:N; [|discriminate H]. injection H as <-.
      apply in_rangeb_iff in C, N. now apply weak_good with (t := usize w).
    - destruct ((0 <=? bit) && (bit <? 2 ^ 32)); [|discriminate H]. injection H as <-. unfold bit_code. cbv zeta.
      apply ptr_fetch_good with (z := z) (kr := fun old => PBool (nz (bit_and (usize w) old (wrapping_shl1 (usize w) bit)))).
      + exact K.
      + reflexivity.
      + assert (Z0 : in_range (usize w) (of_bits (usize w) 0)) by (apply of_bits_range; [exact W|split; [lia|apply pow2_pos; exact (Z.lt_le_incl _ _ W)]]).
        exact (proj1 (bit_value a (usize w) k bit _ Wd Z0)).
      + destruct k; exact Logic.I.
      + exact (fun F => F).
      + intros M. unfold retries. rewrite K. exact M.
      + intros x Vx. destruct (bit_value a (usize w) k bit x Wd Vx) as (T & R & B & N). rewrite N. now apply bit_sem.
      + reflexivity.
    - destruct (ptr_typed w op) eqn:T; [|discriminate H]. injection H as <-.
      assert (G : forall r, rmw_typed (usize w) r -> match r with Add _ | Sub _ | Or _ | And _ | Xor _ => True | _ => False end ->
                (forall x, 0 <= x < 2 ^ w -> spec_rmw (usize w) r x = ptr_fn w z op x) ->
                good a (PtrRmw op o) [] (ptr_fetch g w r o (fun v => ok (PVal v)))).
      { intros r RT Q S. apply ptr_fetch_good with (z := z) (kr := PVal); [exact K|reflexivity|exact RT|exact Q|exact (fun F => F)| | |reflexivity].
        - intros M. unfold retries. rewrite K. exact M.
        - intros x X. unfold psem. rewrite K, S; [reflexivity|]. unfold in_range in X. change (imin (usize w)) with 0 in X. change (imax (usize w)) with (2 ^ w - 1) in X. lia. }
      pose proof (wrapping_mul_spec (usize w)) as WM. unfold ptr_code. cbv zeta.
      destruct op; cbn [ptr_typed] in T; pose proof (in_bits_range _ _ T) as Vr; apply G; cbn [rmw_typed spec_rmw ptr_fn]; try exact Vr; try exact Logic.I;
        try (rewrite WM by exact W; now apply norm_range); intros x X;
        rewrite ?usize_norm, ?WM, ?usize_norm by exact W; try reflexivity.
      + now rewrite Zplus_mod_idemp_r.
      + now rewrite Zminus_mod_idemp_r.
  Qed.

  (** ** Floats *)
  Lemma float_good mw ew a o c : kd a = KFloat mw ew -> public_code ev g kd a o = Some c -> good a o [] c.
  Proof.
    intros K. unfold public_code. rewrite K. pose proof (kok a) as KO. rewrite K in KO. destruct KO as (M & E).
    set (w := 1 + mw + ew) in *. assert (W : 0 < w) by (unfold w; lia). set (t := mk_ity w false).
    assert (T : int_of (kd a) = t) by (rewrite K; reflexivity).
    assert (Vi : forall x, value_ok (kd a) x <-> 0 <= x < 2 ^ w).
    { intros x. rewrite K. unfold value_ok, in_range. change (int_of (KFloat mw ew)) with t. change (imin t) with 0. change (imax t) with (2 ^ w - 1). lia. }
    assert (IB : forall v, in_bits w v = true -> value_ok (kd a) v) by (intros v; rewrite Vi; unfold in_bits; lia).
    assert (RB : forall v, value_ok (kd a) v -> in_range t v) by (intros v [H _]; now rewrite T in H).
    assert (SR : forall q x, rmw_typed t q -> value_ok (kd a) x -> value_ok (kd a) (spec_rmw t q x)).
    { intros q x Q X. pose proof (spec_rmw_range t q x W (RB _ X) Q) as R. apply Vi. unfold in_range in R. change (imin t) with 0 in R. change (imax t) with (2 ^ w - 1) in R. lia. }
    destruct (neg_mask mw ew M E) as [NM AM].
    assert (TM : 2 ^ w = 2 * 2 ^ (mw + ew)) by (unfold w; rewrite <- Z.add_assoc, Z.pow_add_r by lia; reflexivity).
    pose proof (pow2_pos (mw + ew)) as P0.
    assert (G : forall oo ord r, rmw_typed t r -> ~ panics oo -> (forall x, 0 <= x < 2 ^ w -> psem kd (ieee kd) a oo x (spec_rmw t r x, PVal x)) ->
                (forall r, wanted oo r = ord) -> good a oo [] (fetch r ord (fun v => ok (PVal v)))).
    { intros oo ord r RT NP S Wn. apply g_fetch with (kr := PVal); [reflexivity|now rewrite T|exact NP| |intros; rewrite Wn; apply at_least_refl].
      intros x X. rewrite T. split; [now apply SR|]. apply S. now apply Vi. }
    destruct o; try discriminate; intros H.
    - injection H as <-. apply g_load with (kr := PVal); [reflexivity|reflexivity| |reflexivity]. intros x X. unfold psem. now rewrite K.
    - destruct (in_bits w v) eqn:B; [|discriminate H]. injection H as <-. apply g_store; [now apply IB|reflexivity| |reflexivity]. intros x X. unfold psem. now rewrite K.
    - destruct (in_bits w v) eqn:B; [|discriminate H]. injection H as <-. apply G; [cbn; apply RB, IB, B|exact (fun F => F)| |reflexivity].
      intros x X. unfold psem. now rewrite K.
    - destruct (in_bits w current) eqn:B1; [|discriminate H]. destruct (in_bits w new) eqn:B2; [|discriminate H]. injection H as <-.
      apply g_cas with (kr := fun (is_ok : bool) v => if is_ok then POk v else PErr v); try reflexivity; try (now apply IB).
      + unfold psem. now rewrite K, Z.eqb_refl.
      + intros x X N. unfold psem. now rewrite K, (proj2 (Z.eqb_neq x current) N).
    - destruct (in_bits w current) eqn:B1; [|discriminate H]. destruct (in_bits w new) eqn:B2; [|discriminate H]. injection H as <-.
      apply g_weak with (kr := fun (is_ok : bool) v => if is_ok then POk v else PErr v); try reflexivity; try (now apply IB).
      + unfold psem. rewrite K, Z.eqb_refl. auto.
      + intros x X. unfold psem. rewrite K. auto.
    - injection H as <-. apply G; [|exact (fun F => F)| |reflexivity].
      + rewrite NM. cbn. apply RB, Vi. lia.
      + intros x X. unfold psem. rewrite K. cbn [spec_rmw]. rewrite NM. unfold fl_sign, fl_rest. rewrite lxor_top; [reflexivity|lia|].
        unfold w in X. now rewrite <- Z.add_assoc in X.
    - injection H as <-. apply G; [|exact (fun F => F)| |reflexivity].
      + rewrite AM. cbn. apply RB, Vi. lia.
      + intros x X. unfold psem. rewrite K. cbn [spec_rmw]. rewrite AM. unfold fl_rest. rewrite land_low by lia. reflexivity.
    - destruct (fop_typed w op) eqn:TF; [|discriminate H]. injection H as <-.
      apply looping with (okr := PVal) (errr := PVal); [unfold retries; rewrite K; exact Logic.I|intros [N|N]; discriminate N|auto|reflexivity|reflexivity| |discriminate].
      intros hist x y X _ F. injection F as <-. apply Vi in X. pose proof (unit_ok a mw ew op hist x K TF X) as U.
      split; [apply Vi; exact (proj1 U)|]. split; [split; [|intros Q; elim Q]|apply at_least_refl]. unfold psem. rewrite K. exists (ev a op hist x). split; [|reflexivity].
      unfold ieee. rewrite K. exact U.
    - injection H as <-.
      apply looping with (okr := POk) (errr := PErr); [unfold retries; rewrite K; exact Logic.I|auto|auto|reflexivity|reflexivity| |].
      + intros hist x y X NP F. destruct (f hist x) as [v|] eqn:EF; [|discriminate F]. injection F as <-.
        split; [apply Vi, Z.mod_pos_bound; lia|]. split; [split; [|intros Q; contradiction]|apply at_least_refl]. unfold psem. rewrite K. exists hist. now rewrite EF.
      + intros hist x X NP F. destruct (f hist x) as [v|] eqn:EF; [discriminate F|].
        split; [split; [|intros Q; contradiction]|split; apply at_least_refl]. unfold psem. rewrite K. exists hist. now rewrite EF.
  Qed.

  Theorem public_good a o c : public_code ev g kd a o = Some c -> good a o [] c.
  Proof.
    destruct (kd a) as [t| |w z|mw ew] eqn:K.
    - now apply (int_good t).
    - now apply bool_good.
    - now apply (ptr_good w z).
    - now apply (float_good mw ew).
  Qed.
  Theorem public_correct ls s tr init fin : (forall a, value_ok (kd a) (init a)) ->
    layer_run (public_code ev g kd) layer_init ls = Some (s, tr) -> linearizable_to base init (rename enc (inner_of tr)) fin ->
    linearizable_to hsem init (outer_of tr) fin /\ calls_ok (front_call (miri g) kd) front_return (fun _ => None) tr.
  Proof.
    intros V R L. apply linearizable_rename in L.
    eapply (layer_correct hsem sem valid (front_call (miri g) kd) front_return (public_code ev g kd)); eauto. apply public_good.
  Qed.
End P.
