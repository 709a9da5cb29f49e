(** The public operations retry only when they have to: LayerModel's code and RetryProofs. *)
From Coq Require Import ZArith List Bool Lia PeanoNat.
From Verif Require Import Words Spec WordsFacts LinFacts FrontSpec FloatSpec ByteSpec OrderSpec OrderingModel FrontModel FrontMain LayerSpec LayerModel LayerProofs PublicProofs RetrySpec RetryProofs.
Import ListNotations.
Open Scope Z_scope.

Section Never.
  Context {HOp HRes Op Res : Type}.
  Variables (sem : Z -> Op -> Z -> Z * Res -> Prop) (spur : Op -> Res -> bool).
  Hypothesis never : forall a o x x' r, sem a o x (x', r) -> spur o r = false.
  Variable t : nat.
  Definition knows (b : astate Op Res) (cur : option Op) : Prop :=
    match aphases b t with AIdle => cur = None | APending _ o => cur = Some o | ADone r => exists o, cur = Some o /\ spur o r = false end.
  Lemma knows_silent b b' cur : asteps sem b [] b' -> knows b cur -> knows b' cur.
  Proof.
    intros S. remember (@nil (event Op Res)) as l eqn:E. revert E. induction S as [b b' V P|b l0 b' e b'' S IH St]; intros E I.
    - unfold knows. rewrite P. exact I.
    - apply app_eq_nil in E as [-> ->]. specialize (IH eq_refl I). inversion St as [ |? ? u a i x' r P Sm U1a [U2 U2']| ]; subst. unfold knows in *.
      destruct (Nat.eq_dec u t) as [->|N]; [rewrite U2|rewrite U2' by congruence; exact IH]. rewrite P in IH. exists i. split; [exact IH|]. now apply never in Sm.
  Qed.
  Lemma never_spurious (tr : list (levent HOp HRes Op Res)) : forall b bf cur, asteps sem b (inner_of tr) bf -> knows b cur -> spurious spur t cur tr = 0%nat.
  Proof.
    induction tr as [|[e|[u a o|u r]] tr IH]; intros b bf cur S I; cbn [spurious inner_of] in *; [reflexivity|now apply (IH b bf)| |].
    - destruct (ClientProofs.asteps_cons _ _ _ _ _ S) as (b1 & b2 & S1 & S2 & S3). apply (knows_silent _ _ _ S1) in I.
      inversion S2 as [? ? ? ? ? P V2 [U1 U2]| |]; subst. apply (IH b2 bf); [exact S3|]. unfold knows in *.
      destruct (Nat.eqb_spec u t) as [->|N]; [rewrite U1; reflexivity|rewrite U2 by congruence; exact I].
    - destruct (ClientProofs.asteps_cons _ _ _ _ _ S) as (b1 & b2 & S1 & S2 & S3). apply (knows_silent _ _ _ S1) in I.
      inversion S2 as [| |? ? ? ? P V2 [U1 U2]]; subst. unfold knows in I.
      destruct (Nat.eqb_spec u t) as [->|N].
      + rewrite P in I. destruct I as (o & -> & ->). cbn. apply (IH b2 bf); [exact S3|]. unfold knows. now rewrite U1.
      + cbn. apply (IH b2 bf); [exact S3|]. unfold knows. rewrite U2 by congruence. exact I.
  Qed.
End Never.

Section M.
  Variable g : pcfg.
  Variable kd : Z -> kind.
  Variable ev : Z -> fop -> list Z -> Z -> Z.
  Hypothesis kok : forall a, kind_ok (kd a).
  Hypothesis unit_ok : float_unit kd ev.
  Context {Op : Type}.
  Variable base : Z -> Op -> Z -> Z * res -> Prop.
  Variable enc : bop -> Op.
  Hypothesis base_ok : backend_ok (fun a => int_of (kd a)) base enc.
  Local Notation sem := (fun a o => base a (enc o)).
  Local Notation valid := (fun a => value_ok (kd a)).
  Local Notation prog := (prog (HRes := option pres) sem valid for_no_reason).

  Lemma p_give a last r : prog a last (Give r).
  Proof. exists (fun _ c => c = Give r). split; [reflexivity|]. intros l c ->. exact Logic.I. Qed.
  Lemma p_single a last i k : (forall r, exists rr, k r = Give rr) -> prog a last (Ask i k).
  Proof. intros H. exists (fun _ c => c = Ask i k). split; [reflexivity|]. intros l c ->. intros x x' r _ _. left. apply H. Qed.
  Lemma on_val_gives k : (forall v, exists rr, k v = Give rr) -> forall r, exists rr, on_val k r = Give rr.
  Proof. intros H []; cbn; try apply H; unfold panic; eexists; reflexivity. Qed.
  Lemma on_unit_gives c : (exists rr, c = Give rr) -> forall r, exists rr, on_unit c r = Give rr.
  Proof. intros H []; cbn; try apply H; unfold panic; eexists; reflexivity. Qed.
  Lemma on_cas_gives k : (forall b v, exists rr, k b v = Give rr) -> forall r, exists rr, on_cas k r = Give rr.
  Proof. intros H []; cbn; try apply H; unfold panic; eexists; reflexivity. Qed.
  Lemma p_load a last o k : (forall v, exists rr, k v = Give rr) -> prog a last (load o k).
  Proof. intros H. apply p_single. now apply on_val_gives. Qed.
  Lemma p_store a last v o c : (exists rr, c = Give rr) -> prog a last (store v o c).
  Proof. intros H. apply p_single. now apply on_unit_gives. Qed.
  Lemma p_fetch a last q o k : (forall v, exists rr, k v = Give rr) -> prog a last (fetch q o k).
  Proof. intros H. apply p_single. now apply on_val_gives. Qed.
  Lemma p_cas a last c n s f k : (forall b v, exists rr, k b v = Give rr) -> prog a last (cas c n s f k).
  Proof. intros H. apply p_single. now apply on_cas_gives. Qed.
  Lemma p_weak a last c n s f k : (forall b v, exists rr, k b v = Give rr) -> prog a last (cas_weak c n s f k).
  Proof. intros H. apply p_single. now apply on_cas_gives. Qed.
  Lemma p_nofetch a last q o c : (exists rr, c = Give rr) -> prog a last (no_result q o c).
  Proof. intros H. apply p_single. now apply on_unit_gives. Qed.

  Lemma p_update a f s fo lo k1 k2 : (forall x, exists rr, k1 x = Give rr) -> (forall x, exists rr, k2 x = Give rr) -> prog a None (update f s fo lo k1 k2).
  Proof.
    intros K1 K2.
    assert (Unf : forall hist x, update_loop f s fo k1 k2 hist x =
      match f hist x with
      | None => k2 x
      | Some next => Ask (BCasWeak x next s fo) (fun r => match r with ROk x => k1 x | RErr p => update_loop f s fo k1 k2 (hist ++ [x]) p | _ => Give None end)
      end).
    { intros hist x. transitivity (match update_loop f s fo k1 k2 hist x with Give r => Give r | Ask i k => Ask i k end); [now destruct (update_loop f s fo k1 k2 hist x)|].
      cbn. destruct (f hist x); [reflexivity|]. now destruct (k2 x). }
    exists (fun last c => (last = None /\ c = update f s fo lo k1 k2) \/ exists hist x, last = Some x /\ c = update_loop f s fo k1 k2 hist x). split; [left; auto|].
    intros last c [(-> & ->)|(hist & x & -> & ->)].
    - cbn [update load prog_step]. intros x x' r V M. destruct (m_load _ _ _ base_ok _ _ _ _ _ M) as [-> [[-> _]|[-> _]]]; cbn [on_val].
      + right. split; [left; discriminate|]. right. exists [], x. auto.
      + left. eexists. reflexivity.
    - rewrite Unf. destruct (f hist x) as [y|] eqn:EF.
      + cbn [prog_step]. intros z z' r V M. destruct (m_weak _ _ _ base_ok _ _ _ _ _ _ _ _ M) as [(_ & (-> & -> & ->))|[(-> & -> & _)|(-> & -> & _)]].
        * left. apply K1.
        * right. split; [|right; exists (hist ++ [x]), z; auto]. cbn. destruct (Z.eqb_spec z x) as [->|N]; [auto|left; congruence].
        * left. eexists. reflexivity.
      + destruct (K2 x) as [rr ->]. exact Logic.I.
  Qed.

  Lemma b_swap_gives b o k : exists q, b_swap g b o k = fetch q o (fun v => k (nz v)).
  Proof. destruct (b_swap_code g b o k) as (q & E & _). eauto. Qed.
  Lemma p_bswap a last b o k : (forall v, exists rr, k v = Give rr) -> prog a last (b_swap g b o k).
  Proof. intros H. destruct (b_swap_gives b o k) as [q ->]. apply p_fetch. intros v. apply H. Qed.
  (** compare_exchange of a bool through fetch_or or swap *)
  Lemma b_cas_word cur new s f k : wbool g = true ->
    b_cas g cur new s f k = Give None \/
    exists q, b_cas g cur new s f k = fetch q (upgrade_success_ordering s f) (fun v => if Bool.eqb (nz v) cur then k true (nz v) else k false (nz v)).
  Proof.
    intros W. unfold b_cas. rewrite W. destruct (assert_compare_exchange_ordering s f); [right|now left].
    destruct (Bool.eqb cur new); [exists (Or 0); reflexivity|].
    destruct (b_swap_gives new (upgrade_success_ordering s f) (fun old => if Bool.eqb old cur then k true old else k false old)) as [q E]. exists q. exact E.
  Qed.
  Lemma p_bcas a last (wk : bool) cur new s f k : (forall b v, exists rr, k b v = Give rr) -> prog a last (if wk then b_cas_weak g cur new s f k else b_cas g cur new s f k).
  Proof.
    intros H. assert (X : wbool g = true -> prog a last (b_cas g cur new s f k)).
    { intros W. destruct (b_cas_word cur new s f k W) as [-> |[q ->]]; [apply p_give|]. apply p_fetch. intros v. destruct (Bool.eqb (nz v) cur); apply H. }
    destruct wk; [unfold b_cas_weak|]; destruct (wbool g) eqn:W; auto.
    - apply p_weak. intros b v. apply H.
    - unfold b_cas. rewrite W. apply p_cas. intros b v. apply H.
  Qed.
  Lemma p_bool_update a f s fo : kd a = KBool -> prog a None (b_update g f s fo).
  Proof.
    intros K.
    set (kk := fun hist prev (is_ok old : bool) => if is_ok then Give (Some (POkB old)) else b_update_loop g f s fo (hist ++ [prev]) old).
    assert (Unf : forall hist x, b_update_loop g f s fo hist x =
      match f hist x with None => Give (Some (PErrB x)) | Some next => b_cas_weak g x next s fo (kk hist x) end).
    { intros hist x. transitivity (match b_update_loop g f s fo hist x with Give r => Give r | Ask i k => Ask i k end); [now destruct (b_update_loop g f s fo hist x)|].
      transitivity (match (match f hist x with None => Give (Some (PErrB x)) | Some next => b_cas_weak g x next s fo (kk hist x) end) with
                    | Give r => Give r | Ask i k => Ask i k end); [reflexivity|].
      now destruct (match f hist x with None => Give (Some (PErrB x)) | Some next => b_cas_weak g x next s fo (kk hist x) end). }
    exists (fun last c => (last = None /\ c = b_update g f s fo) \/ exists hist x, last = Some (Z.b2z x) /\ c = b_update_loop g f s fo hist x). split; [left; auto|].
    intros last c [(-> & ->)|(hist & x & -> & ->)].
    - cbn [b_update load prog_step]. intros x x' r V M. rewrite K in V. destruct (m_load _ _ _ base_ok _ _ _ _ _ M) as [-> [[-> _]|[-> _]]]; cbn [on_val].
      + right. split; [left; discriminate|]. right. destruct (bcase x V) as [v ->]. rewrite nz_b2z. exists [], v. auto.
      + left. eexists. reflexivity.
    - rewrite Unf. destruct (f hist x) as [y|] eqn:EF; [|exact Logic.I].
      destruct (wbool g) eqn:W.
      + unfold b_cas_weak. rewrite W. destruct (b_cas_word x y s fo (kk hist x) W) as [-> |[q ->]]; [exact Logic.I|].
        cbn [fetch prog_step]. intros z z' r V M. rewrite K in V. destruct (m_rmw _ _ _ base_ok _ _ _ _ _ _ M) as [-> ->]. cbn [on_val]. destruct (bcase z V) as [v ->]. rewrite nz_b2z.
        destruct (Bool.eqb v x) eqn:E; [left; cbn; eexists; reflexivity|]. right. split; [left|right; exists (hist ++ [x]), v; auto].
        destruct v, x; try discriminate E; discriminate.
      + unfold b_cas_weak. rewrite W. cbn [cas_weak prog_step]. intros z z' r V M. rewrite K in V.
        destruct (m_weak _ _ _ base_ok _ _ _ _ _ _ _ _ M) as [(_ & (-> & -> & ->))|[(-> & -> & _)|(-> & -> & _)]]; cbn [on_cas].
        * left. cbn. eexists. reflexivity.
        * right. destruct (bcase z V) as [v ->]. rewrite nz_b2z. split; [|right; exists (hist ++ [x]), v; auto].
          cbn. destruct (Z.eqb_spec (Z.b2z v) (Z.b2z x)) as [_|N]; [auto|left; congruence].
        * left. eexists. reflexivity.
  Qed.
  Lemma p_ptr a w q o k : (forall v, exists rr, k v = Give rr) -> prog a None (ptr_fetch g w q o k).
  Proof. intros H. unfold ptr_fetch. cbv zeta. destruct (miri g); [now apply p_update|now apply p_fetch]. Qed.

  Local Ltac gives := intros; eexists; reflexivity.
  Theorem public_prog a o c : public_code ev g kd a o = Some c -> prog a None c.
  Proof.
    assert (Pl : forall p, prog a None (plain_code p)).
    { intros [ord|v ord|q ord|x y s f]; cbn [plain_code]; [apply p_load|apply p_store|apply p_fetch|apply p_cas]; gives. }
    assert (Pw : forall x y s f, prog a None (plain_weak x y s f)) by (intros; apply p_weak; gives).
    unfold public_code. destruct (kd a) as [t| |w z|mw ew] eqn:K; destruct o; intros H; try discriminate H;
      try (match type of H with (if ?b then _ else _) = _ => destruct b; [|discriminate H] end); try (injection H as <-);
      try apply Pl; try apply Pw; unfold bit_code; cbv zeta;
      try (apply p_load; gives); try (apply p_store; gives); try (apply p_fetch; gives); try (apply p_cas; gives); try (apply p_weak; gives); try (apply p_nofetch; gives); try (apply p_ptr; gives);
      try (apply p_update; gives).
    - (* AtomicBool *) match goal with |- prog _ _ (b_rmw _ ?op _ _) => destruct op as [b|b|b|b|b|] end; cbn [b_rmw]; unfold b_fetch_nand, b_fetch_and, b_fetch_or, b_fetch_xor;
        try (apply p_bswap; gives); try (apply p_fetch; gives). destruct b; [apply p_fetch; gives|apply p_bswap; gives].
    - match type of H with b_no_fetch ?op _ = _ => destruct op as [b|b|b|b|b|] end; cbn [b_no_fetch] in H; try discriminate H; injection H as <-; apply p_nofetch; gives.
    - apply (p_bcas a None false). gives.
    - apply (p_bcas a None true). gives.
    - now apply p_bool_update.
    - match goal with |- prog _ _ (ptr_code _ _ _ ?op _) => destruct op as [v|v|v|v|v|v|v] end; cbn [ptr_code]; apply p_ptr; gives.
  Qed.

  Lemma reads_same a o x x' r : only_reads o = true -> fsem kd (ieee kd) a o x (x', r) -> x' = x.
  Proof.
    destruct r as [r|]; cbn [fsem]; [|now intros _ [-> _]]. intros O [P _].
    unfold psem in P. destruct (kd a); destruct o as [p| | | | | | | | | | | | | | | | | | | | ]; try discriminate O; try contradiction P;
      try (destruct p as [ord|v ord|q ord|c n su fa]; try discriminate O); try (injection P as -> _; reflexivity).
    - destruct ord; cbn in P; injection P as -> _; reflexivity.
    - destruct P as (c & _ & P). injection P as -> _. reflexivity.
    - destruct ord; cbn in P; injection P as -> _; reflexivity.
  Qed.
  Theorem public_retries ls q tr1 t a o tr2 init fin others : (forall x, value_ok (kd x) (init x)) ->
    layer_run (public_code ev g kd) layer_init ls = Some (q, tr1 ++ Outer (Call t a o) :: tr2) ->
    linearizable_to base init (rename enc (inner_of (tr1 ++ Outer (Call t a o) :: tr2))) fin ->
    (forall r, ~ In (Outer (Return t r)) tr2) -> (forall u, u <> t -> busy_on only_reads a tr1 u -> In u others) ->
    (answers t tr2 <= 2 + (length others + rivals only_reads a t tr2) + spurious for_no_reason t None tr2)%nat /\
    ((forall a o x x' r, base a (enc o) x (x', r) -> for_no_reason o r = false) -> spurious for_no_reason t None tr2 = 0%nat).
  Proof.
    intros V R L NR Ot. apply linearizable_rename in L as (bf & S & _).
    destruct (run_split _ tr1 _ _ _ _ R) as (ls1 & ls2 & s1 & -> & R1 & R2).
    assert (In1 : forall h1 h2 : list (levent pop (option pres) bop res), inner_of (h1 ++ h2) = inner_of h1 ++ inner_of h2).
    { induction h1 as [|[e|e] h1 IH]; intros h2; cbn; [reflexivity|apply IH|now rewrite IH]. }
    rewrite In1 in S.
    pose proof (public_good g kd ev kok unit_ok base enc base_ok) as PG.
    destruct (before _ _ valid _ _ only_reads reads_same (public_code ev g kd) PG ls1 layer_init (mk_astate init (fun _ => AIdle)) (fun _ => None) s1 tr1 (inner_of (Outer (Call t a o) :: tr2)) bf) as (b & (W & Th) & Sb); [|exact R1|exact S|].
    { split; [exact V|]. intros u. split; reflexivity. }
    destruct ls2 as [|l ls2]; cbn [layer_run] in R2; [discriminate R2|]. destruct (layer_step (public_code ev g kd) s1 l) as [[s2 e]|] eqn:E; [|discriminate R2].
    destruct (layer_run (public_code ev g kd) s2 ls2) as [[s3 tr]|] eqn:R3; [|discriminate R2]. injection R2 as -> -> ->.
    assert (C : s1 t = LIdle /\ exists c, public_code ev g kd a o = Some c /\ s2 = lset s1 t (LRun a c)).
    { destruct l as [t' a' o'|t'|t' r']; cbn [layer_step] in E; destruct (s1 t') as [|? c|] eqn:Es; try discriminate E.
      - destruct (public_code ev g kd a' o') as [c|] eqn:C; [|discriminate E]. injection E as <- -> -> ->. eauto.
      - destruct c; discriminate E. }
    destruct C as (Id & c & C & ->). cbn [inner_of] in Sb. pose proof (proj2 (Th t)) as Tt. rewrite Id in Tt.
    split; [|intros Strong; apply (never_spurious sem for_no_reason Strong t tr2 b bf None Sb); unfold knows; cbn in Tt; rewrite Tt; reflexivity].
    pose proof (during _ _ valid _ _ for_no_reason only_reads reads_same (public_code ev g kd) PG t a ls2 (lset s1 t (LRun a c)) b None 0 0 (length others) q tr2 bf) as D.
    cbn [Nat.add] in D. apply D; [|exact R3|exact Sb|exact NR]. clear D.
    split; [exact W|]. exists 0%nat, others. split; [cbn; lia|]. split.
    - unfold lset. rewrite Nat.eqb_refl. exists 0%nat, None. split; [reflexivity|]. split; [exact Tt|]. split; [reflexivity|]. left. split; [exists o, []; now apply PG|].
      split; [now apply public_prog with (o := o)|]. split; [lia|cbn; lia].
    - intros u N. unfold lset. rewrite (proj2 (Nat.eqb_neq u t) N). eapply oinv_mono; [|exact (proj2 (Th u))].
      intros x Wx ->. apply Ot; [exact N|]. exact Wx.
  Qed.
End M.

Lemma asteps_prefix {Op Res} (s : Z -> Op -> Z -> Z * Res -> Prop) a h b : asteps s a h b -> forall h1 h2, h = h1 ++ h2 -> exists c, asteps s a h1 c.
Proof.
  induction 1 as [a b V P|a l b e c S IH St]; intros h1 h2 E.
  - symmetry in E. apply app_eq_nil in E as [-> ->]. exists b. now constructor.
  - destruct h2 as [|x h2 _] using rev_ind; [rewrite app_nil_r in E; subst; exists c; econstructor; eauto|].
    assert (Le : e = [] \/ exists y, e = [y]) by (inversion St; eauto). destruct Le as [->|[y ->]].
    + rewrite app_nil_r in E. eauto.
    + rewrite app_assoc in E. apply app_inj_tail in E as [E _]. eauto.
Qed.
Lemma inner_app {HOp HRes Op Res} (h1 h2 : list (levent HOp HRes Op Res)) : inner_of (h1 ++ h2) = inner_of h1 ++ inner_of h2.
Proof. induction h1 as [|[e|e] h1 IH]; cbn; [reflexivity|exact IH|now rewrite IH]. Qed.
Theorem public_few_retries g kd ev Op (base : Z -> Op -> Z -> Z * res -> Prop) enc ls q tr init fin :
  (forall a, kind_ok (kd a)) -> float_unit kd ev -> backend_ok (fun a => int_of (kd a)) base enc -> (forall a, value_ok (kd a) (init a)) ->
  layer_run (public_code ev g kd) layer_init ls = Some (q, tr) -> linearizable_to base init (rename enc (inner_of tr)) fin ->
  few_retries tr /\ ((forall a o x x' r, base a (enc o) x (x', r) -> for_no_reason o r = false) -> few_retries_strong tr).
Proof.
  intros K U B V R (bf & S & _).
  assert (Q : forall tr1 t a o tr2 tr3 others, tr = tr1 ++ Outer (Call t a o) :: tr2 ++ tr3 -> (forall r, ~ In (Outer (Return t r)) tr2) -> (forall u, u <> t -> busy_on only_reads a tr1 u -> In u others) ->
    (answers t tr2 <= 2 + (length others + rivals only_reads a t tr2) + spurious for_no_reason t None tr2)%nat /\
    ((forall a o x x' r, base a (enc o) x (x', r) -> for_no_reason o r = false) -> spurious for_no_reason t None tr2 = 0%nat)).
  { intros tr1 t a o tr2 tr3 others -> NR Ot.
    change (Outer (Call t a o) :: tr2 ++ tr3) with ((Outer (Call t a o) :: tr2) ++ tr3) in R, S. rewrite app_assoc in R, S.
    rewrite inner_app in S. unfold rename in S. rewrite map_app in S. destruct (asteps_prefix _ _ _ _ S _ _ eq_refl) as [c P].
    destruct (run_split _ (tr1 ++ Outer (Call t a o) :: tr2) _ _ _ _ R) as (ls1 & ls2 & s1 & _ & R1 & _).
    eapply (public_retries g kd ev K U base enc B ls1 s1 tr1 t a o tr2 init (fun _ => None)); [exact V|exact R1| |exact NR|exact Ot].
    exists c. split; [exact P|discriminate]. }
  split; [intros tr1 t a o tr2 tr3 others E NR Ot; exact (proj1 (Q tr1 t a o tr2 tr3 others E NR Ot))|].
  intros St tr1 t a o tr2 tr3 others E NR Ot. destruct (Q tr1 t a o tr2 tr3 others E NR Ot) as [L Z0]. rewrite (Z0 St) in L. lia.
Qed.
