(** Proofs about SelectModel: calls around calls, variants chosen per call, and one side for everybody. *)
From Coq Require Import ZArith List Bool Lia PeanoNat.
From Verif Require Import Words Spec LinFacts WideSpec OrderSpec EntrySpec LayerSpec.
From Verif Require ClientProofs EntryMain.
From Verif Require Import OrderingModel DispatchModel DetectModel DetectProofs PropertiesDetect EntryModel SelectSpec SelectModel.
From Verif Require Import LoopModel LoopProofs AsmModel AsmProofs AtomicImpls.
Import ListNotations.
Open Scope Z_scope.

(** ** Variants: which code serves a call may differ from call to call *)
Section Variants.
  Context {C Op Op' Res : Type}.
  Variable next : C -> action C Res.
  Variable width : Z -> Z.
  Variable o' : Op'.
  Definition pmap (p : pc Op Res) : pc Op' Res :=
    match p with
    | LoopModel.Idle => LoopModel.Idle
    | Begin a _ i => Begin a o' i
    | Rd a _ i h n acc => Rd a o' i h n acc
    | Try a _ i h g => Try a o' i h g
    | Fin r => Fin r
    end.
  Lemma local_map p q : local p q -> local (pmap p) (pmap q).
  Proof.
    destruct p as [|a o [f|k rs rr b ok er|k rs b ok er w]|a o i h n acc|a o [f|k rs rr b ok er|k rs b ok er w] h g|r]; cbn; auto; try (intros ->; reflexivity);
      intros [E ->]; auto.
  Qed.
  Lemma locals_map p q : locals p q -> locals (pmap p) (pmap q).
  Proof. induction 1; [apply l_refl|]. eapply l_step; [apply local_map; eassumption|assumption]. Qed.
  Definition rmap (R : C -> pc Op Res -> Prop) (c : C) (q : pc Op' Res) : Prop := exists p, R c p /\ q = pmap p.
  Lemma after_map a o i h n acc : pmap (after_rd a o i h n acc) = after_rd a o' i h n acc.
  Proof. unfold after_rd. destruct (Nat.eqb _ _); reflexivity. Qed.
  Lemma act_map R c p : act next width R c p -> act next width (rmap R) c (pmap p).
  Proof.
    unfold act. destruct (next c) as [c'|a k n kont|a f kont|fi a k n kont|a v kont|r|]; auto.
    - intros [(o & i & h & m & acc & L & A & B & D & E & F)|(o & g & L & A & B & F)]; [left|right].
      + exists o', i, h, m, acc. split; [exact (locals_map _ _ L)|]. repeat (split; [assumption|]). intros v V. rewrite <- (after_map a o). eexists; eauto.
      + exists o', g. split; [exact (locals_map _ _ L)|]. repeat (split; [assumption|]). intros sp x X. destruct (F sp x X). split; [assumption|]. exists (Fin (snd (g sp x))). auto.
    - intros [(o & g & L & F)|(o & k & rs & rr & b & ok & er & h & g & y & L & B & F)]; [left|right].
      + exists o', g. split; [exact (locals_map _ _ L)|]. intros sp x X. destruct (F sp x X) as (A & B & D). split; [assumption|]. split; [assumption|]. exists (Fin (snd (g sp x))). auto.
      + exists o', k, rs, rr, b, ok, er, h, g, y. split; [exact (locals_map _ _ L)|]. split; [assumption|]. intros sp x X.
        destruct (F sp x X) as [(A & B1 & D & E)|(A & B1 & D)]; [left|right]; (split; [assumption|]); (split; [assumption|]).
        * split; [assumption|]. exists (Fin (ok g)). auto.
        * eexists. split; [exact D|]. destruct rr; reflexivity.
    - intros (o & i & h & m & acc & L & A & B & D & E & F & G). exists o', i, h, m, acc. split; [exact (locals_map _ _ L)|]. repeat (split; [assumption|]).
      intros v V. rewrite <- (after_map a o). eexists; eauto.
    - intros (o & k & rs & b & ok & er & w & h & g & L & A & B & D & E). exists o', k, rs, b, ok, er, w, h, g. split; [exact (locals_map _ _ L)|].
      split; [assumption|]. split; [assumption|]. split; [exists (Fin (ok g)); auto|]. eexists. split; [exact E|]. destruct w; reflexivity.
    - intros L. exact (locals_map _ _ L).
  Qed.
  Lemma settle_map R c p : settle next width R c p -> settle next width (rmap R) c (pmap p).
  Proof.
    induction 1 as [c p A|c c' p q E L S IH|c a k n kont p E K S IH].
    - apply st_act. now apply act_map.
    - eapply st_local; [exact E|apply locals_map; exact L|exact IH].
    - eapply st_read; eauto.
  Qed.
  Lemma refines_any_op a o c i : refines (Op := Op) next width a o c i -> refines next width a o' c i.
  Proof.
    intros (R & S & N). exists (rmap R). split; [exact (settle_map _ _ _ S)|]. intros c0 q (p & H & ->). apply settle_map. now apply N.
  Qed.
End Variants.

Section VariantsMain.
  Context {C V : Type}.
  Variable next : C -> action C res.
  Variable code_of : V -> Z -> wop -> option C.
  Variable impl_of : V -> Z -> wop -> option (impl res).
  Variable ty : Z -> ity.
  Hypothesis HR : forall v a o c, code_of v a o = Some c -> exists i, impl_of v a o = Some i /\ refines next (fun a => ibits (ty a)) a o c i.
  Hypothesis HC : forall v a o i, impl_of v a o = Some i -> impl_correct (fun a => ibits (ty a)) (fun a x => of_bits (ty a) x) (sem ty) a o i.
  Theorem variants_atomic m ls s h : mem_ok ty m -> asm_run next (vcode code_of) (asm_init m) ls = Some (s, h) ->
    linearizable_to (by_variant (sem ty)) (fun a => of_bits (ty a) (m a)) h (fun a => Some (of_bits (ty a) (amem s a))).
  Proof.
    intros Hm H.
    assert (HR' : forall a (o : V * wop) c, vcode code_of a o = Some c -> exists i, impl_of (fst o) a (snd o) = Some i /\ refines next (fun a => ibits (ty a)) a o c i).
    { intros a o c E. destruct (HR _ _ _ _ E) as (i & I & R). exists i. split; [exact I|]. exact (refines_any_op next _ o a (snd o) c i R). }
    destruct (asm_refines_loops next (vcode code_of) (fun a o => impl_of (fst o) a (snd o)) (fun a => ibits (ty a)) HR' m ls s h Hm H) as (ls' & s' & H' & M).
    assert (HC' : forall a (o : V * wop) i, impl_of (fst o) a (snd o) = Some i ->
      impl_correct (fun a => ibits (ty a)) (fun a x => of_bits (ty a) x) (by_variant (sem ty)) a o i).
    { intros a o i I. exact (HC _ _ _ _ I). }
    pose proof (loops_linearizable _ (fun a => ibits (ty a)) (fun a x => of_bits (ty a) x) (by_variant (sem ty)) HC' m ls' s' h Hm H') as (A & L1 & L2).
    exists A. split; [exact L1|]. intros a v E. injection E as <-. rewrite <- M. now apply L2.
  Qed.
  Theorem variants_never_stuck m ls s h t c : mem_ok ty m -> asm_run next (vcode code_of) (asm_init m) ls = Some (s, h) -> athr s t = Some c ->
    forall sp, exists s' e, asm_step next (vcode code_of) s (mk_label t None sp) = Some (s', e).
  Proof.
    intros Hm. eapply (asm_never_stuck next (vcode code_of) (fun a o => impl_of (fst o) a (snd o)) (fun a => ibits (ty a))); [|exact Hm].
    intros a o c0 E. destruct (HR _ _ _ _ E) as (i & I & R). exists i. split; [exact I|]. exact (refines_any_op next _ o a (snd o) c0 i R).
  Qed.
End VariantsMain.

(** ** An operation that makes one inner operation and returns its result *)
Section Wrap.
  Context {HOp HRes Op Res : Type}.
  Variable hsem : Z -> HOp -> Z -> Z * HRes -> Prop.
  Variable sm : Z -> Op -> Z -> Z * Res -> Prop.
  Variable serves : HOp -> Op -> Prop.
  Variable conv : HOp -> Res -> HRes.
  Variable given_up : HOp -> HRes -> Prop.      (* returned without doing anything *)
  Hypothesis serves_ok : forall a o i x x' r, serves o i -> sm a i x (x', r) -> hsem a o x (x', conv o r).
  Hypothesis given_up_ok : forall a o x r, given_up o r -> hsem a o x (x, r).

  Inductive wphase := WIdle | WCalled (a : Z) (o : HOp) | WIn (a : Z) (o : HOp) (i : Op) | WOut (a : Z) (o : HOp) (r : HRes).
  Definition wset (w : nat -> wphase) (t : nat) (p : wphase) : nat -> wphase := fun u => if Nat.eqb u t then p else w u.
  Inductive wrapped : (nat -> wphase) -> list (levent HOp HRes Op Res) -> Prop :=
  | w_end w : wrapped w []
  | w_call w t a o tr : w t = WIdle -> wrapped (wset w t (WCalled a o)) tr -> wrapped w (Outer (Call t a o) :: tr)
  | w_enter w t a o i tr : w t = WCalled a o -> serves o i -> wrapped (wset w t (WIn a o i)) tr -> wrapped w (Inner (Call t a i) :: tr)
  | w_answer w t a o i r tr : w t = WIn a o i -> wrapped (wset w t (WOut a o (conv o r))) tr -> wrapped w (Inner (Return t r) :: tr)
  | w_return w t a o r tr : w t = WOut a o r -> wrapped (wset w t WIdle) tr -> wrapped w (Outer (Return t r) :: tr)
  | w_give_up w t a o r tr : w t = WCalled a o -> given_up o r -> wrapped (wset w t WIdle) tr -> wrapped w (Outer (Return t r) :: tr).

  Definition winv (w : wphase) (b : aphase Op Res) (h : aphase HOp HRes) : Prop :=
    match w with
    | WIdle => b = AIdle /\ h = AIdle
    | WCalled a o => b = AIdle /\ h = APending a o
    | WIn a o i => serves o i /\ ((b = APending a i /\ h = APending a o) \/ exists r, b = Spec.ADone r /\ h = Spec.ADone (conv o r))
    | WOut a o r => b = AIdle /\ h = Spec.ADone r
    end.
  Definition WInv (w : nat -> wphase) (b : astate Op Res) (h : astate HOp HRes) : Prop :=
    (forall x, avals h x = avals b x) /\ forall t, winv (w t) (aphases b t) (aphases h t).
  Lemma wsilent w b b' hs hs0 h : asteps sm b [] b' -> WInv w b hs -> asteps hsem hs0 h hs -> exists hs', asteps hsem hs0 h hs' /\ WInv w b' hs'.
  Proof.
    intros S. remember (@nil (event Op Res)) as l eqn:E. revert hs E. induction S as [b b' V P|b l0 b' e b'' S IH St]; intros hs E [A B] H.
    - exists hs. split; [exact H|]. split; [intros; now rewrite V|]. intros t. rewrite P. apply B.
    - apply app_eq_nil in E as [-> ->]. destruct (IH hs eq_refl (conj A B) H) as (h1 & H1 & V1 & T1).
      inversion St as [ |? ? t a i x' r P Sm U1a U2a| ]; subst. destruct U1a as [U1 U1'], U2a as [U2 U2'].
      pose proof (T1 t) as Tt. rewrite P in Tt. destruct (w t) as [|a0 o|a0 o i0|a0 o r0] eqn:Ew; cbn [winv] in Tt;
        [destruct Tt; discriminate|destruct Tt; discriminate| |destruct Tt; discriminate].
      destruct Tt as [Sv [[Eb Eh]|(r0 & Eb & _)]]; [|discriminate Eb]. injection Eb as <- <-.
      exists (mk_astate (upd (avals h1) a x') (updn (aphases h1) t (Spec.ADone (conv o r)))). split; [|split].
      + apply asteps_nil_step with (s' := h1); [exact H1|]. eapply a_take_effect with (t := t) (a := a) (o := o) (v' := x') (r := conv o r); cbn; auto.
        * rewrite V1. eapply serves_ok; eauto.
        * split; [apply upd_same|]. intros; now apply upd_other.
        * split; [apply updn_same|]. intros; now apply updn_other.
      + intros x. cbn. destruct (Z.eq_dec x a) as [->|N]; [now rewrite upd_same|]. rewrite upd_other, U1' by assumption. apply V1.
      + intros u. cbn. destruct (Nat.eq_dec u t) as [->|N].
        * rewrite updn_same, U2, Ew. cbn. split; [exact Sv|]. right. eauto.
        * rewrite updn_other, U2' by assumption. apply T1.
  Qed.
  Lemma wset_inv w b h t p bp hp : (forall u, winv (w u) (aphases b u) (aphases h u)) -> winv p bp hp ->
    forall u, winv (wset w t p u) (updn (aphases b) t bp u) (updn (aphases h) t hp u).
  Proof. intros T P u. unfold wset, updn. destruct (Nat.eqb_spec u t) as [->|N]; auto. Qed.
  Lemma keep_updn {A} (f : nat -> A) t u : updn f t (f t) u = f u.
  Proof. unfold updn. destruct (Nat.eqb_spec u t) as [->|N]; reflexivity. Qed.
  Lemma wrap_steps w tr : wrapped w tr -> forall b hs hs0 h0 bf, WInv w b hs -> asteps sm b (inner_of tr) bf -> asteps hsem hs0 h0 hs ->
    exists hf, asteps hsem hs0 (h0 ++ outer_of tr) hf /\ forall x, avals hf x = avals bf x.
  Proof.
    induction 1 as [w|w t a o tr E H IH|w t a o i tr E Sv H IH|w t a o i r tr E H IH|w t a o r tr E H IH|w t a o r tr E Gu H IH];
      intros b hs hs0 h0 bf I S Hs; cbn [inner_of outer_of] in *.
    - destruct (wsilent _ _ _ _ _ _ S I Hs) as (h1 & H1 & V & _). exists h1. rewrite app_nil_r. auto.
    - destruct I as [V T]. pose proof (T t) as Tt. rewrite E in Tt. destruct Tt as [Bp Hp].
      destruct (IH b (mk_astate (avals hs) (updn (aphases hs) t (APending a o))) hs0 (h0 ++ [Call t a o]) bf) as (hf & Hf & Vf).
      + split; [exact V|]. intros u. cbn. unfold wset, updn. destruct (Nat.eqb_spec u t) as [->|N]; [cbn; auto|apply T].
      + exact S.
      + eapply as_snoc; [exact Hs|]. apply a_call; cbn; auto. split; [apply updn_same|]. intros; now apply updn_other.
      + exists hf. rewrite <- app_assoc in Hf. auto.
    - destruct (ClientProofs.asteps_cons _ _ _ _ _ S) as (b1 & b2 & S1 & S2 & S3). destruct (wsilent _ _ _ _ _ _ S1 I Hs) as (h1 & H1 & V1 & T1).
      inversion S2 as [? ? ? ? ? P V2 [U1 U2]| |]; subst. pose proof (T1 t) as Tt. rewrite E in Tt. destruct Tt as [Bp Hp].
      apply (IH b2 h1 hs0 h0 bf); [|exact S3|exact H1]. split; [intros; now rewrite V2|]. intros u. unfold wset. destruct (Nat.eqb_spec u t) as [->|N].
      + cbn. auto.
      + rewrite U2 by assumption. apply T1.
    - destruct (ClientProofs.asteps_cons _ _ _ _ _ S) as (b1 & b2 & S1 & S2 & S3). destruct (wsilent _ _ _ _ _ _ S1 I Hs) as (h1 & H1 & V1 & T1).
      inversion S2 as [| |? ? ? ? P V2 [U1 U2]]; subst. pose proof (T1 t) as Tt. rewrite E, P in Tt.
      destruct Tt as [_ [[Q _]|(r0 & Q & Hp)]]; [discriminate Q|]. injection Q as <-.
      apply (IH b2 h1 hs0 h0 bf); [|exact S3|exact H1]. split; [intros; now rewrite V2|]. intros u. unfold wset. destruct (Nat.eqb_spec u t) as [->|N].
      + cbn. auto.
      + rewrite U2 by assumption. apply T1.
    - destruct I as [V T]. pose proof (T t) as Tt. rewrite E in Tt. destruct Tt as [Bp Hp].
      destruct (IH b (mk_astate (avals hs) (updn (aphases hs) t AIdle)) hs0 (h0 ++ [Return t r]) bf) as (hf & Hf & Vf).
      + split; [exact V|]. intros u. cbn. unfold wset, updn. destruct (Nat.eqb_spec u t) as [->|N]; [cbn; auto|apply T].
      + exact S.
      + eapply as_snoc; [exact Hs|]. apply a_return; cbn; auto. split; [apply updn_same|]. intros; now apply updn_other.
      + exists hf. rewrite <- app_assoc in Hf. auto.
    - destruct I as [V T]. pose proof (T t) as Tt. rewrite E in Tt. destruct Tt as [Bp Hp].
      set (h1 := mk_astate (avals hs) (updn (aphases hs) t (Spec.ADone r))).
      assert (H1 : asteps hsem hs0 h0 h1).
      { apply asteps_nil_step with (s' := hs); [exact Hs|]. eapply a_take_effect with (t := t) (a := a) (o := o) (v' := avals hs a) (r := r); cbn; auto.
        - split; auto.
        - split; [apply updn_same|]. intros; now apply updn_other. }
      destruct (IH b (mk_astate (avals hs) (updn (aphases hs) t AIdle)) hs0 (h0 ++ [Return t r]) bf) as (hf & Hf & Vf).
      + split; [exact V|]. intros u. cbn. unfold wset, updn. destruct (Nat.eqb_spec u t) as [->|N]; [cbn; auto|apply T].
      + exact S.
      + eapply as_snoc; [exact H1|]. apply a_return; cbn; auto.
        * apply updn_same.
        * split; [apply updn_same|]. intros u N. rewrite !updn_other by assumption. reflexivity.
      + exists hf. rewrite <- app_assoc in Hf. auto.
  Qed.
  Theorem wrap_linearizable tr init fin : wrapped (fun _ => WIdle) tr -> linearizable_to sm init (inner_of tr) fin -> linearizable_to hsem init (outer_of tr) fin.
  Proof.
    intros W (bf & S & F).
    destruct (wrap_steps _ _ W (mk_astate init (fun _ => AIdle)) (mk_astate init (fun _ => AIdle)) (mk_astate init (fun _ => AIdle)) [] bf) as (hf & Hf & V).
    - split; [reflexivity|]. intros t. cbn. auto.
    - exact S.
    - apply as_nil; reflexivity.
    - exists hf. split; [exact Hf|]. intros a v E. rewrite V. now apply F.
  Qed.
End Wrap.

(** ** Renaming, the other way round: a history seen through [enc] *)
Section Image.
  Context {Op Op' Res : Type}.
  Variable sm : Z -> Op -> Z -> Z * Res -> Prop.
  Variable sm' : Z -> Op' -> Z -> Z * Res -> Prop.
  Variable enc : Op -> Op'.
  Hypothesis weaker : forall a o x out, sm a o x out -> sm' a (enc o) x out.
  Definition image (p : aphase Op Res) : aphase Op' Res := match p with AIdle => AIdle | APending a o => APending a (enc o) | Spec.ADone r => Spec.ADone r end.
  Definition image_state (s : astate Op Res) : astate Op' Res := mk_astate (avals s) (fun t => image (aphases s t)).
  Lemma asteps_image s h s' : asteps sm s h s' -> asteps sm' (image_state s) (rename enc h) (image_state s').
  Proof.
    induction 1 as [s s' V P|s h s' e s'' H IH St].
    - apply as_nil; cbn; intros; [apply V|now rewrite P].
    - unfold rename in *. rewrite map_app. eapply as_snoc; [exact IH|].
      destruct St as [s' s'' t a o Ph V [U1 U2]|s' s'' t a o v' r Ph Sm [W1 W2] [U1 U2]|s' s'' t r Ph V [U1 U2]]; cbn [map].
      + apply a_call; cbn; auto; [now rewrite Ph|]. split; [now rewrite U1|]. intros u N. now rewrite U2.
      + eapply a_take_effect with (t := t) (a := a) (o := enc o) (v' := v') (r := r); cbn; auto; [now rewrite Ph|split; auto|].
        split; [now rewrite U1|]. intros u N. now rewrite U2.
      + apply a_return; cbn; auto; [now rewrite Ph|]. split; [now rewrite U1|]. intros u N. now rewrite U2.
  Qed.
  Lemma linearizable_image init h fin : linearizable_to sm init h fin -> linearizable_to sm' init (rename enc h) fin.
  Proof.
    intros (s & S & F). exists (image_state s). split; [|exact F]. apply asteps_image in S. exact S.
  Qed.
End Image.

(** ** Wrapped calls as [calls_ok] describes them *)
Definition serves (o o' : wop) : Prop := ~ forbidden_w o /\ does o o'.
Definition gave_up (o : wop) (r : res) : Prop := forbidden_w o /\ r = RPanic.
Lemma serves_sem ty a o o' x x' r : serves o o' -> sem ty a o' x (x', r) -> seen ty a o x (x', passed_on o r).
Proof.
  intros (F & W & F' & _). unfold seen, with_panics. intros S. right. split; [exact F|].
  destruct o as [[ord|v ord|q ord|c n s f]|c n s f], o' as [[ord'|v' ord'|q' ord'|c' n' s' f']|c' n' s' f']; cbn [same_work] in W; try contradiction;
    cbn [sem forbidden_w forbidden_op] in *; unfold load_panics, store_panics, cas_panics in *.
  - destruct ord, ord'; cbn in *; try (exfalso; intuition congruence); injection S as -> ->; reflexivity.
  - subst v'. destruct ord, ord'; cbn in *; try (exfalso; intuition congruence); injection S as -> ->; reflexivity.
  - destruct q'; try contradiction. subst. destruct ord; cbn in *; try (exfalso; intuition congruence); injection S as -> ->; reflexivity.
  - subst q'. cbn in *. injection S as -> ->. reflexivity.
  - destruct W as [<- <-]. cbn [spec_op passed_on] in *. destruct f, f'; cbn in *; try (exfalso; intuition congruence); exact S.
  - destruct W as [<- <-]. left. cbn [spec_op passed_on] in *. destruct f, f'; cbn in *; try (exfalso; intuition congruence); exact S.
  - destruct W as [<- <-]. destruct S as [S|S]; [left|right; exact S].
    cbn [spec_op passed_on] in *. destruct f, f'; cbn in *; try (exfalso; intuition congruence); exact S.
Qed.
Lemma gave_up_sem ty a o x r : gave_up o r -> seen ty a o x (x, r).
Proof. intros [F ->]. left. auto. Qed.

Definition wlog (w : wphase (HOp := wop) (HRes := res) (Op := wop)) (lg : option (busy wop wop res)) : Prop :=
  match w with
  | WIdle => lg = None
  | WCalled a o => lg = Some (mk_busy a o [] None)
  | WIn a o i => lg = Some (mk_busy a o [] (Some i))
  | WOut a o r => exists i ri, lg = Some (mk_busy a o [(i, ri)] None) /\ r = passed_on o ri
  end.
Lemma wrapped_calls_ok w tr : wrapped serves passed_on gave_up w tr -> forall lg, (forall t, wlog (w t) (lg t)) -> calls_ok one_call one_return lg tr.
Proof.
  assert (K : forall w lg t p b, (forall u, wlog (w u) (lg u)) -> wlog p b -> forall u, wlog (wset w t p u) (if Nat.eqb u t then b else lg u)).
  { intros w0 lg t p b H P u. unfold wset. destruct (Nat.eqb u t); auto. }
  induction 1 as [w|w t a o tr E H IH|w t a o i tr E Sv H IH|w t a o i r tr E H IH|w t a o r tr E H IH|w t a o r tr E Gu H IH];
    intros lg L; cbn [calls_ok]; [exact Logic.I| | | | |]; pose proof (L t) as Lt; rewrite E in Lt; cbn [wlog] in Lt.
  - split; [exact Lt|]. apply IH. apply K; [exact L|reflexivity].
  - split; [cbn; exists o, []; split; [exact Lt|]; split; [reflexivity|exact Sv]|]. apply IH. cbn [llog_step]. rewrite Lt. apply K; [exact L|reflexivity].
  - split; [cbn; eauto|]. apply IH. cbn [llog_step]. rewrite Lt. apply K; [exact L|]. cbn. eauto.
  - destruct Lt as (i & ri & Lt & ->). split; [cbn; exists a, o, [(i, ri)]; split; [exact Lt|reflexivity]|]. apply IH. apply K; [exact L|reflexivity].
  - split; [cbn; exists a, o, []; split; [exact Lt|exact Gu]|]. apply IH. apply K; [exact L|reflexivity].
Qed.

(** ** The machine *)
Section Machine.
  Variables (site fn env V J : Type).
  Variable sel : site -> Z -> fn.
  Variable det : env -> Z -> Z.
  Variables (df uc : bool).
  Variable eqb : site -> site -> bool.
  Variable site_of : wop -> site.
  Variable serve : fn -> wop -> J -> option (served V).
  Variable lock_free : Z -> bool.
  Local Notation dstep := (dstep site fn sel env det df uc eqb).
  Local Notation drun := (drun site fn sel env det df uc eqb).
  Local Notation pstep := (pstep site fn env V J sel det df uc eqb site_of serve lock_free).
  Local Notation prun := (prun site fn env V J sel det df uc eqb site_of serve lock_free).
  Local Notation pstate := (pstate site fn env V).

  (** The call site an activity is about. *)
  Definition about (p : phase site fn) : option site :=
    match p with
    | NotStarted _ _ | Finished _ _ => None
    | LoadFunc _ _ s | StoreFunc _ _ s _ | Exec _ _ s _ => Some s
    | LoadCache _ _ k | Detecting _ _ k _ | Publish _ _ k _ => match k with ForCall _ s => Some s | ForInfo _ => None end
    end.
  Definition who (e : devent site fn) : nat := match e with Executed _ _ i _ _ => i | Detected _ _ i _ => i end.
  Lemma give_about s id k info u : about (d_call _ _ _ (fst (give site fn sel env s id k info)) u) =
    if Nat.eqb u id then match k with ForCall _ st => Some st | ForInfo _ => None end else about (d_call _ _ _ s u).
  Proof. destruct k; cbn; destruct (Nat.eqb u id); reflexivity. Qed.
  Lemma give_events s id k info id' st f : ~ In (Executed _ _ id' st f) (snd (give site fn sel env s id k info)).
  Proof. destruct k; cbn; intuition discriminate. Qed.
  (** One step: an activity keeps its site till it ends, and ends by executing for this site. *)
  Lemma step_about s l s' ev : dstep s l = Some (s', ev) ->
    (forall u st, about (d_call _ _ _ s u) = Some st -> about (d_call _ _ _ s' u) = Some st \/ In u (map who ev)) /\
    (forall id st f, In (Executed _ _ id st f) ev -> about (d_call _ _ _ s id) = Some st).
  Proof.
    assert (Keep : forall (d : dstate site fn env) id (p : phase site fn) u st, about (d_call _ _ _ d u) = Some st -> (u = id -> about p = Some st) ->
              about (if Nat.eqb u id then p else d_call _ _ _ d u) = Some st).
    { intros d id p u st A B. destruct (Nat.eqb_spec u id); auto. }
    assert (Give : forall (d : dstate site fn env) id k info, (forall u st, about (d_call _ _ _ d u) = Some st -> u = id -> k = ForCall _ st) ->
      (forall u st, about (d_call _ _ _ d u) = Some st -> about (d_call _ _ _ (fst (give site fn sel env d id k info)) u) = Some st \/
         In u (map who (snd (give site fn sel env d id k info)))) /\
      (forall i st f, In (Executed _ _ i st f) (snd (give site fn sel env d id k info)) -> about (d_call _ _ _ s i) = Some st)).
    { intros d id k info B. split; [|intros i st f Q; destruct (give_events _ _ _ _ _ _ _ Q)]. intros u st A. left. rewrite give_about.
      destruct (Nat.eqb_spec u id) as [->|N]; [|exact A]. now rewrite (B id st A eq_refl). }
    assert (Same : forall d id p, d = set_call _ _ _ s id p -> (forall st, about (d_call _ _ _ s id) = Some st -> about p = Some st) ->
      (forall u st, about (d_call _ _ _ s u) = Some st -> about (d_call _ _ _ d u) = Some st \/ In u (map who [])) /\
      (forall i st f, In (Executed site fn i st f) [] -> about (d_call _ _ _ s i) = Some st)).
    { intros d id p -> B. split; [|intros ? ? ? []]. intros u st A. left. cbn. apply Keep; auto. intros ->. auto. }
    unfold DetectModel.dstep. destruct l as [id k|id n|id e|id]; destruct (d_call _ _ _ s id) as [|st|k0|k0 info|k0 info|st f|st f|] eqn:E; try discriminate.
    - intros H. injection H as <- <-. apply Same with (id := id) (p := match k with ForCall _ st => LoadFunc _ _ st | ForInfo _ => LoadCache _ _ (ForInfo _) end); [reflexivity|].
      intros st B. rewrite E in B. discriminate B.
    - destruct (nth_error (d_func _ _ _ s st) n) as [[f|]|]; try discriminate; intros H; injection H as <- <-.
      + apply Same with (id := id) (p := Exec _ _ st f); [reflexivity|]. rewrite E. auto.
      + apply Same with (id := id) (p := LoadCache _ _ (ForCall _ st)); [reflexivity|]. rewrite E. auto.
    - destruct (nth_error (d_cache _ _ _ s) n) as [info|]; [|discriminate]. destruct (negb (info =? 0)); intros H.
      + assert (Q := f_equal (fun x => match x with Some y => y | None => (s, []) end) H). cbv beta iota in Q.
        pose proof (f_equal fst Q) as Q1. pose proof (f_equal snd Q) as Q2. cbn [fst snd] in Q1, Q2. rewrite <- Q1, <- Q2. apply Give.
        intros u st A ->. rewrite E in A. cbn in A. destruct k0; congruence.
      + injection H as <- <-. apply Same with (id := id) (p := Detecting _ _ k0 info); [reflexivity|]. rewrite E. auto.
    - destruct uc; [|discriminate]. destruct (nth_error (d_cache _ _ _ s) n) as [other|]; [|discriminate]. destruct (other =? 0); [discriminate|]. intros H.
      assert (Q := f_equal (fun x => match x with Some y => y | None => (s, []) end) H). cbv beta iota in Q.
      pose proof (f_equal fst Q) as Q1. pose proof (f_equal snd Q) as Q2. cbn [fst snd] in Q1, Q2. rewrite <- Q1, <- Q2. apply Give.
      intros u st A ->. rewrite E in A. cbn in A. destruct k0; congruence.
    - intros H. injection H as <- <-. split; [|intros ? ? ? []]. intros u st A. left. cbn. apply Keep; auto. intros ->. rewrite E in A. exact A.
    - assert (G : forall d, d_call _ _ _ d = d_call _ _ _ s -> Some (give site fn sel env d id k0 info) = Some (s', ev) ->
        (forall u st, about (d_call _ _ _ s u) = Some st -> about (d_call _ _ _ s' u) = Some st \/ In u (map who ev)) /\
        (forall id st f, In (Executed _ _ id st f) ev -> about (d_call _ _ _ s id) = Some st)).
      { intros d D H. assert (Q := f_equal (fun x => match x with Some y => y | None => (s, []) end) H). cbv beta iota in Q.
        pose proof (f_equal fst Q) as Q1. pose proof (f_equal snd Q) as Q2. cbn [fst snd] in Q1, Q2. rewrite <- Q1, <- Q2. rewrite <- D. 
        assert (GG : forall u st, about (d_call _ _ _ d u) = Some st -> u = id -> k0 = ForCall _ st).
        { intros u st A ->. rewrite D, E in A. cbn in A. destruct k0; congruence. }
        destruct (Give d id k0 info GG) as [G1 G2]. split; [exact G1|]. intros i st f Hin. rewrite D. eapply G2; exact Hin. }
      destruct uc; [destruct (last _ _ =? 0); [|discriminate]|]; apply G; reflexivity.
    - intros H. injection H as <- <-. split; [|intros ? ? ? []]. intros u st0 A. left. cbn. apply Keep; auto. intros ->. rewrite E in A. exact A.
    - intros H. injection H as <- <-. split.
      + intros u st0 A. cbn. destruct (Nat.eqb_spec u id) as [->|N]; [right; auto|left; exact A].
      + intros i st0 f0 [Q|[]]. injection Q as <- <- <-. now rewrite E.
  Qed.
  Lemma step_events s l s' ev : dstep s l = Some (s', ev) -> ev = [] \/ (exists id st f, ev = [Executed _ _ id st f]) \/ (exists id i, ev = [Detected _ _ id i]).
  Proof.
    assert (G : forall d id k info, Some (give site fn sel env d id k info) = Some (s', ev) ->
      ev = [] \/ (exists id st f, ev = [Executed _ _ id st f]) \/ (exists id i, ev = [Detected _ _ id i])).
    { intros d id k info H. destruct k; cbn in H; injection H as <- <-; eauto 8. }
    unfold DetectModel.dstep. destruct l as [id k|id n|id e|id]; destruct (d_call _ _ _ s id) as [|st|k0|k0 info|k0 info|st f|st f|] eqn:E; try discriminate;
      intros H; try (injection H as <- <-; eauto 8; fail).
    - destruct (nth_error (d_func _ _ _ s st) n) as [[f|]|]; try discriminate; injection H as <- <-; auto.
    - destruct (nth_error (d_cache _ _ _ s) n) as [info|]; [|discriminate]. destruct (negb (info =? 0)); [eapply G; exact H|]. injection H as <- <-. auto.
    - destruct uc; [|discriminate]. destruct (nth_error (d_cache _ _ _ s) n) as [other|]; [|discriminate]. destruct (other =? 0); [discriminate|]. eapply G; exact H.
    - destruct uc; [destruct (last _ _ =? 0); [|discriminate]|]; eapply G; exact H.
  Qed.
  Lemma executed_by s l s' ev id st f : dstep s l = Some (s', ev) -> In (Executed _ _ id st f) ev -> id = label_id _ _ l.
  Proof.
    assert (G : forall d id0 k info, Some (give site fn sel env d id0 k info) = Some (s', ev) -> In (Executed _ _ id st f) ev -> False).
    { intros d id0 k info H Hin. destruct k; cbn in H; injection H as <- <-; [destruct Hin|destruct Hin as [Q|[]]; discriminate Q]. }
    unfold DetectModel.dstep. destruct l as [id0 k|id0 n|id0 e|id0]; destruct (d_call _ _ _ s id0) as [|st0|k0|k0 info|k0 info|st0 f0|st0 f0|] eqn:E; try discriminate;
      intros H Hin; try (injection H as <- <-; destruct Hin as [Q|[]]; injection Q as <- <- <-; reflexivity); try (injection H as <- <-; destruct Hin; fail).
    - destruct (nth_error (d_func _ _ _ s st0) n) as [[f1|]|]; try discriminate; injection H as <- <-; destruct Hin.
    - destruct (nth_error (d_cache _ _ _ s) n) as [info|]; [|discriminate]. destruct (negb (info =? 0)); [destruct (G _ _ _ _ H Hin)|]. injection H as <- <-. destruct Hin.
    - destruct uc; [|discriminate]. destruct (nth_error (d_cache _ _ _ s) n) as [other|]; [|discriminate]. destruct (other =? 0); [discriminate|]. destruct (G _ _ _ _ H Hin).
    - destruct uc; [destruct (last _ _ =? 0); [|discriminate]|]; destruct (G _ _ _ _ H Hin).
  Qed.
  Lemma start_silent s id k s' ev : dstep s (Start _ _ id k) = Some (s', ev) -> ev = [] /\ d_call _ _ _ s id = NotStarted _ _ /\
    (forall st, k = ForCall _ st -> about (d_call _ _ _ s' id) = Some st).
  Proof.
    cbn. destruct (d_call _ _ _ s id); try discriminate. intros H. injection H as <- <-. split; [reflexivity|]. split; [reflexivity|].
    intros st ->. cbn. now rewrite Nat.eqb_refl.
  Qed.

  (** Invariant: every thread picking is about its own operation, no two in the same activity; a thread about to go was sent by
      a function executed for its operation. *)
  Variable dev0 : list (devent site fn).       (* everything executed in the whole run *)
  Definition sent (o : wop) (i : served V) : Prop := check_w o = Some tt /\ exists id f j, In (Executed _ _ id (site_of o) f) dev0 /\ serve f o j = Some i.
  Definition PInv (s : pstate) : Prop :=
    (forall t id a o, p_thr _ _ _ _ s t = TPick id a o -> check_w o = Some tt /\ about (d_call _ _ _ (p_disp _ _ _ _ s) id) = Some (site_of o)) /\
    (forall t u id a o a' o', p_thr _ _ _ _ s t = TPick id a o -> p_thr _ _ _ _ s u = TPick id a' o' -> t = u) /\
    (forall t a o i, p_thr _ _ _ _ s t = TGo a o i -> sent o i).

  Lemma detected_about s l s' ev id i : dstep s l = Some (s', ev) -> In (Detected _ _ id i) ev -> about (d_call _ _ _ s id) = None.
  Proof.
    unfold DetectModel.dstep. destruct l as [id0 k|id0 n|id0 e|id0]; destruct (d_call _ _ _ s id0) as [|st|k0|k0 info|k0 info|st f|st f|] eqn:E; try discriminate;
      intros H Hin; try (injection H as <- <-; destruct Hin as [Q|[]]; discriminate Q); try (injection H as <- <-; destruct Hin; fail).
    - destruct (nth_error (d_func _ _ _ s st) n) as [[f|]|]; try discriminate; injection H as <- <-; destruct Hin.
    - destruct (nth_error (d_cache _ _ _ s) n) as [info|]; [|discriminate]. destruct (negb (info =? 0)); [|injection H as <- <-; destruct Hin].
      destruct k0 as [st|]; cbn in H; injection H as <- <-; [destruct Hin|]. destruct Hin as [Q|[]]. injection Q as <- <-. now rewrite E.
    - destruct uc; [|discriminate]. destruct (nth_error (d_cache _ _ _ s) n) as [other|]; [|discriminate]. destruct (other =? 0); [discriminate|].
      destruct k0 as [st|]; cbn in H; injection H as <- <-; [destruct Hin|]. destruct Hin as [Q|[]]. injection Q as <- <-. now rewrite E.
    - destruct uc; [destruct (last _ _ =? 0); [|discriminate]|];
        (destruct k0 as [st|]; cbn in H; injection H as <- <-; [destruct Hin|]; destruct Hin as [Q|[]]; injection Q as <- <-; now rewrite E).
  Qed.

  Definition strip (i : served V) : wop := match i with ByNative _ o => o | ByLock o => WOp o end.
  Definition is_nat (i : served V) : bool := match i with ByNative _ _ => true | ByLock _ => false end.
  Variable nat_side : bool.
  Hypothesis good : forall o i, sent o i -> does o (strip i) /\ is_nat i = nat_side.
  Local Notation wph := (wphase (HOp := wop) (HRes := res) (Op := wop)).
  Definition trel (x : tphase V) (w : wph) : Prop :=
    match x with
    | TIdle => w = WIdle
    | TPick _ a o => w = WCalled a o
    | TGo a o _ => w = WCalled a o
    | TIn a o n => n = nat_side /\ exists i, w = WIn a o i
    | TBack r => (exists a o, w = WOut a o r) \/ (exists a o, w = WCalled a o /\ gave_up o r)
    end.
  Lemma check_allowed o : check_w o = Some tt -> ~ forbidden_w o.
  Proof. intros E F. apply EntryMain.check_w_ok in F. congruence. Qed.
  Lemma check_forbidden o : check_w o = None -> forbidden_w o.
  Proof. apply EntryMain.check_w_ok. Qed.
  Definition WR (s : pstate) (w : nat -> wph) : Prop := forall t, trel (p_thr _ _ _ _ s t) (w t).
  Lemma set_rel s d w t x p : WR s w -> trel x p -> WR (set_thr _ _ _ _ s d t x) (wset w t p).
  Proof. intros H P u. cbn. unfold wset. destruct (Nat.eqb u t); auto. Qed.
  Lemma set_same s d w t x : WR s w -> trel x (w t) -> WR (set_thr _ _ _ _ s d t x) w.
  Proof. intros H P u. cbn. destruct (Nat.eqb_spec u t) as [->|N]; auto. Qed.

  (** Updating a thread that is not (or no longer) picking. *)
  Lemma pinv_set s d t x : PInv s ->
    (forall u id a o, u <> t -> p_thr _ _ _ _ s u = TPick id a o -> about (d_call _ _ _ d id) = Some (site_of o)) ->
    (forall id a o, x <> TPick id a o) -> (forall a o i, x = TGo a o i -> sent o i) -> PInv (set_thr _ _ _ _ s d t x).
  Proof.
    intros (A & B & C) D N G. split; [|split]; cbn.
    - intros u id a o E. destruct (Nat.eqb_spec u t) as [->|M]; [destruct (N id a o E)|]. split; [exact (proj1 (A u id a o E))|]. eapply D; eauto.
    - intros u v id a o a' o' E F. destruct (Nat.eqb_spec u t) as [->|M]; [destruct (N id a o E)|]. destruct (Nat.eqb_spec v t) as [->|M']; [destruct (N id a' o' F)|]. eapply B; eauto.
    - intros u a o i E. destruct (Nat.eqb_spec u t) as [->|M]; [eapply G; eauto|eapply C; eauto].
  Qed.
  (** Everything of one kind. *)
  Definition on_side (tr : list (sevent V)) : Prop := if nat_side then lockeds tr = [] else natives tr = [].
  Lemma on_side_app e tr : on_side e -> on_side tr -> on_side (e ++ tr).
  Proof.
    unfold on_side. destruct nat_side; intros E F; induction e as [|x e IH]; cbn in *; auto; destruct x; cbn in *; auto; discriminate.
  Qed.
  Lemma layered_app (e tr : list (sevent V)) : layered (e ++ tr) = layered e ++ layered tr.
  Proof. apply flat_map_app. Qed.

  Definition step_ok (s s1 : pstate) (e : list (sevent V)) (dev : list (devent site fn)) : Prop :=
    (forall b, In (LockFree b) e -> exists id i, In (Detected _ _ id i) dev /\ b = lock_free i) /\
    (incl dev dev0 -> PInv s -> PInv s1 /\ (forall t a v o', In (Native (Call t a (v, o'))) e -> exists o, sent o (ByNative v o')) /\ forall w, WR s w -> on_side e /\ exists w1, WR s1 w1 /\
       forall tr1, wrapped serves passed_on gave_up w1 tr1 -> wrapped serves passed_on gave_up w (layered e ++ tr1)).
  Lemma on_side_public ev : (forall x, In x ev -> match x with Native _ | Locked _ => False | _ => True end) -> on_side ev.
  Proof.
    unfold on_side. intros H. destruct nat_side; induction ev as [|[x|x|x|x] ev IH]; cbn; auto; try (apply IH; intros; apply H; now right); destruct (H _ (or_introl eq_refl)).
  Qed.
  Definition dl_of (l : plabel site env J) : list (dlabel site env) :=
    match l with
    | PCall _ _ o id => match check_w o with Some _ => [Start _ _ id (ForCall _ (site_of o))] | None => [] end
    | PAsk id => [Start _ _ id (ForInfo _)]
    | PDisp _ _ l => [l]
    | _ => []
    end.
  Lemma step_facts s l s1 e : pstep s l = Some (s1, e) -> exists dev, drun (p_disp _ _ _ _ s) (dl_of l) = Some (p_disp _ _ _ _ s1, dev) /\ step_ok s s1 e dev.
  Proof.
    destruct l as [t a o id|id|t j l|t|t r|t]; cbn [SelectModel.pstep]; intros H.
    - (* call *)
      destruct (p_thr _ _ _ _ s t) eqn:Et; try discriminate H. destruct (check_w o) as [[]|] eqn:Ec.
      + destruct (dstep (p_disp _ _ _ _ s) (Start _ _ id (ForCall _ (site_of o)))) as [[d ev]|] eqn:Ed; [|discriminate H]. injection H as <- <-.
        destruct (start_silent _ _ _ _ _ Ed) as (-> & Ns & Ab). exists []. split; [cbn [DetectModel.drun dl_of]; rewrite ?Ec; cbn [DetectModel.drun]; rewrite Ed; reflexivity|].
        split; [intros b [Q|[]]; discriminate Q|]. intros _ (A & B & C). split.
        * split; [|split]; cbn.
          { intros u id' a' o' E. destruct (Nat.eqb_spec u t) as [->|M].
            - injection E as <- <- <-. split; [exact Ec|]. now apply Ab.
            - destruct (A u id' a' o' E) as [A1 A2]. split; [exact A1|]. destruct (proj1 (step_about _ _ _ _ Ed) id' _ A2) as [Q|[]]; exact Q. }
          { intros u v id' a1 o1 a2 o2 E F. destruct (Nat.eqb_spec u t) as [->|M], (Nat.eqb_spec v t) as [->|M']; auto.
            - injection E as <- <- <-. destruct (A v id a2 o2 F) as [_ Q]. rewrite Ns in Q. discriminate Q.
            - injection F as <- <- <-. destruct (A u id a1 o1 E) as [_ Q]. rewrite Ns in Q. discriminate Q.
            - eapply B; eauto. }
          { intros u a' o' i E. destruct (Nat.eqb_spec u t) as [->|M]; [discriminate E|eapply C; eauto]. }
        * split; [intros ? ? ? ? [Q|[]]; discriminate Q|]. intros w Wr. split; [apply on_side_public; intros x [<-|[]]; exact Logic.I|]. exists (wset w t (WCalled a o)). split; [apply set_rel; [exact Wr|reflexivity]|].
          intros tr1 K. cbn. apply w_call; [|exact K]. specialize (Wr t). rewrite Et in Wr. exact Wr.
      + injection H as <- <-. exists []. split; [cbn [dl_of]; rewrite Ec; reflexivity|]. split; [intros b [Q|[]]; discriminate Q|]. intros _ PI. split.
        * apply pinv_set; [exact PI| |discriminate|discriminate]. intros u id' a' o' N E. exact (proj2 (proj1 PI u id' a' o' E)).
        * split; [intros ? ? ? ? [Q|[]]; discriminate Q|]. intros w Wr. split; [apply on_side_public; intros x [<-|[]]; exact Logic.I|]. exists (wset w t (WCalled a o)). split.
          { apply set_rel; [exact Wr|]. cbn. right. exists a, o. split; [reflexivity|]. split; [now apply check_forbidden|reflexivity]. }
          intros tr1 K. cbn. apply w_call; [|exact K]. specialize (Wr t). rewrite Et in Wr. exact Wr.
    - (* is_lock_free *)
      destruct (dstep (p_disp _ _ _ _ s) (Start _ _ id (ForInfo _))) as [[d ev]|] eqn:Ed; [|discriminate H]. injection H as <- <-.
      destruct (start_silent _ _ _ _ _ Ed) as (-> & Ns & Ab). exists []. split; [cbn [DetectModel.drun dl_of]; rewrite ?Ec; cbn [DetectModel.drun]; rewrite Ed; reflexivity|].
      split; [intros b []|]. intros _ (A & B & C). split.
      + split; [|split]; cbn; auto. intros u id' a' o' E. destruct (A u id' a' o' E) as [A1 A2]. split; [exact A1|]. destruct (proj1 (step_about _ _ _ _ Ed) id' _ A2) as [Q|[]]; exact Q.
      + split; [intros ? ? ? ? []|]. intros w Wr. split; [apply on_side_public; intros x []|]. exists w. split; [exact Wr|]. auto.
    - (* dispatch *)
      assert (H' : match dstep (p_disp _ _ _ _ s) l with
            | Some (d, [Executed _ _ id _ f]) =>
                match p_thr _ _ _ _ s t with
                | TPick id' a o => if Nat.eqb id id' then match serve f o j with Some i => Some (set_thr _ _ _ _ s d t (TGo a o i), []) | None => None end else None
                | _ => None end
            | Some (d, [Detected _ _ _ info]) => Some (mk_pstate _ _ _ _ d (p_thr _ _ _ _ s), [LockFree (lock_free info)])
            | Some (d, []) => Some (mk_pstate _ _ _ _ d (p_thr _ _ _ _ s), [])
            | _ => None end = Some (s1, e)) by (destruct l; [discriminate H|exact H|exact H|exact H]).
      clear H. rename H' into H. destruct (dstep (p_disp _ _ _ _ s) l) as [[d ev]|] eqn:Ed; [|discriminate H].
      destruct (step_about _ _ _ _ Ed) as [SA SE].
      destruct (step_events _ _ _ _ Ed) as [->|[(id & st & f & ->)|(id & i & ->)]].
      + injection H as <- <-. exists []. split; [cbn [DetectModel.drun dl_of]; rewrite ?Ec; cbn [DetectModel.drun]; rewrite Ed; reflexivity|]. split; [intros b []|]. intros _ (A & B & C). split.
        * split; [|split]; cbn; auto. intros u id' a' o' E. destruct (A u id' a' o' E) as [A1 A2]. split; [exact A1|]. destruct (SA id' _ A2) as [Q|[]]; exact Q.
        * split; [intros ? ? ? ? []|]. intros w Wr. split; [apply on_side_public; intros x []|]. exists w. split; [exact Wr|]. auto.
      + destruct (p_thr _ _ _ _ s t) as [|id' a o|a o i|a o n|r] eqn:Et; try discriminate H. destruct (Nat.eqb_spec id id') as [<-|]; [|discriminate H].
        destruct (serve f o j) as [i|] eqn:Es; [|discriminate H]. injection H as <- <-.
        exists [Executed _ _ id st f]. split; [cbn [DetectModel.drun dl_of]; rewrite ?Ec; cbn [DetectModel.drun]; rewrite Ed; reflexivity|]. split; [intros b []|]. intros Inc PI. pose proof PI as (A & B & C). split.
        * apply pinv_set; [exact PI| |discriminate|].
          { intros u id' a' o' N E. destruct (A u id' a' o' E) as [A1 A2]. destruct (SA id' _ A2) as [Q|[Q|[]]]; [exact Q|]. cbn in Q. subst id'. destruct N. eapply B; eauto. }
          { intros a' o' i' E. injection E as <- <- <-. destruct (A t id a o Et) as [A1 A2]. split; [exact A1|]. exists id, f, j. split; [|exact Es].
            apply Inc. left. rewrite (SE id st f (or_introl eq_refl)) in A2. now injection A2 as ->. }
        * split; [intros ? ? ? ? []|]. intros w Wr. split; [apply on_side_public; intros x []|]. exists w. split; [|auto]. apply set_same; [exact Wr|]. specialize (Wr t). rewrite Et in Wr. exact Wr.
      + injection H as <- <-. exists [Detected _ _ id i]. split; [cbn [DetectModel.drun dl_of]; rewrite ?Ec; cbn [DetectModel.drun]; rewrite Ed; reflexivity|]. split.
        { intros b [Q|[]]. injection Q as <-. exists id, i. split; [now left|reflexivity]. }
        intros _ (A & B & C). split.
        * split; [|split]; cbn; auto. intros u id' a' o' E. destruct (A u id' a' o' E) as [A1 A2]. split; [exact A1|]. destruct (SA id' _ A2) as [Q|[Q|[]]]; [exact Q|].
          cbn in Q. subst id'. pose proof (detected_about _ _ _ _ _ _ Ed (or_introl eq_refl)). congruence.
        * split; [intros ? ? ? ? [Q|[]]; discriminate Q|]. intros w Wr. split; [apply on_side_public; intros x [<-|[]]; exact Logic.I|]. exists w. split; [exact Wr|]. auto.
    - (* enter *)
      destruct (p_thr _ _ _ _ s t) as [|id' a o|a o i|a o n|r] eqn:Et; try discriminate H.
      assert (X : s1 = set_thr _ _ _ _ s (p_disp _ _ _ _ s) t (TIn a o (is_nat i)) /\ layered e = [Inner (Call t a (strip i))] /\ (is_nat i = nat_side -> on_side e) /\ (forall b, ~ In (LockFree b) e) /\ (forall t0 a0 v0 o0, In (Native (Call t0 a0 (v0, o0))) e -> i = ByNative v0 o0)).
      { destruct i as [v o'|o']; pose proof H as H0; injection H0 as <- <-; cbn; (split; [reflexivity|]); (split; [reflexivity|]); (split; [unfold on_side; intros <-; reflexivity|split; [intros b [Q|[]]; discriminate Q|intros t0 a0 v0 o0 [Q|[]]; first [discriminate Q|injection Q as <- <- <- <-; reflexivity]]]). }
      destruct X as (E1 & El & Os & Nl & Nn). subst s1. clear H. exists []. split; [reflexivity|]. split; [intros b Q; destruct (Nl b Q)|]. intros _ PI. pose proof PI as (A & B & C).
      pose proof (C t a o i Et) as Se. destruct (good o i Se) as [Do Na]. split.
      + apply pinv_set; [exact PI| |discriminate|discriminate]. intros u id' a' o' N E. exact (proj2 (A u id' a' o' E)).
      + split; [|]. { intros t0 a0 v0 o0 Q. rewrite (Nn _ _ _ _ Q) in Se. eauto. }
        intros w Wr. split; [auto|]. exists (wset w t (WIn a o (strip i))). split; [apply set_rel; [exact Wr|]; cbn; eauto|].
        intros tr1 K. rewrite El. cbn. pose proof (Wr t) as Wt. rewrite Et in Wt. cbn in Wt. eapply w_enter; [exact Wt| |exact K].
        split; [|exact Do]. apply check_allowed. exact (proj1 Se).
    - (* answer *)
      destruct (p_thr _ _ _ _ s t) as [|id' a o|a o i|a o n|r0] eqn:Et; try discriminate H. injection H as <- <-. exists []. split; [reflexivity|].
      split; [intros b [Q|[]]; destruct n; discriminate Q|]. intros _ PI. split.
      + apply pinv_set; [exact PI| |discriminate|discriminate]. intros u id' a' o' N E. exact (proj2 (proj1 PI u id' a' o' E)).
      + split; [intros ? ? ? ? [Q|[]]; destruct n; discriminate Q|]. intros w Wr. pose proof (Wr t) as Wt. rewrite Et in Wt. destruct Wt as [-> [i Wt]]. split; [unfold on_side; destruct nat_side; reflexivity|].
        exists (wset w t (WOut a o (passed_on o r))). split; [apply set_rel; [exact Wr|]; cbn; eauto|]. intros tr1 K.
        replace (layered [if nat_side then Native (Return t r) else Locked (Return t r)]) with [@Inner wop res wop res (Return t r)] by (destruct nat_side; reflexivity).
        cbn. eapply w_answer; eauto.
    - (* return *)
      destruct (p_thr _ _ _ _ s t) as [|id' a o|a o i|a o n|r0] eqn:Et; try discriminate H. injection H as <- <-. exists []. split; [reflexivity|].
      split; [intros b [Q|[]]; discriminate Q|]. intros _ PI. split.
      + apply pinv_set; [exact PI| |discriminate|discriminate]. intros u id' a' o' N E. exact (proj2 (proj1 PI u id' a' o' E)).
      + split; [intros ? ? ? ? [Q|[]]; discriminate Q|]. intros w Wr. split; [apply on_side_public; intros x [<-|[]]; exact Logic.I|]. exists (wset w t WIdle). split; [apply set_rel; [exact Wr|reflexivity]|].
        intros tr1 K. cbn. pose proof (Wr t) as Wt. rewrite Et in Wt. destruct Wt as [(a & o & Wt)|(a & o & Wt & Gu)]; [eapply w_return; eauto|eapply w_give_up; eauto].
  Qed.
  Lemma drun_app l1 : forall d l2, drun d (l1 ++ l2) =
    match drun d l1 with Some (d1, e1) => match drun d1 l2 with Some (d2, e2) => Some (d2, e1 ++ e2) | None => None end | None => None end.
  Proof.
    induction l1 as [|l l1 IH]; intros d l2; cbn [app DetectModel.drun].
    - destruct (drun d l2) as [[? ?]|]; reflexivity.
    - destruct (dstep d l) as [[d1 e]|]; [|reflexivity]. rewrite IH. destruct (drun d1 l1) as [[d2 e2]|]; [|reflexivity].
      destruct (drun d2 l2) as [[? ?]|]; [|reflexivity]. now rewrite app_assoc.
  Qed.
  Lemma run_facts ls : forall s s' tr, prun s ls = Some (s', tr) -> exists dev, drun (p_disp _ _ _ _ s) (flat_map dl_of ls) = Some (p_disp _ _ _ _ s', dev) /\
    (forall b, In (LockFree b) tr -> exists id i, In (Detected _ _ id i) dev /\ b = lock_free i) /\
    (incl dev dev0 -> PInv s -> PInv s' /\ forall w, WR s w -> wrapped serves passed_on gave_up w (layered tr) /\ on_side tr /\
       (forall t a v o', In (Native (Call t a (v, o'))) tr -> exists o, sent o (ByNative v o'))).
  Proof.
    induction ls as [|l ls IH]; intros s s' tr H; cbn [SelectModel.prun] in H.
    - injection H as <- <-. exists []. split; [reflexivity|]. split; [intros b []|]. intros _ PI. split; [exact PI|]. intros w _. split; [apply w_end|]. split; [unfold on_side; now destruct nat_side|]. intros ? ? ? ? [].
    - destruct (pstep s l) as [[s1 e]|] eqn:P; [|discriminate H]. destruct (prun s1 ls) as [[s2 tr1]|] eqn:R; [|discriminate H]. injection H as <- <-.
      destruct (IH _ _ _ R) as (dev & D & F & W). destruct (step_facts _ _ _ _ P) as (dev1 & D1 & F1 & W1).
      exists (dev1 ++ dev). split; [cbn [flat_map]; rewrite drun_app, D1, D; reflexivity|]. split.
      + intros b Hin. apply in_app_or in Hin as [Hin|Hin]; [destruct (F1 b Hin) as (id & i & Q & E)|destruct (F b Hin) as (id & i & Q & E)]; exists id, i; (split; [apply in_or_app; auto|exact E]).
      + intros Inc PI. apply incl_app_inv in Inc as [I1 I2]. destruct (W1 I1 PI) as (PI1 & Or & K). destruct (W I2 PI1) as [PI2 W2]. split; [exact PI2|]. intros w Wr. destruct (K w Wr) as (Os & w1 & Wr1 & Kt).
        destruct (W2 w1 Wr1) as (Q1 & Q2 & Q3). rewrite layered_app. split; [now apply Kt|]. split; [now apply on_side_app|].
        intros t a v o' Hin. apply in_app_or in Hin as [Hin|Hin]; eauto.
  Qed.
End Machine.

(** Runs of the machine of which only some codes are used. *)
Lemma asm_run_agree {C Op Res} (next : C -> action C Res) (code1 code2 : Z -> Op -> option C) ls : forall s s' h,
  asm_run next code1 s ls = Some (s', h) -> (forall t a o, In (Call t a o) h -> code1 a o = code2 a o) -> asm_run next code2 s ls = Some (s', h).
Proof.
  induction ls as [|l ls IH]; intros s s' h H A; [exact H|]. cbn [asm_run] in *.
  destruct (asm_step next code1 s l) as [[s1 e]|] eqn:E; [|discriminate H]. destruct (asm_run next code1 s1 ls) as [[s2 es]|] eqn:R; [|discriminate H]. injection H as <- <-.
  assert (E2 : asm_step next code2 s l = Some (s1, e)).
  { unfold asm_step in *. destruct (athr s (tid l)); [exact E|]. destruct (call l) as [[a o]|]; [|exact E].
    destruct (code1 a o) as [c|] eqn:C1; [|discriminate E]. injection E as <- <-. rewrite <- (A (tid l) a o (or_introl eq_refl)), C1. reflexivity. }
  rewrite E2, (IH _ _ _ R); [reflexivity|]. intros t a o Hin. apply (A t). apply in_or_app. auto.
Qed.

(** ** Putting it together *)
Lemma outer_layered {V} (tr : list (sevent V)) : outer_of (layered tr) = publics tr.
Proof. induction tr as [|[e|b|[t a [v o]|t r]|[t a o|t r]] tr IH]; cbn; try (unfold layered in IH; rewrite ?IH); reflexivity. Qed.
Lemma inner_native {V} (tr : list (sevent V)) : lockeds tr = [] -> inner_of (layered tr) = rename snd (natives tr).
Proof. induction tr as [|[e|b|[t a [v o]|t r]|[t a o|t r]] tr IH]; cbn; try unfold layered in IH; intros H; try discriminate H; try (rewrite IH by assumption); reflexivity. Qed.
Lemma inner_locked {V} (tr : list (sevent V)) : natives tr = [] -> inner_of (layered tr) = rename WOp (lockeds tr).
Proof. induction tr as [|[e|b|[t a [v o]|t r]|[t a o|t r]] tr IH]; cbn; try unfold layered in IH; intros H; try discriminate H; try (rewrite IH by assumption); reflexivity. Qed.

Section Together.
  Variables (site fn env V J : Type).
  Variable sel : site -> Z -> fn.
  Variable det : env -> Z -> Z.
  Variables (df uc : bool).
  Variable eqb : site -> site -> bool.
  Variable site_of : wop -> site.
  Variable serve : fn -> wop -> J -> option (served V).
  Variable lock_free : Z -> bool.
  Hypothesis eqb_ok : forall a b, eqb a b = true -> a = b.
  Hypothesis keeps : keeps_init det.
  Hypothesis serve_ok : forall o info j i, ~ forbidden_w o -> serve (sel (site_of o) info) o j = Some i -> does o (strip V i).
  Lemma select_inv ls s tr : prun site fn env V J sel det df uc eqb site_of serve lock_free (pinit site fn env V) ls = Some (s, tr) ->
    exists dev, dispatch_run sel det df uc eqb (flat_map (dl_of site env J site_of) ls) = Some (p_disp _ _ _ _ s, dev) /\ forall native : bool,
      (forall id st f o j i, In (Executed _ _ id st f) dev -> st = site_of o -> serve f o j = Some i -> is_nat V i = native) ->
      (forall id i, In (Detected _ _ id i) dev -> lock_free i = native) ->
      (forall b, In (LockFree b) tr -> b = native) /\ PInv site fn env V J site_of serve dev s /\
      wrapped serves passed_on gave_up (fun _ => WIdle) (layered tr) /\ on_side V native tr /\
      (forall t a v o', In (Native (Call t a (v, o'))) tr -> exists o, sent site fn V J site_of serve dev o (ByNative v o')).
  Proof.
    intros H.
    destruct (run_facts site fn env V J sel det df uc eqb site_of serve lock_free [] true) with (2 := H) as (dev & D & F & _).
    { intros o i (_ & id & f & j & [] & _). }
    exists dev. split; [exact D|]. intros native N1 N2.
    assert (Good : forall o i, sent site fn V J site_of serve dev o i -> does o (strip V i) /\ is_nat V i = native).
    { intros o i (C & id & f & j & Hin & Hs). split; [|eapply N1; eauto].
      destruct (C27_always_an_answer _ _ _ _ _ _ _ _ _ _ _ eqb_ok keeps D) as [A _]. destruct (A _ _ _ Hin) as (e & _ & Ef). rewrite Ef in Hs.
      eapply serve_ok; [|exact Hs]. now apply check_allowed. }
    destruct (run_facts site fn env V J sel det df uc eqb site_of serve lock_free dev native Good ls _ _ _ H) as (dev' & D' & F' & W).
    assert (Ed : dev' = dev) by (pose proof (eq_trans (eq_sym D) D') as Q; now injection Q as ->). subst dev'.
    destruct (W (incl_refl _)) as [PI W1].
    { split; [|split]; cbn; discriminate. }
    destruct (W1 (fun _ : nat => @WIdle wop res wop)) as (Wr & Os & Nt).
    { intros t. reflexivity. }
    split; [intros b Hb; destruct (F b Hb) as (id & i & Hi & ->); eauto|]. auto.
  Qed.
  Definition facts (native : bool) (tr : list (sevent V)) : Prop :=
    calls_ok one_call one_return (fun _ => None) (layered tr) /\ (forall b, In (LockFree b) tr -> b = native) /\
    (if native then lockeds tr = [] else natives tr = []) /\
    (forall ty init fin, native = true -> linearizable_to (by_variant (sem ty)) init (natives tr) fin -> linearizable_to (seen ty) init (publics tr) fin) /\
    (forall ty (sm : Z -> op -> Z -> Z * res -> Prop) init fin, native = false -> (forall a o x out, sm a o x out -> sem ty a (WOp o) x out) ->
       linearizable_to sm init (lockeds tr) fin -> linearizable_to (seen ty) init (publics tr) fin) /\
    (forall t a v o', In (Native (Call t a (v, o'))) tr -> exists o e j, serve (sel (site_of o) (answer det df e)) o j = Some (ByNative v o')).
  Theorem facts_hold ls s tr : prun site fn env V J sel det df uc eqb site_of serve lock_free (pinit site fn env V) ls = Some (s, tr) ->
    exists d dev, dispatch_run sel det df uc eqb (flat_map (dl_of site env J site_of) ls) = Some (d, dev) /\ forall native : bool,
      (forall id st f o j i, In (Executed _ _ id st f) dev -> st = site_of o -> serve f o j = Some i -> is_nat V i = native) ->
      (forall id i, In (Detected _ _ id i) dev -> lock_free i = native) -> facts native tr.
  Proof.
    intros H. destruct (select_inv _ _ _ H) as (dev & D & K). exists (p_disp _ _ _ _ s), dev. split; [exact D|]. intros native N1 N2.
    destruct (K native N1 N2) as (Lf & _ & Wr & Os & Nt).
    split; [eapply wrapped_calls_ok; [exact Wr|reflexivity]|].
    split; [exact Lf|].
    split; [exact Os|]. split; [|split].
    - intros ty init fin -> L. rewrite <- outer_layered. eapply wrap_linearizable; [|apply gave_up_sem|exact Wr|]; [intros; eapply serves_sem; eassumption|].
      rewrite (inner_native _ Os). eapply linearizable_image; [|exact L]. intros a [v o] x out E. exact E.
    - intros ty sm init fin -> Q L. rewrite <- outer_layered. eapply wrap_linearizable; [|apply gave_up_sem|exact Wr|]; [intros; eapply serves_sem; eassumption|].
      rewrite (inner_locked _ Os). eapply linearizable_image; [|exact L]. exact Q.
    - intros t a v o' Hin. destruct (Nt _ _ _ _ Hin) as (o & _ & id & f & j & Q1 & Q2).
      destruct (C27_always_an_answer _ _ _ _ _ _ _ _ _ _ _ eqb_ok keeps D) as [A _]. destruct (A _ _ _ Q1) as (e & _ & ->). eauto.
  Qed.
  Hypothesis one_side : forall dls d dev, dispatch_run sel det df uc eqb dls = Some (d, dev) -> exists native : bool,
    (forall id st f o j i, In (Executed _ _ id st f) dev -> st = site_of o -> serve f o j = Some i -> is_nat V i = native) /\
    (forall id i, In (Detected _ _ id i) dev -> lock_free i = native).
  Theorem select_facts ls s tr : prun site fn env V J sel det df uc eqb site_of serve lock_free (pinit site fn env V) ls = Some (s, tr) ->
    exists native : bool, facts native tr.
  Proof.
    intros H. destruct (facts_hold _ _ _ H) as (d & dev & D & K). destruct (one_side _ _ _ D) as (native & N1 & N2). exists native. auto.
  Qed.
  (** Nobody is stuck between entering an operation and entering an implementation. *)
  Hypothesis all_served : forall o info j, ~ forbidden_w o -> exists i, serve (sel (site_of o) info) o j = Some i.
  Theorem select_continues ls s tr t (e0 : env) : prun site fn env V J sel det df uc eqb site_of serve lock_free (pinit site fn env V) ls = Some (s, tr) ->
    match p_thr _ _ _ _ s t with
    | TIdle => forall a o id, d_call _ _ _ (p_disp _ _ _ _ s) id = NotStarted _ _ ->
        pstep site fn env V J sel det df uc eqb site_of serve lock_free s (PCall t a o id) <> None
    | TPick id a o => forall j, exists l, label_id _ _ l = id /\ pstep site fn env V J sel det df uc eqb site_of serve lock_free s (PDisp t j l) <> None
    | TGo _ _ _ => pstep site fn env V J sel det df uc eqb site_of serve lock_free s (PEnter t) <> None
    | TIn _ _ _ => forall r, pstep site fn env V J sel det df uc eqb site_of serve lock_free s (PAnswer t r) <> None
    | TBack _ => pstep site fn env V J sel det df uc eqb site_of serve lock_free s (PReturn t) <> None
    end.
  Proof.
    intros H. destruct (select_inv _ _ _ H) as (dev & D & K). destruct (one_side _ _ _ D) as (native & N1 & N2). destruct (K native N1 N2) as (_ & PI & _). clear K.
    destruct (p_thr _ _ _ _ s t) as [|id a o|a o i|a o n|r] eqn:Et.
    - intros a o id Ns. cbn [SelectModel.pstep]. rewrite Et. destruct (check_w o); [|discriminate]. cbn [DetectModel.dstep]. rewrite Ns. discriminate.
    - intros j. destruct PI as (A & _). destruct (A _ _ _ _ Et) as [Ck Ab].
      destruct (C27_wait_free _ _ _ _ _ _ _ _ _ _ _ e0 id D) as (_ & St & _).
      destruct St as (l & d & ev & Ll & Sd). { destruct (d_call _ _ _ (p_disp _ _ _ _ s) id) as [| | | | | | |]; cbn in *; try discriminate Ab; lia. }
      exists l. split; [exact Ll|]. cbn [SelectModel.pstep]. 
      assert (Ns : forall k, l <> Start _ _ id k).
      { intros k ->. destruct (start_silent _ _ _ _ _ _ _ _ _ _ _ _ _ Sd) as (_ & Q & _). rewrite Q in Ab. discriminate Ab. }
      assert (G : match dstep site fn sel env det df uc eqb (p_disp _ _ _ _ s) l with
            | Some (d, [Executed _ _ id _ f]) =>
                match p_thr _ _ _ _ s t with
                | TPick id' a o => if Nat.eqb id id' then match serve f o j with Some i => Some (set_thr _ _ _ _ s d t (TGo a o i), @nil (sevent V)) | None => None end else None
                | _ => None end
            | Some (d, [Detected _ _ _ info]) => Some (mk_pstate _ _ _ _ d (p_thr _ _ _ _ s), [LockFree (lock_free info)])
            | Some (d, []) => Some (mk_pstate _ _ _ _ d (p_thr _ _ _ _ s), @nil (sevent V))
            | _ => None end <> None).
      { rewrite Sd. destruct (step_events _ _ _ _ _ _ _ _ _ _ _ _ Sd) as [->|[(id1 & st & f & ->)|(id1 & i & ->)]]; try discriminate.
        assert (Id : id1 = id).
        { rewrite <- Ll. exact (executed_by _ _ _ _ _ _ _ _ _ _ _ _ _ _ _ Sd (or_introl eq_refl)). }
        subst id1. rewrite Et, Nat.eqb_refl.
        assert (D2 : dispatch_run sel det df uc eqb (flat_map (dl_of site env J site_of) ls ++ [l]) = Some (d, dev ++ [Executed _ _ id st f])).
        { unfold dispatch_run in *. rewrite drun_app, D. cbn [DetectModel.drun]. rewrite Sd. rewrite app_nil_r. reflexivity. }
        destruct (C27_always_an_answer _ _ _ _ _ _ _ _ _ _ _ eqb_ok keeps D2) as [Q _].
        destruct (Q id st f) as (e & _ & ->). { apply in_or_app. right. now left. }
        destruct (step_about site fn env V J sel det df uc eqb serve lock_free _ _ _ _ Sd) as [_ SE]. pose proof (SE _ _ _ (or_introl eq_refl)) as E2. rewrite Ab in E2. injection E2 as E2. rewrite <- E2.
        destruct (all_served o (answer det df e) j (check_allowed _ Ck)) as (i & ->). discriminate. }
      destruct l as [id0 k|id0 n|id0 e|id0]; [cbn in Ll; subst id0; destruct (Ns _ eq_refl)|exact G|exact G|exact G].
    - cbn [SelectModel.pstep]. rewrite Et. destruct i; discriminate.
    - intros r. cbn [SelectModel.pstep]. rewrite Et. discriminate.
    - cbn [SelectModel.pstep]. rewrite Et. discriminate.
  Qed.
End Together.
