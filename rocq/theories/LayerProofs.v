(** Proofs about LayerModel: code around linearizable operations. *)
From Coq Require Import ZArith List Bool Lia PeanoNat.
From Verif Require Import Words Spec LinFacts LayerSpec LayerModel.
From Verif Require ClientProofs.
Import ListNotations.
Open Scope Z_scope.

(** ** Renaming the operations of a history *)
Section Rename.
  Context {Op Op' Res : Type}.
  Variable sem : Z -> Op' -> Z -> Z * Res -> Prop.
  Variable enc : Op -> Op'.
  Definition enc_phase (p : aphase Op Res) : aphase Op' Res :=
    match p with AIdle => AIdle | APending a o => APending a (enc o) | ADone r => ADone r end.
  Lemma rename_app_inv (h : list (event Op Res)) h1 e : rename enc h = h1 ++ e ->
    exists g1 g2, h = g1 ++ g2 /\ rename enc g1 = h1 /\ rename enc g2 = e.
  Proof.
    revert h1. induction h as [|x h IH]; intros h1 E.
    - cbn in E. symmetry in E. apply app_eq_nil in E as [-> ->]. exists [], []. auto.
    - destruct h1 as [|y h1].
      + exists [], (x :: h). auto.
      + cbn in E. injection E as E1 E2. destruct (IH h1 E2) as (g1 & g2 & -> & <- & <-). exists (x :: g1), g2. cbn. now rewrite E1.
  Qed.
  Lemma asteps_rename s h' s' : asteps sem s h' s' -> forall h A, h' = rename enc h ->
    (forall x, avals s x = avals A x) -> (forall t, aphases s t = enc_phase (aphases A t)) ->
    exists A', asteps (fun a o => sem a (enc o)) A h A' /\ (forall x, avals s' x = avals A' x) /\ (forall t, aphases s' t = enc_phase (aphases A' t)).
  Proof.
    induction 1 as [s s' V P|s h1 s' e s'' H IH St]; intros h A E VA PA.
    - destruct h; [|discriminate E]. exists A. split; [apply as_nil; reflexivity|]. split; intros; [now rewrite V|now rewrite P].
    - symmetry in E. apply rename_app_inv in E as (g1 & g2 & -> & E1 & E2). destruct (IH g1 A (eq_sym E1) VA PA) as (A1 & S1 & V1 & P1).
      assert (G : forall p t, aphases s'' t = enc_phase p -> (forall u, u <> t -> aphases s'' u = aphases s' u) ->
                forall u, aphases s'' u = enc_phase (updn (aphases A1) t p u)).
      { intros p t E Ot u. destruct (Nat.eq_dec u t) as [->|N]; [now rewrite updn_same|]. rewrite updn_other by assumption. rewrite Ot by assumption. apply P1. }
      destruct St as [s' s'' t a o Ph V [U1 U2]|s' s'' t a o v' r Ph Sm [W1 W2] [U1 U2]|s' s'' t r Ph V [U1 U2]].
      + destruct g2 as [|[u b o1|u r1] [|]]; try discriminate E2. cbn in E2. injection E2 as -> -> <-.
        exists (mk_astate (avals A1) (updn (aphases A1) t (APending a o1))). split; [|split].
        * eapply as_snoc; [exact S1|]. apply a_call; cbn; auto.
          { rewrite P1 in Ph. destruct (aphases A1 t); [reflexivity|discriminate|discriminate]. }
          { split; [apply updn_same|]. intros; now apply updn_other. }
        * intros x. cbn. now rewrite V.
        * cbn. apply G; auto.
      + destruct g2; [|discriminate E2]. rewrite P1 in Ph. destruct (aphases A1 t) as [|b o1|] eqn:EP; try discriminate Ph. injection Ph as -> <-.
        exists (mk_astate (upd (avals A1) a v') (updn (aphases A1) t (ADone r))). split; [|split].
        * eapply as_snoc; [exact S1|]. eapply a_take_effect with (t := t) (a := a) (o := o1) (v' := v') (r := r); cbn; auto.
          { now rewrite <- V1. }
          { split; [apply upd_same|]. intros; now apply upd_other. }
          { split; [apply updn_same|]. intros; now apply updn_other. }
        * intros x. cbn. destruct (Z.eq_dec x a) as [->|N]; [now rewrite upd_same|]. rewrite upd_other, W2 by assumption. apply V1.
        * cbn. apply G; auto.
      + destruct g2 as [|[u b o1|u r1] [|]]; try discriminate E2. cbn in E2. injection E2 as -> ->.
        exists (mk_astate (avals A1) (updn (aphases A1) t AIdle)). split; [|split].
        * eapply as_snoc; [exact S1|]. apply a_return; cbn; auto.
          { rewrite P1 in Ph. destruct (aphases A1 t); try discriminate Ph. now injection Ph as ->. }
          { split; [apply updn_same|]. intros; now apply updn_other. }
        * intros x. cbn. now rewrite V.
        * cbn. apply G; auto.
  Qed.
  Lemma linearizable_rename init h fin : linearizable_to sem init (rename enc h) fin -> linearizable_to (fun a o => sem a (enc o)) init h fin.
  Proof.
    intros (s & S & F). destruct (asteps_rename _ _ _ S h (mk_astate init (fun _ => AIdle)) eq_refl ltac:(reflexivity) ltac:(reflexivity)) as (A & SA & V & P).
    exists A. split; [exact SA|]. intros a v E. rewrite <- V. now apply F.
  Qed.
End Rename.

(** ** Code around linearizable operations is linearizable *)
Section Compose.
  Context {HOp HRes Op Res : Type}.
  Variable hsem : Z -> HOp -> Z -> Z * HRes -> Prop.
  Variable sem : Z -> Op -> Z -> Z * Res -> Prop.
  Variable valid : Z -> Z -> Prop.
  Variable call_ok : Z -> HOp -> list (Op * Res) -> Op -> Prop.
  Variable return_ok : Z -> HOp -> list (Op * Res) -> HRes -> Prop.
  Local Notation code := (code HRes Op Res).

  (** One inner operation: it either is the moment the whole takes effect, or changes nothing and the rest is as good. *)
  Definition step_ok (G : list (Op * Res) -> code -> Prop) (a : Z) (o : HOp) (cs : list (Op * Res)) (c : code) : Prop :=
    match c with
    | Give r => return_ok a o cs r /\ forall x, valid a x -> hsem a o x (x, r)
    | Ask i k => call_ok a o cs i /\ forall x x' r, valid a x -> sem a i x (x', r) -> valid a x' /\
        ((exists rr, k r = Give rr /\ hsem a o x (x', rr) /\ return_ok a o ((i, r) :: cs) rr) \/ (x' = x /\ G ((i, r) :: cs) (k r)))
    end.
  Definition good (a : Z) (o : HOp) (cs : list (Op * Res)) (c : code) : Prop :=
    exists G, G cs c /\ forall cs' c', G cs' c' -> step_ok G a o cs' c'.
  Lemma good_step a o cs c : good a o cs c -> step_ok (good a o) a o cs c.
  Proof.
    intros (G & H & St). pose proof (St _ _ H) as S. destruct c as [r|i k]; cbn [step_ok] in *; [exact S|].
    destruct S as [C S]. split; [exact C|]. intros x x' r V M. destruct (S x x' r V M) as [V' [F|[E N]]]; (split; [exact V'|]); [now left|].
    right. split; [exact E|]. exists G. auto.
  Qed.

  Variable code_of : Z -> HOp -> option code.
  Hypothesis codes_good : forall a o c, code_of a o = Some c -> good a o [] c.

  Definition tinv (th : lthread HRes Op Res) (bp : aphase Op Res) (hp : aphase HOp HRes) (lg : option (busy HOp Op Res)) : Prop :=
    match th with
    | LIdle => bp = AIdle /\ hp = AIdle /\ lg = None
    | LRun a c => bp = AIdle /\ exists o cs, lg = Some (mk_busy a o cs None) /\
        ((hp = APending a o /\ good a o cs c) \/ exists r, hp = ADone r /\ c = Give r /\ return_ok a o cs r)
    | LWait a k => exists o cs i, lg = Some (mk_busy a o cs (Some i)) /\
        ((bp = APending a i /\ hp = APending a o /\ good a o cs (Ask i k)) \/
         exists r, bp = ADone r /\ ((hp = APending a o /\ good a o ((i, r) :: cs) (k r)) \/
           exists rr, hp = ADone rr /\ k r = Give rr /\ return_ok a o ((i, r) :: cs) rr))
    end.
  Definition Inv (s : lstate HRes Op Res) (b : astate Op Res) (hs : astate HOp HRes) (lg : llog) : Prop :=
    (forall x, avals hs x = avals b x) /\ (forall a, valid a (avals b a)) /\ forall t, tinv (s t) (aphases b t) (aphases hs t) (lg t).

  Lemma silent1 s b b' hs lg hs0 h : astep sem b [] b' -> Inv s b hs lg -> asteps hsem hs0 h hs ->
    exists hs', asteps hsem hs0 h hs' /\ Inv s b' hs' lg.
  Proof.
    intros St (V & W & T) H. inversion St as [ |? ? t a i x' r P Sm U1a U2a| ]; subst. destruct U1a as [U1 U1'], U2a as [U2 U2']. pose proof (T t) as Tt. rewrite P in Tt.
    unfold tinv in Tt. destruct (s t) as [|a0 c|a0 k] eqn:Es; [destruct Tt; discriminate|destruct Tt; discriminate|].
    destruct Tt as (o & cs & j & L & [(E & Hp & G)|(r0 & E & _)]); [|discriminate E]. injection E as <- <-.
    destruct (proj2 (good_step _ _ _ _ G) _ _ _ (W a) Sm) as [Vx [(rr & K & Hs & R)|[Ex G']]].
    - exists (mk_astate (upd (avals hs) a x') (updn (aphases hs) t (ADone rr))). split.
      + apply asteps_nil_step with (s' := hs); [exact H|]. eapply a_take_effect with (t := t) (a := a) (o := o) (v' := x') (r := rr); cbn; auto.
        * now rewrite V.
        * split; [apply upd_same|]. intros; now apply upd_other.
        * split; [apply updn_same|]. intros; now apply updn_other.
      + split; [|split].
        * intros x. cbn. destruct (Z.eq_dec x a) as [->|N]; [now rewrite upd_same|]. rewrite upd_other, U1' by assumption. apply V.
        * intros y. destruct (Z.eq_dec y a) as [->|N]; [now rewrite U1|]. now rewrite U1'.
        * intros u. cbn. destruct (Nat.eq_dec u t) as [->|N].
          { rewrite updn_same, U2, Es. exists o, cs, i. split; [exact L|]. right. exists r. split; [reflexivity|]. right. eauto. }
          { rewrite updn_other, U2' by assumption. apply T. }
    - rewrite Ex in U1. exists hs. split; [exact H|]. split; [|split].
      + intros x. rewrite V. destruct (Z.eq_dec x a) as [->|N]; [now rewrite U1|]. now rewrite U1'.
      + intros y. destruct (Z.eq_dec y a) as [->|N]; [now rewrite U1|]. now rewrite U1'.
      + intros u. destruct (Nat.eq_dec u t) as [->|N].
        * rewrite U2, Es. exists o, cs, i. split; [exact L|]. right. exists r. auto.
        * rewrite U2' by assumption. apply T.
  Qed.
  Lemma silent s b b' hs lg hs0 h : asteps sem b [] b' -> Inv s b hs lg -> asteps hsem hs0 h hs ->
    exists hs', asteps hsem hs0 h hs' /\ Inv s b' hs' lg.
  Proof.
    intros S. remember (@nil (event Op Res)) as l eqn:E. revert hs E. induction S as [b b' V P|b l0 b' e b'' S IH St]; intros hs E I H.
    - exists hs. split; [exact H|]. destruct I as (A & B & C). split; [intros; now rewrite V|]. split; [intros; now rewrite V|]. intros t. rewrite P. apply C.
    - apply app_eq_nil in E as [-> ->]. destruct (IH hs eq_refl I H) as (h1 & H1 & I1). now apply silent1 with (b := b') (hs := h1).
  Qed.

  Lemma compose ls : forall s b hs lg hs0 h0 bf s' tr, Inv s b hs lg -> layer_run code_of s ls = Some (s', tr) ->
    asteps sem b (inner_of tr) bf -> asteps hsem hs0 h0 hs ->
    exists hf, asteps hsem hs0 (h0 ++ outer_of tr) hf /\ (forall x, avals hf x = avals bf x) /\ calls_ok call_ok return_ok lg tr.
  Proof.
    induction ls as [|l ls IH]; intros s b hs lg hs0 h0 bf s' tr I R S H; cbn [layer_run] in R.
    - injection R as <- <-. destruct (silent _ _ _ _ _ _ _ S I H) as (hf & Hf & (V & _)). exists hf. cbn [outer_of]. rewrite app_nil_r. cbn. auto.
    - destruct (layer_step code_of s l) as [[s1 e]|] eqn:E; [|discriminate R]. destruct (layer_run code_of s1 ls) as [[s2 tr1]|] eqn:R1; [|discriminate R].
      injection R as <- <-. destruct l as [t a o|t|t r]; cbn [layer_step] in E.
      + destruct (s t) eqn:Es; try discriminate E. destruct (code_of a o) as [c|] eqn:C; [|discriminate E]. injection E as <- <-.
        cbn [inner_of outer_of calls_ok event_ok] in *. pose proof I as (V & W & T). pose proof (T t) as Tt. rewrite Es in Tt. destruct Tt as (Bp & Hp & L).
        destruct (IH (lset s t (LRun a c)) b (mk_astate (avals hs) (updn (aphases hs) t (APending a o))) (llog_step (HRes := HRes) lg (Outer (Call t a o))) hs0 (h0 ++ [Call t a o]) bf s2 tr1)
          as (hf & Hf & Vf & Cf); [|exact R1|exact S| |].
        * split; [exact V|]. split; [exact W|]. intros u. cbn. unfold lset, updn. destruct (Nat.eqb_spec u t) as [->|N]; [|apply T].
          cbn [tinv]. split; [exact Bp|]. exists o, []. split; [reflexivity|]. left. split; [reflexivity|]. now apply codes_good.
        * eapply as_snoc; [exact H|]. apply a_call; cbn; auto. split; [apply updn_same|]. intros; now apply updn_other.
        * exists hf. rewrite <- app_assoc in Hf. auto.
      + destruct (s t) as [|a c|] eqn:Es; try discriminate E. destruct c as [r|i k]; injection E as <- <-; cbn [inner_of outer_of calls_ok event_ok] in *;
          pose proof I as (V & W & T); pose proof (T t) as Tt; rewrite Es in Tt; destruct Tt as (Bp & o & cs & L & D).
        * (* return *)
          assert (RO : return_ok a o cs r).
          { destruct D as [[Hp G]|(r0 & Hp & E & RO)]; [exact (proj1 (good_step _ _ _ _ G))|]. injection E as <-. exact RO. }
          assert (X : exists h1, asteps hsem hs0 h0 h1 /\ (forall x, avals h1 x = avals hs x) /\ aphases h1 t = ADone r /\ forall u, u <> t -> aphases h1 u = aphases hs u).
          { destruct D as [[Hp G]|(r0 & Hp & E & _)].
            - exists (mk_astate (avals hs) (updn (aphases hs) t (ADone r))). split; [|split; [reflexivity|split; [apply updn_same|intros; now apply updn_other]]].
              apply asteps_nil_step with (s' := hs); [exact H|]. eapply a_take_effect with (t := t) (a := a) (o := o) (v' := avals hs a) (r := r); cbn; auto.
              + apply (proj2 (good_step _ _ _ _ G)). rewrite V. apply W.
              + split; auto.
              + split; [apply updn_same|]. intros; now apply updn_other.
            - injection E as <-. exists hs. auto. }
          destruct X as (h1 & H1 & V1 & P1 & O1).
          destruct (IH (lset s t LIdle) b (mk_astate (avals h1) (updn (aphases h1) t AIdle)) (llog_step (HRes := HRes) lg (Outer (Return t r))) hs0 (h0 ++ [Return t r]) bf s2 tr1)
            as (hf & Hf & Vf & Cf); [|exact R1|exact S| |].
          { split; [intros; cbn; now rewrite V1, V|]. split; [exact W|]. intros u. cbn. unfold lset, updn. destruct (Nat.eqb_spec u t) as [->|N].
            - cbn. auto.
            - rewrite O1 by assumption. apply T. }
          { eapply as_snoc; [exact H1|]. apply a_return; cbn; auto. split; [apply updn_same|]. intros; now apply updn_other. }
          exists hf. rewrite <- app_assoc in Hf. split; [exact Hf|]. split; [exact Vf|]. split; [|exact Cf]. exists a, o, cs. auto.
        * (* inner call *)
          destruct D as [[Hp G]|(r0 & Hp & E & _)]; [|discriminate E].
          destruct (ClientProofs.asteps_cons _ _ _ _ _ S) as (b1 & b2 & S1 & S2 & S3). destruct (silent _ _ _ _ _ _ _ S1 I H) as (h1 & H1 & (V1 & W1 & T1)).
          inversion S2 as [? ? ? ? ? P V2 [U1 U2]| |]; subst.
          pose proof (T1 t) as Tt1. rewrite Es in Tt1. destruct Tt1 as (_ & o1 & cs1 & L1 & D1). rewrite L in L1. injection L1 as <- <-.
          destruct D1 as [[Hp1 G1]|(r0 & _ & E & _)]; [|discriminate E].
          destruct (IH (lset s t (LWait a k)) b2 h1 (llog_step (HRes := HRes) lg (Inner (Call t a i))) hs0 h0 bf s2 tr1) as (hf & Hf & Vf & Cf); [|exact R1|exact S3|exact H1|].
          { split; [intros; now rewrite V2|]. split; [intros; now rewrite V2|]. intros u. cbn. rewrite L. unfold lset. destruct (Nat.eqb_spec u t) as [->|N].
            - cbn. exists o, cs, i. split; [reflexivity|]. left. auto.
            - rewrite U2 by assumption. apply T1. }
          exists hf. split; [exact Hf|]. split; [exact Vf|]. split; [|exact Cf]. exists o, cs. split; [exact L|]. exact (proj1 (good_step _ _ _ _ G)).
      + destruct (s t) as [| |a k] eqn:Es; try discriminate E. injection E as <- <-. cbn [inner_of outer_of calls_ok event_ok] in *.
        destruct (ClientProofs.asteps_cons _ _ _ _ _ S) as (b1 & b2 & S1 & S2 & S3). destruct (silent _ _ _ _ _ _ _ S1 I H) as (h1 & H1 & (V1 & W1 & T1)).
        inversion S2 as [| |? ? ? ? P V2 [U1 U2]]; subst.
        pose proof (T1 t) as Tt. rewrite Es, P in Tt. destruct Tt as (o & cs & i & L & [(E & _)|(r0 & E & D)]); [discriminate E|]. injection E as <-.
        destruct (IH (lset s t (LRun a (k r))) b2 h1 (llog_step (HRes := HRes) lg (Inner (Return t r))) hs0 h0 bf s2 tr1) as (hf & Hf & Vf & Cf); [|exact R1|exact S3|exact H1|].
        * split; [intros; now rewrite V2|]. split; [intros; now rewrite V2|]. intros u. cbn. rewrite L. unfold lset. destruct (Nat.eqb_spec u t) as [->|N].
          { cbn. split; [exact U1|]. exists o, ((i, r) :: cs). split; [reflexivity|]. exact D. }
          { rewrite U2 by assumption. apply T1. }
        * exists hf. split; [exact Hf|]. split; [exact Vf|]. split; [|exact Cf]. eauto.
  Qed.

  Theorem layer_correct ls s tr init fin : (forall a, valid a (init a)) ->
    layer_run code_of layer_init ls = Some (s, tr) -> linearizable_to sem init (inner_of tr) fin ->
    linearizable_to hsem init (outer_of tr) fin /\ calls_ok call_ok return_ok (fun _ => None) tr.
  Proof.
    intros V R (bf & S & F).
    destruct (compose ls layer_init (mk_astate init (fun _ => AIdle)) (mk_astate init (fun _ => AIdle)) (fun _ => None) (mk_astate init (fun _ => AIdle)) [] bf s tr)
      as (hf & Hf & Vf & C); [|exact R|exact S| |].
    - split; [reflexivity|]. split; [exact V|]. intros t. cbn. auto.
    - apply as_nil; reflexivity.
    - split; [|exact C]. exists hf. split; [exact Hf|]. intros a v E. rewrite Vf. now apply F.
  Qed.
End Compose.
