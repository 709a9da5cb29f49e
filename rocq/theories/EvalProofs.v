(** Proofs about how often closures are called: see EvalSpec. *)
From Coq Require Import ZArith List Bool PeanoNat Lia.
From Verif Require Import Words Spec LinFacts ClientSpec ClientModel ClientProofs EvalSpec.
Import ListNotations.
Open Scope Z_scope.

Section Evals.
  Context {Op Res : Type}.
  Variable sem : Z -> Op -> Z -> Z * Res -> Prop.
  Variable reads : Op -> bool.
  Hypothesis reads_ok : reads_only reads sem.
  Local Notation hphase := (rphase (Op := hop Op) (Res := hres Res)).
  Local Notation hstate := (rstate (Op := hop Op) (Res := hres Res)).
  Local Notation hsm := (hsem sem).

  (** ** The programs' own operations, with closures *)
  Inductive erun : hstate -> list (cevent Op Res) -> Prop :=
  | er_nil s : erun s []
  | er_high s e s1 tr : rsteps hsm s [e] s1 -> erun s1 tr -> erun s (High e :: tr)
  | er_eval s i x s1 tr : rsteps hsm s [] s1 -> (exists a o, rphases s1 i = RSeen a o (HErr x)) -> erun s1 tr -> erun s (Eval i x :: tr)
  | er_answer s i y s1 tr : rsteps hsm s [] s1 -> erun s1 tr -> erun s (Answer i y :: tr)
  | er_base s e s1 tr : rsteps hsm s [] s1 -> erun s1 tr -> erun s (Base e :: tr).

  Definition live (p : hphase) (a : Z) (o : hop Op) : Prop := p = RPending a o \/ exists r, p = RSeen a o r.

  (** An invariant is kept by [rsteps]. *)
  Lemma rsteps_inv (I : hstate -> Prop) (I' : hstate -> Prop) e :
    (forall s s', (forall x, rvals s' x = rvals s x) -> (forall t, rphases s' t = rphases s t) -> I s -> I s') ->
    (forall s s', (forall x, rvals s' x = rvals s x) -> (forall t, rphases s' t = rphases s t) -> I' s -> I' s') ->
    (forall s s', rstep hsm s [] s' -> I s -> I s') -> (forall s s', rstep hsm s [] s' -> I' s -> I' s') ->
    (forall s s', rstep hsm s [e] s' -> I s -> I' s') ->
    (forall s s', rsteps hsm s [] s' -> I s -> I s') /\ (forall s s', rsteps hsm s [e] s' -> I s -> I' s').
  Proof.
    intros E E' Si Si' Sl.
    assert (A : forall s h s', rsteps hsm s h s' -> (h = [] -> I s -> I s') /\ (h = [e] -> I s -> I' s')).
    { intros s h s' R. induction R as [s s' V P|s h s' e0 s'' R [IH1 IH2] St].
      - split; [intros _; now apply E|discriminate].
      - assert (D : e0 = [] \/ exists y, e0 = [y]) by (inversion St; subst; eauto). split; intros Eh H.
        + apply app_eq_nil in Eh as [-> ->]. eapply Si; [exact St|]. now apply IH1.
        + destruct D as [-> |[y ->]].
          * rewrite app_nil_r in Eh. eapply Si'; [exact St|]. now apply IH2.
          * apply app_eq_unit in Eh as [[-> X]|[_ X]]; [|discriminate X]. injection X as ->. eapply Sl; [exact St|]. now apply IH1. }
    split; intros s s' R; [exact (proj1 (A _ _ _ R) eq_refl)|exact (proj2 (A _ _ _ R) eq_refl)].
  Qed.

  (** ** Before: who is in the middle of something is known from the events *)
  Definition O1 (s : hstate) (op : nat -> option (Z * hop Op)) : Prop := forall j a o, live (rphases s j) a o -> op j = Some (a, o).
  Lemma O1_eq op s s' : (forall x, rvals s' x = rvals s x) -> (forall t, rphases s' t = rphases s t) -> O1 s op -> O1 s' op.
  Proof. intros _ P H j a o. rewrite P. apply H. Qed.
  Lemma O1_silent op s s' : rstep hsm s [] s' -> O1 s op -> O1 s' op.
  Proof.
    intros St H. inversion St as [|? ? t a o r P Sm V [U1 U2]|? ? t a o v r P Sm V [U1 U2]|]; subst; intros j b q; (destruct (Nat.eq_dec j t) as [->|N]; [rewrite U1|rewrite U2 by assumption; apply H]).
    - intros [X|(r0 & X)]; [discriminate X|]. injection X as <- <- <-. now apply H.
    - intros [X|(r0 & X)]; discriminate X.
  Qed.
  Lemma O1_high op e s s' : rstep hsm s [e] s' -> O1 s op -> O1 s' (open_step op (High e)).
  Proof.
    intros St H. inversion St as [? ? t a o P V [U1 U2]| | |? ? t r P V [U1 U2]]; subst; intros j b q; cbn [open_step]; (destruct (Nat.eqb_spec j t) as [->|N]; [rewrite U1|rewrite U2 by assumption; apply H]).
    - intros [X|(r0 & X)]; [|discriminate X]. now injection X as <- <-.
    - intros [X|(r0 & X)]; discriminate X.
  Qed.
  Lemma before tr1 : forall s op tr, O1 s op -> erun s (tr1 ++ tr) -> exists s', O1 s' (fold_left open_step tr1 op) /\ erun s' tr.
  Proof.
    induction tr1 as [|e tr1 IH]; intros s op tr H R; [exists s; auto|]. cbn [app] in R.
    assert (Si : forall s1, rsteps hsm s [] s1 -> O1 s1 op).
    { intros s1 R1. refine (proj1 (rsteps_inv (fun s => O1 s op) (fun _ => True) (Return 0%nat HPanic) (O1_eq op) _ (O1_silent op) _ _) _ _ R1 H); auto. }
    inversion R as [|? e0 s1 ? R1 R2|? i x s1 ? R1 P R2|? i y s1 ? R1 R2|? e0 s1 ? R1 R2]; subst; cbn [fold_left]; (eapply IH; [|exact R2]); try (cbn [open_step]; now apply Si).
    exact (proj2 (rsteps_inv (fun s => O1 s op) (fun s => O1 s (open_step op (High e0))) e0 (O1_eq op) (O1_eq _) (O1_silent op) (O1_silent _) (O1_high op e0)) _ _ R1 H).
  Qed.

  (** ** During: [i] is in a fetch_update on [A] *)
  Variables (i : nat) (A : Z).
  Definition moved (x v : Z) : nat := if (x =? v)%Z then 0%nat else 1%nat.
  (** [L]: what the closure was called with last, [n]: how often with a new value, [S]: changes by others, [P]: who may still make one. *)
  Definition own (s : hstate) (L : option Z) (n S : nat) : Prop :=
    match rphases s i with
    | RIdle => False
    | RPending a o => a = A /\ (exists so fo, o = HUpdate so fo) /\ L = None /\ n = 0%nat
    | RSeen a o r => a = A /\ (exists so fo, o = HUpdate so fo) /\
        exists v, (forall v', r = HErr v' -> v' = v) /\ (n + differs L v + moved (rvals s A) v <= 1 + S)%nat
    | RDone _ => (n <= 1 + S)%nat
    end.
  Definition J (L : option Z) (n B : nat) (s : hstate) : Prop :=
    exists S P, (S + length P <= B)%nat /\ (forall j o, j <> i -> live (rphases s j) A o -> changes reads o = true -> In j P) /\ own s L n S.
  Lemma J_eq L n B s s' : (forall x, rvals s' x = rvals s x) -> (forall t, rphases s' t = rphases s t) -> J L n B s -> J L n B s'.
  Proof.
    intros V Ph (S & P & Le & Oth & Ow). exists S, P. split; [exact Le|]. split; [intros j o; rewrite Ph; apply Oth|]. unfold own. rewrite Ph, V. exact Ow.
  Qed.
  Lemma J_bound L n B s : J L n B s -> (n <= 1 + B)%nat.
  Proof.
    intros (S & P & Le & _ & Ow). unfold own in Ow. destruct (rphases s i) as [|a o|a o r|r]; [contradiction|lia| |lia].
    destruct Ow as (_ & _ & v & _ & Ow). lia.
  Qed.
  Lemma J_silent L n B s s' : rstep hsm s [] s' -> J L n B s -> J L n B s'.
  Proof.
    intros St (S & P & Le & Oth & Ow). inversion St as [|? ? t a o r Ph Sm V [U1 U2]|? ? t a o v r Ph Sm [V1 V2] [U1 U2]|]; subst.
    - (* somebody looks *)
      exists S, P. split; [exact Le|]. split.
      + intros j q N Lv C. destruct (Nat.eq_dec j t) as [->|Nj]; [|rewrite U2 in Lv by assumption; now apply (Oth j q)].
        rewrite U1 in Lv. destruct Lv as [X|(r0 & X)]; [discriminate X|]. injection X as -> -> ->. now apply (Oth t q).
      + destruct (Nat.eq_dec t i) as [->|N]; [|unfold own in *; rewrite U2, V by congruence; exact Ow].
        unfold own in *. rewrite U1, V.
        assert (D : a = A /\ (exists so fo, o = HUpdate so fo) /\ (n + differs L (rvals s A) <= 1 + S)%nat).
        { destruct Ph as [Ph|(r0 & Ph)]; rewrite Ph in Ow.
          - destruct Ow as (E1 & E2 & -> & ->). split; [exact E1|]. split; [exact E2|]. cbn. lia.
          - destruct Ow as (E1 & E2 & v & _ & Ow). split; [exact E1|]. split; [exact E2|]. unfold moved in Ow. destruct (Z.eqb_spec (rvals s A) v) as [->|Nv]; [lia|].
            assert (differs L (rvals s A) <= 1)%nat by (unfold differs; destruct L as [w|]; [destruct (w =? rvals s A)|]; lia). lia. }
        destruct D as (-> & (so & fo & ->) & D). split; [reflexivity|]. split; [eauto|]. exists (rvals s A). split; [|unfold moved; rewrite Z.eqb_refl; lia].
        intros v' ->. cbn in Sm. symmetry. exact (proj1 Sm).
    - (* an operation takes effect *)
      destruct (Nat.eq_dec t i) as [->|N].
      + exists S, P. split; [exact Le|]. split; [intros j q Nj; rewrite U2 by assumption; now apply Oth|].
        unfold own in *. rewrite U1. destruct Ph as [Ph|(r0 & Ph)]; rewrite Ph in Ow; [lia|]. destruct Ow as (_ & _ & w & _ & Ow). lia.
      + assert (Same : rvals s' A = rvals s A \/ (a = A /\ In t P)).
        { destruct (Z.eq_dec a A) as [Ea|Na]; [rewrite Ea in *|left; apply V2; congruence]. destruct (changes reads o) eqn:C; [right; split; [reflexivity|]; now apply (Oth t o)|].
          left. destruct o as [o|so fo]; [|discriminate C]. destruct r as [r| | |]; cbn in Sm; try contradiction. eapply reads_ok; [|exact Sm].
          cbn in C. now apply negb_false_iff in C. }
        assert (Oth' : forall j q, j <> i -> live (rphases s' j) A q -> changes reads q = true -> In j P /\ j <> t).
        { intros j q Nj Lv C. destruct (Nat.eq_dec j t) as [->|Njt]; [|rewrite U2 in Lv by assumption; split; [now apply (Oth j q)|exact Njt]].
          rewrite U1 in Lv. destruct Lv as [X|(r0 & X)]; discriminate X. }
        assert (Ei : rphases s' i = rphases s i) by (apply U2; congruence).
        destruct Same as [Sv|[-> It]].
        * exists S, P. split; [exact Le|]. split; [intros j q Nj Lv C; now apply (Oth' j q)|]. unfold own in *. now rewrite Ei, Sv.
        * exists (1 + S)%nat, (remove Nat.eq_dec t P). pose proof (remove_length_lt Nat.eq_dec P t It) as Sh. split; [lia|]. split.
          { intros j q Nj Lv C. destruct (Oth' j q Nj Lv C). now apply in_in_remove. }
          { unfold own in *. rewrite Ei. destruct (rphases s i) as [|b q|b q r1|r1]; [exact Ow|exact Ow| |lia].
            destruct Ow as (E1 & E2 & w & E3 & Ow). split; [exact E1|]. split; [exact E2|]. exists w. split; [exact E3|]. unfold moved. destruct (rvals s' A =? w); lia. }
  Qed.
  Definition new_rival (e : event (hop Op) (hres Res)) : nat :=
    match e with Call j b o => if negb (Nat.eqb j i) && (b =? A)%Z && changes reads o then 1 else 0 | Return _ _ => 0 end%nat.
  Lemma J_high L n B e s s' : (forall r, e <> Return i r) -> rstep hsm s [e] s' -> J L n B s -> J L n (B + new_rival e) s' /\ forall a o, e <> Call i a o.
  Proof.
    intros NR St (S & P & Le & Oth & Ow). inversion St as [? ? t a o Ph V [U1 U2]| | |? ? t r Ph V [U1 U2]]; subst.
    - assert (N : t <> i) by (intros ->; unfold own in Ow; now rewrite Ph in Ow). split; [|intros b q X; injection X as X _ _; contradiction].
      exists S, (if (a =? A)%Z && changes reads o then t :: P else P). split; [|split].
      + cbn [new_rival]. destruct (Nat.eqb_spec t i) as [|_]; [contradiction|]. cbn [negb andb]. destruct ((a =? A)%Z && changes reads o); cbn [length]; lia.
      + intros j q Nj Lv C. destruct (Nat.eq_dec j t) as [->|Njt].
        * rewrite U1 in Lv. destruct Lv as [X|(r0 & X)]; [|discriminate X]. injection X as -> ->. rewrite Z.eqb_refl, C. now left.
        * rewrite U2 in Lv by assumption. pose proof (Oth j q Nj Lv C). destruct ((a =? A)%Z && changes reads o); [now right|assumption].
      + unfold own in *. rewrite U2, V by congruence. exact Ow.
    - assert (N : t <> i) by (intros ->; exact (NR r eq_refl)). split; [|intros b q X; discriminate X].
      exists S, P. split; [cbn; lia|]. split.
      + intros j q Nj Lv C. destruct (Nat.eq_dec j t) as [->|Njt]; [|rewrite U2 in Lv by assumption; now apply (Oth j q)].
        rewrite U1 in Lv. destruct Lv as [X|(r0 & X)]; discriminate X.
      + unfold own in *. rewrite U2, V by congruence. exact Ow.
  Qed.
  Lemma J_rsilent L n B s s' : rsteps hsm s [] s' -> J L n B s -> J L n B s'.
  Proof.
    intros R. refine (proj1 (rsteps_inv (J L n B) (fun _ => True) (Return 0%nat HPanic) (J_eq L n B) _ (J_silent L n B) _ _) _ _ R); auto.
  Qed.
  Lemma during tr2 : forall s L n B tr3, (forall r, ~ In (High (Return i r)) tr2) -> J L n B s -> erun s (tr2 ++ tr3) ->
    (n + new_values i L tr2 <= 1 + (B + rival_calls reads A i tr2))%nat /\ forall a o, ~ In (High (Call i a o)) tr2.
  Proof.
    induction tr2 as [|e tr2 IH]; intros s L n B tr3 NR H R; [cbn; apply J_bound in H; split; [lia|auto]|]. cbn [app] in R.
    assert (NR' : forall r, ~ In (High (Return i r)) tr2) by (intros r X; apply (NR r); now right).
    inversion R as [|? e0 s1 ? R1 R2|? j x s1 ? R1 Ph R2|? j y s1 ? R1 R2|? e0 s1 ? R1 R2]; subst.
    - assert (NRe : forall r, e0 <> Return i r) by (intros r ->; apply (NR r); now left).
      assert (D : J L n (B + new_rival e0) s1 /\ forall a o, e0 <> Call i a o).
      { refine (proj2 (rsteps_inv (J L n B) (fun s => J L n (B + new_rival e0) s /\ forall a o, e0 <> Call i a o) e0 (J_eq L n B) _ (J_silent L n B) _ _) _ _ R1 H).
        - intros q q' V Ph [X Y]. split; [now apply (J_eq _ _ _ q)|exact Y].
        - intros q q' St [X Y]. split; [now apply (J_silent _ _ _ q)|exact Y].
        - intros q q' St X. now apply (J_high L n B e0 q). }
      destruct D as [D NC]. destruct (IH _ _ _ _ _ NR' D R2) as [Le Nc]. split.
      + cbn [new_values]. assert (E : rival_calls reads A i (High e0 :: tr2) = (new_rival e0 + rival_calls reads A i tr2)%nat) by (destruct e0; reflexivity). rewrite E. lia.
      + intros a o [X|X]; [injection X as X; now apply (NC a o)|now apply (Nc a o)].
    - pose proof (J_rsilent _ _ _ _ _ R1 H) as H1. cbn [new_values rival_calls]. destruct (Nat.eqb_spec j i) as [->|N].
      + assert (H2 : J (Some x) (n + differs L x) B s1).
        { destruct H1 as (S & P & Le & Oth & Ow). exists S, P. split; [exact Le|]. split; [exact Oth|]. unfold own in *. destruct Ph as (a & o & Ph). rewrite Ph in *.
          destruct Ow as (E1 & E2 & v & E3 & Ow). rewrite <- (E3 x eq_refl) in Ow. split; [exact E1|]. split; [exact E2|]. exists x. split; [intros v' E; now injection E|].
          cbn [differs]. rewrite Z.eqb_refl. lia. }
        destruct (IH _ _ _ _ _ NR' H2 R2) as [Le Nc]. split; [lia|]. intros a o [X|X]; [discriminate X|now apply (Nc a o)].
      + destruct (IH _ _ _ _ _ NR' H1 R2) as [Le Nc]. split; [exact Le|]. intros a o [X|X]; [discriminate X|now apply (Nc a o)].
    - pose proof (J_rsilent _ _ _ _ _ R1 H) as H1. cbn [new_values rival_calls]. destruct (IH _ _ _ _ _ NR' H1 R2) as [Le Nc]. split; [exact Le|]. intros a o [X|X]; [discriminate X|now apply (Nc a o)].
    - pose proof (J_rsilent _ _ _ _ _ R1 H) as H1. cbn [new_values rival_calls]. destruct (IH _ _ _ _ _ NR' H1 R2) as [Le Nc]. split; [exact Le|]. intros a o [X|X]; [discriminate X|now apply (Nc a o)].
  Qed.
End Evals.

Section Client.
  Context {Op Res : Type}.
  Variable sem : Z -> Op -> Z -> Z * Res -> Prop.
  Variable F : iface Op Res.
  Hypothesis F_ok : iface_ok sem F.
  Variable St : Type.
  Local Notation hsm := (hsem sem).
  Local Notation Inv := (Inv F St).

  Lemma rsteps_nil (s : rstate (Op := hop Op) (Res := hres Res)) : rsteps hsm s [] s.
  Proof. apply rs_nil; reflexivity. Qed.
  Lemma step_erun c l c' es hs hs' b' lg' tr : client_step F St c l = Some (c', es) -> rsteps hsm hs (high_of es) hs' -> Inv c' b' hs' lg' ->
    erun sem hs' tr -> erun sem hs (es ++ tr).
  Proof.
    destruct l as [t r]. unfold client_step. cbn [fst snd]. intros H R [_ I] E. specialize (I t). destruct (thread_step F St t (c t) r) as [[th es0]|] eqn:T; [|discriminate H].
    injection H as <- <-. cbv beta in I. rewrite Nat.eqb_refl in I. unfold thread_step in T.
    assert (Ev : forall th v fr f, tinv F St th (aphases b' t) (fun d => rphases hs' (id t d)) (fun d => lg' (id t d)) ->
      th = mk_thread St (Run St (ff _ f (fs _ f) v)) (with_prev St f (fs _ f) v :: fr) -> exists a o, rphases hs' (id t (length fr)) = RSeen a o (HErr v)).
    { intros th1 v fr f I1 ->. unfold tinv in I1. cbn [tmode tframes below] in I1. destruct I1 as (_ & (X & _) & _). unfold seen in X. cbn [with_prev fprev] in X. eexists _, _. exact X. }
    assert (X1 : forall e e', high_of [High e; Base e'] = [e] -> rsteps hsm hs [e] hs' -> erun sem hs ([High e; Base e'] ++ tr)).
    { intros e e' _ R1. cbn [app]. eapply er_high; [exact R1|]. eapply er_base; [apply rsteps_nil|exact E]. }
    assert (X2 : forall e e', rsteps hsm hs [e] hs' -> erun sem hs ([Base e'; High e] ++ tr)).
    { intros e e' R1. cbn [app]. eapply er_base; [apply rsteps_nil|]. eapply er_high; [exact R1|exact E]. }
    assert (X3 : forall e j x, rsteps hsm hs [] hs' -> (exists a o, rphases hs' j = RSeen a o (HErr x)) -> erun sem hs ([Base e; Eval j x] ++ tr)).
    { intros e j x R1 P. cbn [app]. eapply er_base; [apply rsteps_nil|]. eapply er_eval; [exact R1|exact P|exact E]. }
    assert (X4 : forall e j y, rsteps hsm hs [] hs' -> erun sem hs ([Answer j y; Base e] ++ tr)).
    { intros e j y R1. cbn [app]. eapply er_answer; [apply rsteps_nil|]. eapply er_base; [exact R1|exact E]. }
    assert (X5 : forall e j y, rsteps hsm hs [e] hs' -> erun sem hs ([Answer j y; High e] ++ tr)).
    { intros e j y R1. cbn [app]. eapply er_answer; [apply rsteps_nil|]. eapply er_high; [exact R1|exact E]. }
    destruct (tmode _ (c t)) as [[s [y|]|s|a o k|a so fo s f k]|a0 o0 k| |y], (tframes _ (c t)) as [|f0 fr], r as [r|]; try discriminate T.
    all: repeat match type of T with
         | context [got F ?r] => destruct (got F r) as [v|] eqn:EG
         | context [swapped F ?r] => destruct (swapped F r) as [[[|] v]|] eqn:EW
         | context [typed F ?a ?y] => destruct (typed F a y) eqn:ET
         end; try discriminate T.
    all: injection T as <- <-; cbn [high_of] in R; auto.
    all: apply X3; [exact R|eapply Ev; [exact I|reflexivity]].
  Qed.
  Lemma crun_erun ls : forall c b hs lg c' tr bf, client_run F St c ls = Some (c', tr) -> Inv c b hs lg -> asteps sem b (base_of tr) bf -> erun sem hs tr.
  Proof.
    induction ls as [|l ls IH]; intros c b hs lg c' tr bf R I S; cbn [client_run] in R.
    - injection R as <- <-. constructor.
    - destruct (client_step F St c l) as [[c1 es]|] eqn:E; [|discriminate R]. destruct (client_run F St c1 ls) as [[c2 tr1]|] eqn:R1; [|discriminate R].
      injection R as <- <-. rewrite base_of_app in S. destruct (cstep sem F F_ok St _ _ _ _ _ _ _ _ _ E I S) as (b' & hs' & S' & R' & I' & _).
      eapply step_erun; [exact E|exact R'|exact I'|]. eapply IH; [exact R1|exact I'|exact S'].
  Qed.
  Lemma init_inv progs init : Inv (client_init St progs) (mk_astate init (fun _ => AIdle)) (mk_rstate init (fun _ => RIdle)) (fun _ => Never).
  Proof. split; [reflexivity|]. intros t. unfold tinv, client_init. cbn. repeat split; auto. Qed.

  (** ** Where compare_exchange_weak does not fail for no reason, no closure is called twice in a row with the same value *)
  Definition value_of (l : last) : option Z := match l with Asked _ x | Last _ x _ => Some x | _ => None end.
  Fixpoint no_repeat (lg : nat -> last) (tr : list (cevent Op Res)) : Prop :=
    match tr with
    | [] => True
    | e :: tr' => match e with Eval i x => value_of (lg i) <> Some x | _ => True end /\ no_repeat (log_step lg e) tr'
    end.
  Lemma no_repeat_app tr1 : forall lg tr2, no_repeat lg tr1 -> no_repeat (fold_left log_step tr1 lg) tr2 -> no_repeat lg (tr1 ++ tr2).
  Proof. induction tr1 as [|e tr1 IH]; intros lg tr2; cbn [app fold_left no_repeat]; [auto|]. intros [A B] C. auto. Qed.
  Lemma no_repeat_tail tr1 : forall lg tr2, no_repeat lg (tr1 ++ tr2) -> no_repeat (fold_left log_step tr1 lg) tr2.
  Proof. induction tr1 as [|e tr1 IH]; intros lg tr2; cbn [app fold_left no_repeat]; [auto|]. intros [A B]. auto. Qed.
  Lemma no_repeat_head tr1 : forall lg tr2, no_repeat lg (tr1 ++ tr2) -> no_repeat lg tr1.
  Proof. induction tr1 as [|e tr1 IH]; intros lg tr2; cbn [app no_repeat]; [auto|]. intros [A B]. eauto. Qed.

  Hypothesis strong : never_for_no_reason sem F.
  Definition casinv (th : thread (Op := Op) (Res := Res) St) (bp : aphase Op Res) : Prop :=
    match tmode _ th, tframes _ th with
    | WaitCas _ y, f :: _ => bp = APending (fa _ f) (op_cas F (fa _ f) (fprev _ f) y (fset _ f) (ffetch _ f)) \/
        exists r x x', bp = ADone r /\ sem (fa _ f) (op_cas F (fa _ f) (fprev _ f) y (fset _ f) (ffetch _ f)) x (x', r)
    | _, _ => True
    end.
  Definition K (c : cstate (Op := Op) (Res := Res) St) (b : astate Op Res) : Prop := forall t, casinv (c t) (aphases b t).
  Lemma K_silent c b b' : asteps sem b [] b' -> K c b -> K c b'.
  Proof.
    intros S. remember (@nil (event Op Res)) as l eqn:E. revert E. induction S as [b b' V P|b l0 b' e b'' S IH St']; intros E H.
    - intros t. rewrite P. apply H.
    - apply app_eq_nil in E as [-> ->]. specialize (IH eq_refl H). inversion St' as [ |? ? t a o v r P Sm U1 [U2 U3]| ]; subst. intros u.
      destruct (Nat.eq_dec u t) as [->|N]; [|rewrite U3 by assumption; apply IH]. rewrite U2. specialize (IH t). unfold casinv in *.
      destruct (tmode _ (c t)) as [p|a0 o0 k| |y]; try exact Logic.I. destruct (tframes _ (c t)) as [|f fr]; [exact Logic.I|]. rewrite P in IH.
      destruct IH as [IH|(r0 & x & x' & IH & _)]; [|discriminate IH]. injection IH as -> ->. right. eauto.
  Qed.
  Lemma K_step c c' b hs lg b2 l es rest bf : client_step F St c l = Some (c', es) -> Inv c b hs lg -> K c b2 -> asteps sem b2 (base_of es ++ rest) bf ->
    exists b', asteps sem b' rest bf /\ K c' b' /\ no_repeat lg es.
  Proof.
    destruct l as [t r]. unfold client_step. cbn [fst snd]. intros H [_ I] Kc S. specialize (I t).
    destruct (thread_step F St t (c t) r) as [[th es0]|] eqn:T; [|discriminate H]. injection H as <- <-.
    assert (Set_ : forall b1, (forall u, u <> t -> aphases b1 u = aphases b1 u) -> K c b1 -> casinv th (aphases b1 t) -> K (fun u => if (u =? t)%nat then th else c u) b1).
    { intros b1 _ K1 C u. destruct (Nat.eqb_spec u t) as [->|N]; [exact C|apply K1]. }
    assert (Bc : forall a o, base_of es0 = [Call t a o] -> casinv th (APending a o) -> exists b', asteps sem b' rest bf /\ K (fun u => if (u =? t)%nat then th else c u) b').
    { intros a o E C. rewrite E in S. cbn [app] in S. destruct (asteps_cons _ _ _ _ _ S) as (b1 & b3 & S1 & S2 & S3). exists b3. split; [exact S3|].
      apply (K_silent _ _ _ S1) in Kc. inversion S2 as [? ? ? ? ? P V [U1 U2]| |]; subst. intros u. destruct (Nat.eqb_spec u t) as [->|N]; [now rewrite U1|rewrite U2 by assumption; apply Kc]. }
    assert (Br : forall r0, base_of es0 = [Return t r0] -> casinv th AIdle -> exists b1, K c b1 /\ aphases b1 t = ADone r0 /\
              exists b', asteps sem b' rest bf /\ K (fun u => if (u =? t)%nat then th else c u) b').
    { intros r0 E C. rewrite E in S. cbn [app] in S. destruct (asteps_cons _ _ _ _ _ S) as (b1 & b3 & S1 & S2 & S3). apply (K_silent _ _ _ S1) in Kc. exists b1. split; [exact Kc|].
      inversion S2 as [| |? ? ? ? P V [U1 U2]]; subst. split; [exact P|]. exists b3. split; [exact S3|].
      intros u. destruct (Nat.eqb_spec u t) as [->|N]; [now rewrite U1|rewrite U2 by assumption; apply Kc]. }
    assert (B0 : base_of es0 = [] -> casinv th (aphases b2 t) -> exists b', asteps sem b' rest bf /\ K (fun u => if (u =? t)%nat then th else c u) b').
    { intros E C. rewrite E in S. exists b2. split; [exact S|]. apply Set_; auto. }
    unfold thread_step in T. unfold tinv in I.
    destruct (tmode _ (c t)) as [[s [y|]|s|a o k|a so fo s f k]|a0 o0 k| |y] eqn:EM, (tframes _ (c t)) as [|f0 fr] eqn:EF, r as [r|]; try discriminate T.
    all: repeat match type of T with
         | context [got F ?r] => destruct (got F r) as [v|] eqn:EG
         | context [swapped F ?r] => destruct (swapped F r) as [[[|] v]|] eqn:EW
         | context [typed F ?a ?y] => destruct (typed F a y) eqn:ET
         end; try discriminate T.
    all: injection T as <- <-; cbn [no_repeat].
    all: try (destruct (B0 eq_refl) as (b' & ? & ?); [exact Logic.I|exists b'; auto 8]; fail).
    all: try (edestruct Bc as (b' & ? & ?); [reflexivity|first [exact Logic.I|left; reflexivity]|exists b'; auto 8]; fail).
    all: edestruct Br as (b1 & K1 & P1 & b' & Q1 & Q2); [reflexivity|exact Logic.I|]; exists b'; (split; [exact Q1|]); (split; [exact Q2|]); auto.
    - split; [exact Logic.I|]. split; [|exact Logic.I]. cbn [log_step]. destruct I as (_ & _ & Lg & _). rewrite Lg. discriminate.
    - split; [exact Logic.I|]. split; [|exact Logic.I]. cbn [log_step]. destruct I as ((Ty & Rd) & _ & _ & Lg & _). rewrite Lg. cbn [value_of].
      specialize (K1 t). unfold casinv in K1. rewrite EM, EF, P1 in K1. destruct K1 as [X|(r1 & x & x' & X & Sm)]; [discriminate X|]. injection X as <-.
      pose proof (strong _ _ _ _ _ _ _ _ _ Rd Ty Sm EW) as N. congruence.
  Qed.
  Lemma crun_no_repeat ls : forall c b hs lg b2 c' tr bf bf2, client_run F St c ls = Some (c', tr) -> Inv c b hs lg -> asteps sem b (base_of tr) bf ->
    K c b2 -> asteps sem b2 (base_of tr) bf2 -> no_repeat lg tr.
  Proof.
    induction ls as [|l ls IH]; intros c b hs lg b2 c' tr bf bf2 R I S Kc S2; cbn [client_run] in R.
    - injection R as <- <-. exact Logic.I.
    - destruct (client_step F St c l) as [[c1 es]|] eqn:E; [|discriminate R]. destruct (client_run F St c1 ls) as [[c2 tr1]|] eqn:R1; [|discriminate R].
      injection R as <- <-. rewrite base_of_app in S, S2. destruct (cstep sem F F_ok St _ _ _ _ _ _ _ _ _ E I S) as (b' & hs' & S' & R' & I' & _).
      destruct (K_step _ _ _ _ _ _ _ _ _ _ E I Kc S2) as (b3 & S3 & K3 & N). apply no_repeat_app; [exact N|]. eapply IH; eassumption.
  Qed.
  Lemma all_new i tr : forall lg, (forall a o, ~ In (High (Call i a o)) tr) -> (exists u, args (lg i) = Some u) -> no_repeat lg tr -> evals i tr = new_values i (value_of (lg i)) tr.
  Proof.
    induction tr as [|e tr IH]; intros lg NC (u & Hu) N; [reflexivity|]. cbn [no_repeat] in N. destruct N as [N1 N2].
    assert (NC' : forall a o, ~ In (High (Call i a o)) tr) by (intros a o X; apply (NC a o); now right).
    assert (Keep : forall lg', lg' i = lg i -> no_repeat lg' tr -> evals i tr = new_values i (value_of (lg i)) tr).
    { intros lg' E Nr. rewrite <- E. apply IH; [exact NC'|rewrite E; eauto|exact Nr]. }
    destruct e as [[j a o|j r]|j x|j y|e]; cbn [evals new_values] in *.
    - eapply Keep; [|exact N2]. cbn [log_step]. assert (j <> i) by (intros ->; apply (NC a o); now left). destruct o; destruct (Nat.eqb_spec i j); congruence.
    - now apply (Keep _ eq_refl).
    - destruct (Nat.eqb_spec j i) as [->|Nj].
      + rewrite (IH (log_step (Op := Op) (Res := Res) lg (Eval i x))); [|exact NC'| |exact N2].
        * cbn [log_step]. rewrite Hu, Nat.eqb_refl. cbn [value_of]. unfold differs. destruct (value_of (lg i)) as [w|]; [|reflexivity].
          destruct (Z.eqb_spec w x); [congruence|reflexivity].
        * cbn [log_step]. rewrite Hu, Nat.eqb_refl. exists u. reflexivity.
      + eapply Keep; [|exact N2]. cbn [log_step]. destruct (args (lg j)); [|reflexivity]. destruct (Nat.eqb_spec i j); congruence.
    - destruct (Nat.eq_dec j i) as [->|Nj].
      + rewrite (IH (log_step (Op := Op) (Res := Res) lg (Answer i y))); [|exact NC'| |exact N2]; cbn [log_step]; destruct (lg i) as [|u0|u0 x|u0 x y0] eqn:El; rewrite ?Nat.eqb_refl, ?El; cbn; eauto; discriminate Hu.
      + eapply Keep; [|exact N2]. cbn [log_step]. destruct (lg j); try reflexivity. destruct (Nat.eqb_spec i j); congruence.
    - now apply (Keep _ eq_refl).
  Qed.
End Client.

Section Main.
  Context {Op Res : Type}.
  Variable sem : Z -> Op -> Z -> Z * Res -> Prop.
  Variable F : iface Op Res.
  Hypothesis F_ok : iface_ok sem F.
  Variable reads : Op -> bool.
  Hypothesis reads_ok : reads_only reads sem.

  Lemma stretch St progs ls c tr init fin : client_run F St (client_init St progs) ls = Some (c, tr) -> linearizable_to sem init (base_of tr) fin ->
    forall tr1 i a so fo tr2 tr3 others, tr = tr1 ++ High (Call i a (HUpdate so fo)) :: tr2 ++ tr3 -> (forall r, ~ In (High (Return i r)) tr2) ->
      (forall j, j <> i -> rival_on reads a tr1 j -> In j others) ->
      (new_values i None tr2 <= 1 + (length others + rival_calls reads a i tr2))%nat /\ forall b o, ~ In (High (Call i b o)) tr2.
  Proof.
    intros R (bf & S & _) tr1 i a so fo tr2 tr3 others E NR Oth. pose proof (crun_erun sem F F_ok St ls _ _ _ _ _ _ _ R (init_inv F St progs init) S) as ER. rewrite E in ER.
    assert (O0 : O1 (mk_rstate init (fun _ => RIdle)) (fun _ => @None (Z * hop Op)) (Res := Res)) by (intros j b o [X|(r & X)]; discriminate X).
    destruct (before sem tr1 _ _ _ O0 ER) as (s & O & ER').
    inversion ER' as [|? e0 s1 ? R1 R2| | |]; subst.
    assert (D : J reads i a None 0 (length others) s1).
    { set (e := Call i a (HUpdate so fo)) in *. set (op := fold_left open_step tr1 (fun _ => None)) in *.
      refine (proj2 (rsteps_inv sem (fun s => O1 s op) (J reads i a None 0 (length others)) e (O1_eq op) (J_eq reads i a _ _ _) (O1_silent sem op) (J_silent sem reads reads_ok i a _ _ _) _) _ _ R1 O).
      intros q q' St1 Oq. unfold e in St1. inversion St1 as [? ? t b o P V [U1 U2]| | |]; subst. exists 0%nat, others. split; [lia|]. split.
      - intros j o N Lv C. rewrite U2 in Lv by assumption. apply Oth; [exact N|]. exists o. split; [now apply Oq|exact C].
      - unfold own. rewrite U1. split; [reflexivity|]. split; [eauto|auto]. }
    exact (during sem reads reads_ok i a tr2 _ _ _ _ _ NR D R2).
  Qed.
  Theorem client_few_evals St progs ls c tr init fin : client_run F St (client_init St progs) ls = Some (c, tr) -> linearizable_to sem init (base_of tr) fin -> few_evals reads tr.
  Proof. intros R L tr1 i a so fo tr2 tr3 others E NR Oth. exact (proj1 (stretch _ _ _ _ _ _ _ R L _ _ _ _ _ _ _ _ E NR Oth)). Qed.
  Theorem client_few_evals_strong St progs ls c tr init fin : never_for_no_reason sem F ->
    client_run F St (client_init St progs) ls = Some (c, tr) -> linearizable_to sem init (base_of tr) fin -> few_evals_strong reads tr.
  Proof.
    intros Sg R L tr1 i a so fo tr2 tr3 others E NR Oth. destruct (stretch _ _ _ _ _ _ _ R L _ _ _ _ _ _ _ _ E NR Oth) as [Le NC]. destruct L as (bf & S & _).
    assert (N : no_repeat (fun _ => Never) tr).
    { eapply (crun_no_repeat sem F F_ok St Sg); [exact R|apply init_inv|exact S| |exact S]. intros t. exact Logic.I. }
    rewrite E in N. apply no_repeat_tail in N. cbn [no_repeat] in N. destruct N as [_ N]. apply no_repeat_head in N.
    assert (Ua : exists u, args (log_step (fold_left log_step tr1 (fun _ => Never)) (High (Call i a (HUpdate so fo)) : cevent Op Res) i) = Some u) by (cbn [log_step]; rewrite Nat.eqb_refl; cbn; eauto).
    rewrite (all_new i tr2 _ NC Ua N). cbn [log_step]. rewrite Nat.eqb_refl. exact Le.
  Qed.
End Main.
