(** Proofs about retries: see RetrySpec. *)
From Coq Require Import ZArith List Bool Lia PeanoNat.
From Verif Require Import Words Spec WordsFacts LinFacts FrontSpec ByteSpec OrderSpec OrderingModel LayerSpec LayerModel LayerProofs RetrySpec LayerProgressSpec.
From Verif Require ClientProofs.
Import ListNotations.
Open Scope Z_scope.

Section Run.
  Context {HOp HRes Op Res : Type}.
  Variable code_of : Z -> HOp -> option (code HRes Op Res).
  Local Notation run := (layer_run code_of).
  Lemma run_split tr1 : forall s ls s' tr2, run s ls = Some (s', tr1 ++ tr2) ->
    exists ls1 ls2 s1, ls = ls1 ++ ls2 /\ run s ls1 = Some (s1, tr1) /\ run s1 ls2 = Some (s', tr2).
  Proof.
    induction tr1 as [|e tr1 IH]; intros s ls s' tr2 R.
    - exists [], ls, s. auto.
    - destruct ls as [|l ls]; cbn [layer_run] in R; [discriminate R|]. destruct (layer_step code_of s l) as [[s1 e1]|] eqn:E; [|discriminate R].
      destruct (run s1 ls) as [[s2 tr]|] eqn:R1; [|discriminate R]. injection R as -> -> ->. destruct (IH _ _ _ _ R1) as (ls1 & ls2 & m & -> & A & B).
      exists (l :: ls1), ls2, m. split; [reflexivity|]. split; [|exact B]. cbn [layer_run]. now rewrite E, A.
  Qed.
  (** Who is busy is in the log. *)
  Definition at_addr (th : lthread HRes Op Res) (a : Z) : Prop := match th with LIdle => False | LRun b _ | LWait b _ => b = a end.
  Definition log_rel (th : lthread HRes Op Res) (l : option (busy HOp Op Res)) : Prop :=
    match th with
    | LIdle => l = None
    | LRun a _ => exists o cs, l = Some (mk_busy a o cs None)
    | LWait a _ => exists o cs i, l = Some (mk_busy a o cs (Some i))
    end.
End Run.

Section Retry.
  Context {HOp HRes Op Res : Type}.
  Variable hsem : Z -> HOp -> Z -> Z * HRes -> Prop.
  Variable sem : Z -> Op -> Z -> Z * Res -> Prop.
  Variable valid : Z -> Z -> Prop.
  Variable call_ok : Z -> HOp -> list (Op * Res) -> Op -> Prop.
  Variable return_ok : Z -> HOp -> list (Op * Res) -> HRes -> Prop.
  Variable spur : Op -> Res -> bool.
  Variable reads : HOp -> bool.
  Hypothesis reads_ok : forall a o x x' r, reads o = true -> hsem a o x (x', r) -> x' = x.
  Local Notation code := (code HRes Op Res).
  Local Notation good := (good hsem sem valid call_ok return_ok).

  (** Whoever goes on after an integer operation has just seen another value than before, or was told to for no reason. *)
  Definition prog_step (G : option Z -> code -> Prop) (a : Z) (last : option Z) (c : code) : Prop :=
    match c with
    | Give _ => True
    | Ask i k => forall x x' r, valid a x -> sem a i x (x', r) ->
        (exists rr, k r = Give rr) \/ ((last <> Some x \/ spur i r = true) /\ G (Some x) (k r))
    end.
  Definition prog (a : Z) (last : option Z) (c : code) : Prop :=
    exists G, G last c /\ forall last' c', G last' c' -> prog_step G a last' c'.
  Lemma prog_unfold a last c : prog a last c -> prog_step (prog a) a last c.
  Proof.
    intros (G & H & St). pose proof (St _ _ H) as S. destruct c as [r|i k]; cbn [prog_step] in *; [exact S|].
    intros x x' r V M. destruct (S x x' r V M) as [F|[E N]]; [now left|]. right. split; [exact E|]. exists G. auto.
  Qed.

  Variable code_of : Z -> HOp -> option code.
  Hypothesis codes_good : forall a o c, code_of a o = Some c -> good a o [] c.
  Hypothesis codes_prog : forall a o c, code_of a o = Some c -> prog a None c.

  Definition und (a : Z) (c : code) : Prop := exists o cs, good a o cs c.
  (** ... and, unless it only reads, [Q] holds. *)
  Definition undq (Q : Z -> Prop) (a : Z) (c : code) : Prop := exists o cs, good a o cs c /\ (reads o = false -> Q a).
  Lemma undq_mono (Q Q' : Z -> Prop) a c : (forall a, Q a -> Q' a) -> undq Q a c -> undq Q' a c.
  Proof. intros M (o & cs & G & q). exists o, cs. auto. Qed.
  Definition oinv (Q : Z -> Prop) (th : lthread HRes Op Res) (bp : aphase Op Res) : Prop :=
    match th with
    | LIdle => bp = AIdle
    | LRun a c => bp = AIdle /\ (undq Q a c \/ exists r, c = Give r)
    | LWait a k => (exists i, bp = APending a i /\ undq Q a (Ask i k)) \/ (exists r, bp = ADone r /\ (undq Q a (k r) \/ exists rr, k r = Give rr))
    end.
  Lemma oinv_mono (Q Q' : Z -> Prop) th bp : (forall a, Q a -> Q' a) -> oinv Q th bp -> oinv Q' th bp.
  Proof.
    intros M. pose proof (undq_mono Q Q') as U. destruct th as [|a c|a k]; cbn; [auto| |].
    - intros [A [B|B]]; auto.
    - intros [(i & A & B)|(r & A & [B|B])]; [left; exists i; auto|right; exists r; auto|right; exists r; auto].
  Qed.
  (** An integer operation of [th] takes effect. *)
  Lemma o_effect Q th a i x x' r : oinv Q th (APending a i) -> valid a x -> sem a i x (x', r) -> valid a x' /\
    ((Q a /\ oinv (fun _ => False) th (ADone r)) \/ x' = x /\ oinv Q th (ADone r)).
  Proof.
    destruct th as [|b c|b k]; cbn [oinv]; [discriminate|intros [E _]; discriminate E|]. intros [(j & E & (o & cs & G & q))|(r0 & E & _)]; [|discriminate E].
    injection E as <- <-. intros V M. destruct (proj2 (good_step _ _ _ _ _ _ _ _ _ G) x x' r V M) as [V' [(rr & K & H & _)|[-> G']]]; (split; [exact V'|]).
    - destruct (reads o) eqn:Ro.
      + right. split; [exact (reads_ok _ _ _ _ _ Ro H)|]. right. exists r. split; [reflexivity|]. right. eauto.
      + left. split; [now apply q|]. right. exists r. split; [reflexivity|]. right. eauto.
    - right. split; [reflexivity|]. right. exists r. split; [reflexivity|]. left. exists o, ((i, r) :: cs). split; [exact G'|exact q].
  Qed.

  (** ** Before: everybody is somewhere *)
  Definition writer (l : option (busy HOp Op Res)) (a : Z) : Prop := exists b, l = Some b /\ baddr b = a /\ reads (bop_ b) = false.
  Definition I1 (s : lstate HRes Op Res) (b : astate Op Res) (lg : llog (HOp := HOp) (Op := Op) (Res := Res)) : Prop :=
    (forall a, valid a (avals b a)) /\ forall u, log_rel (s u) (lg u) /\ oinv (writer (lg u)) (s u) (aphases b u).
  Lemma silent1 s b b' lg : asteps sem b [] b' -> I1 s b lg -> I1 s b' lg.
  Proof.
    intros S. remember (@nil (event Op Res)) as l eqn:E. revert E. induction S as [b b' V P|b l0 b' e b'' S IH St]; intros E I.
    - destruct I as [A B]. split; intros; rewrite ?V, ?P; auto.
    - apply app_eq_nil in E as [-> ->]. destruct (IH eq_refl I) as [W T]. inversion St as [ |? ? t a i x' r P Sm U1a U2a| ]; subst. destruct U1a as [U1 U1'], U2a as [U2 U2'].
      destruct (T t) as [Lt Tt]. rewrite P in Tt. destruct (o_effect _ _ _ _ _ _ _ Tt (W a) Sm) as (Vx & D). split.
      + intros y. destruct (Z.eq_dec y a) as [->|N]; [now rewrite U1|now rewrite U1'].
      + intros u. destruct (Nat.eq_dec u t) as [->|N]; [|rewrite U2' by assumption; apply T]. split; [exact Lt|]. rewrite U2. destruct D as [[_ D]|[_ D]]; [|exact D].
        eapply oinv_mono; [|exact D]. contradiction.
  Qed.
  Lemma o_call (Q : Z -> Prop) th bp a o c : oinv Q th bp -> th = LIdle -> code_of a o = Some c -> forall Q' : Z -> Prop, (reads o = false -> Q' a) -> oinv Q' (LRun a c) bp.
  Proof. intros I -> C Q' q. cbn in *. split; [exact I|]. left. exists o, []. split; [now apply codes_good|exact q]. Qed.
  Lemma o_inner (Q : Z -> Prop) a i k bp : oinv Q (LRun a (Ask i k)) bp -> oinv Q (LWait a k) (APending a i) /\ bp = AIdle.
  Proof. intros [E [U|(r & X)]]; [|discriminate X]. split; [|exact E]. cbn. left. eauto. Qed.
  Lemma o_answer (Q : Z -> Prop) a k r : oinv Q (LWait a k) (ADone r) -> oinv Q (LRun a (k r)) AIdle.
  Proof. intros [(i & E & _)|(r0 & E & D)]; [discriminate E|]. injection E as <-. cbn. auto. Qed.

  Lemma before ls : forall s b lg s' tr h bf, I1 s b lg -> layer_run code_of s ls = Some (s', tr) -> asteps sem b (inner_of tr ++ h) bf ->
    exists b', I1 s' b' (fold_left llog_step tr lg) /\ asteps sem b' h bf.
  Proof.
    induction ls as [|l ls IH]; intros s b lg s' tr h bf I R S; cbn [layer_run] in R.
    - injection R as <- <-. exists b. auto.
    - destruct (layer_step code_of s l) as [[s1 e]|] eqn:E; [|discriminate R]. destruct (layer_run code_of s1 ls) as [[s2 tr1]|] eqn:R1; [|discriminate R].
      injection R as <- <-. cbn [fold_left]. destruct l as [t a o|t|t r]; cbn [layer_step] in E; destruct (s t) as [|a' c|a' k] eqn:Es; try discriminate E.
      + destruct (code_of a o) as [c|] eqn:C; [|discriminate E]. injection E as <- <-. cbn [inner_of] in S. eapply IH; [|exact R1|exact S]. destruct I as [V T]. split; [exact V|].
        intros u. unfold lset, llog_step. destruct (Nat.eqb_spec u t) as [->|N]; [|apply T]. split; [cbn; eauto|]. eapply o_call; [apply T|exact Es|exact C|].
        intros Ro. eexists. split; [reflexivity|]. auto.
      + destruct c as [r|i k]; injection E as <- <-; cbn [inner_of app] in S.
        * eapply IH; [|exact R1|exact S]. destruct I as [V T]. split; [exact V|]. intros u. unfold lset, llog_step. destruct (Nat.eqb_spec u t) as [->|N]; [|apply T].
          destruct (T t) as [_ Tt]. rewrite Es in Tt. split; [reflexivity|exact (proj1 Tt)].
        * destruct (ClientProofs.asteps_cons _ _ _ _ _ S) as (b1 & b2 & S1 & S2 & S3). apply (silent1 _ _ _ _ S1) in I as [V T].
          inversion S2 as [? ? ? ? ? P V2 [U1 U2]| |]; subst. eapply IH; [|exact R1|exact S3]. split; [intros; now rewrite V2|].
          destruct (T t) as [Lt Tt]. rewrite Es in Lt, Tt. destruct Lt as (o & cs & Lt).
          intros u. unfold lset, llog_step. rewrite Lt. destruct (Nat.eqb_spec u t) as [->|N]; [|rewrite U2 by assumption; apply T]. rewrite U1. cbn [baddr bop_ bcalls].
          split; [cbn; eauto|]. apply (o_inner _ _ _ _ _) in Tt as [Tt _]. eapply oinv_mono; [|exact Tt]. intros x (bb & X & Y). rewrite Lt in X. injection X as <-. eexists. split; [reflexivity|exact Y].
      + injection E as <- <-. cbn [inner_of app] in S. destruct (ClientProofs.asteps_cons _ _ _ _ _ S) as (b1 & b2 & S1 & S2 & S3). apply (silent1 _ _ _ _ S1) in I as [V T].
        inversion S2 as [| |? ? ? ? P V2 [U1 U2]]; subst. eapply IH; [|exact R1|exact S3]. split; [intros; now rewrite V2|].
        destruct (T t) as [Lt Tt]. rewrite Es in Lt, Tt. rewrite P in Tt. destruct Lt as (o & cs & i & Lt).
        intros u. unfold lset, llog_step. rewrite Lt. destruct (Nat.eqb_spec u t) as [->|N]; [|rewrite U2 by assumption; apply T]. rewrite U1.
        split; [cbn; eauto|]. apply o_answer in Tt. eapply oinv_mono; [|exact Tt]. intros x (bb & X & Y). rewrite Lt in X. injection X as <-. eexists. split; [reflexivity|exact Y].
  Qed.

  (** ** During: thread [T], inside an operation on [A] *)
  Variables (T : nat) (A : Z).
  Definition bound (b : astate Op Res) (last : option Z) (m S : nat) : Prop :=
    match last with None => (m <= S)%nat | Some v => (m + (if (avals b A =? v)%Z then 0 else 1) <= 1 + S)%nat end.
  (** [n]: answers so far, [p]: spurious ones, [m]: values seen, [S]: changes by others. *)
  Definition sinv (b : astate Op Res) (th : lthread HRes Op Res) (bp : aphase Op Res) (cur : option Op) (n p S : nat) : Prop :=
    exists (m : nat) (last : option Z),
    match th with
    | LIdle => False
    | LRun a c => a = A /\ bp = AIdle /\ cur = None /\
        ((und a c /\ prog a last c /\ (n <= m + p)%nat /\ bound b last m S) \/ ((exists r, c = Give r) /\ (n <= m + 1 + p)%nat /\ (m <= 1 + S)%nat))
    | LWait a k => a = A /\ exists i, cur = Some i /\
        ((bp = APending a i /\ und a (Ask i k) /\ prog a last (Ask i k) /\ (n <= m + p)%nat /\ bound b last m S) \/
         exists r, bp = ADone r /\
         (((spur i r = true /\ (n <= m + p)%nat \/ (n + 1 <= m + p)%nat) /\ und a (k r) /\ prog a last (k r) /\ bound b last m S) \/
          ((exists rr, k r = Give rr) /\ (n <= m + p)%nat /\ (m <= 1 + S)%nat)))
    end.
  Lemma bound_le b last m S : bound b last m S -> (m <= 1 + S)%nat.
  Proof. destruct last as [v|]; cbn; [destruct (avals b A =? v)|]; lia. Qed.
  Lemma bound_same b b' last m S : avals b' A = avals b A -> bound b last m S -> bound b' last m S.
  Proof. intros E. destruct last; cbn; [now rewrite E|auto]. Qed.
  Lemma bound_more b b' last m S : bound b last m S -> bound b' last m (1 + S).
  Proof. destruct last as [v|]; cbn; [|auto]. destruct (avals b A =? v), (avals b' A =? v); lia. Qed.
  Lemma sinv_change (b b' : astate Op Res) th bp cur n p S S' :
    (forall last m, bound b last m S -> bound b' last m S') -> (S <= S')%nat -> sinv b th bp cur n p S -> sinv b' th bp cur n p S'.
  Proof.
    intros H L (m & last & I). exists m, last. destruct th as [|a c|a k]; [exact I| |].
    - destruct I as (E1 & E2 & E3 & [(U & P & N & B)|(G & N & B)]); repeat (split; [assumption|]); [left; auto|right; split; [exact G|lia]].
    - destruct I as (E1 & i & E2 & [(E3 & U & P & N & B)|(r & E3 & [(N & U & P & B)|(G & N & B)])]); (split; [assumption|]); exists i; (split; [assumption|]).
      + left. auto 8.
      + right. exists r. split; [assumption|]. left. auto.
      + right. exists r. split; [assumption|]. right. split; [exact G|lia].
  Qed.
  Definition I2 (s : lstate HRes Op Res) (b : astate Op Res) (cur : option Op) (n p B : nat) : Prop :=
    (forall a, valid a (avals b a)) /\ exists S P, (S + length P <= B)%nat /\ sinv b (s T) (aphases b T) cur n p S /\
    forall u, u <> T -> oinv (fun a => a = A -> In u P) (s u) (aphases b u).
  Lemma remove_shorter u (P : list nat) : In u P -> (length (remove Nat.eq_dec u P) < length P)%nat.
  Proof. intros H. now apply remove_length_lt. Qed.

  Lemma silent2_1 s b b' cur n p B : astep sem b [] b' -> I2 s b cur n p B -> I2 s b' cur n p B.
  Proof.
    intros St (W & S & P & Le & Si & Th). inversion St as [ |? ? t a i x' r Ph Sm U1a U2a| ]; subst. destruct U1a as [U1 U1'], U2a as [U2 U2'].
    destruct (Nat.eq_dec t T) as [->|N].
    - (* our own *)
      rewrite Ph in Si. destruct Si as (m & last & Si). destruct (s T) as [|a0 c|a0 k] eqn:Es; [contradiction Si|destruct Si as (_ & E & _); discriminate E|].
      destruct Si as (-> & j & Ec & [(E & (o & cs & G) & Pr & Nn & Bd)|(r0 & E & _)]); [|discriminate E]. injection E as -> <-.
      pose proof (good_step _ _ _ _ _ _ _ _ _ G) as [_ Gs]. destruct (Gs _ _ _ (W A) Sm) as [Vx Gd]. pose proof (prog_unfold _ _ _ Pr _ _ _ (W A) Sm) as Ps.
      assert (V' : forall y, valid y (avals b' y)) by (intros y; destruct (Z.eq_dec y A) as [->|Ny]; [now rewrite U1|now rewrite U1']).
      split; [exact V'|]. exists S, P. split; [exact Le|]. split; [|intros u Nu; rewrite U2' by assumption; apply Th; exact Nu]. rewrite U2, Es.
      assert (D : (exists rr, k r = Give rr) \/ (x' = avals b A /\ und A (k r)) /\ (last <> Some (avals b A) \/ spur i r = true) /\ prog A (Some (avals b A)) (k r)).
      { destruct Gd as [(rr & K & _)|[E Gr]]; [left; eauto|]. destruct Ps as [K|[Q Pr']]; [now left|]. right. split; [split; [exact E|]|split; assumption]. exists o, ((i, r) :: cs). exact Gr. }
      destruct D as [K|((E & Ud) & Q & Pr')].
      + exists m, last. split; [reflexivity|]. exists i. split; [exact Ec|]. right. exists r. split; [reflexivity|]. right. split; [exact K|]. split; [exact Nn|]. now apply bound_le in Bd.
      + destruct (spur i r) eqn:Sp.
        * exists m, (Some (avals b A)). split; [reflexivity|]. exists i. split; [exact Ec|]. right. exists r. split; [reflexivity|]. left. split; [left; auto|]. split; [exact Ud|]. split; [exact Pr'|].
          cbn. rewrite U1, E, Z.eqb_refl. apply bound_le in Bd. lia.
        * destruct Q as [Q|Q]; [|discriminate Q].
          exists (1 + m)%nat, (Some (avals b A)). split; [reflexivity|]. exists i. split; [exact Ec|]. right. exists r. split; [reflexivity|]. left. split; [right; lia|]. split; [exact Ud|]. split; [exact Pr'|].
          cbn. rewrite U1, E, Z.eqb_refl. destruct last as [v|]; cbn in Bd; [|lia].
          destruct (Z.eqb_spec (avals b A) v) as [Ev|_]; [elim Q; now rewrite Ev|lia].
    - (* another thread's *)
      pose proof (Th t N) as Tt. rewrite Ph in Tt. destruct (o_effect _ _ _ _ _ _ _ Tt (W a) Sm) as (Vx & D).
      assert (V' : forall y, valid y (avals b' y)) by (intros y; destruct (Z.eq_dec y a) as [->|Ny]; [now rewrite U1|now rewrite U1']).
      split; [exact V'|]. destruct (Z.eq_dec (avals b' A) (avals b A)) as [Eq|Ne].
      + exists S, P. split; [exact Le|]. split.
        * rewrite U2' by auto. eapply sinv_change; [|apply Nat.le_refl|exact Si]. intros last m. now apply bound_same.
        * intros u Nu. destruct (Nat.eq_dec u t) as [->|Nt]; [|rewrite U2' by assumption; now apply Th]. rewrite U2. destruct D as [[_ D]|[_ D]]; [|exact D].
          apply oinv_mono with (Q := fun _ => False); [contradiction|exact D].
      + assert (Ea : a = A) by (destruct (Z.eq_dec a A) as [|Na]; [assumption|]; elim Ne; apply U1'; congruence). subst a.
        destruct D as [[Qa D]|[E _]]; [|elim Ne; now rewrite U1]. exists (1 + S)%nat, (remove Nat.eq_dec t P). pose proof (remove_shorter t P (Qa eq_refl)).
        split; [lia|]. split.
        * rewrite U2' by auto. eapply sinv_change; [|apply Nat.le_succ_diag_r|exact Si]. intros last m. apply bound_more.
        * intros u Nu. destruct (Nat.eq_dec u t) as [->|Nt].
          { rewrite U2. apply oinv_mono with (Q := fun _ => False); [contradiction|exact D]. }
          { rewrite U2' by assumption. eapply oinv_mono; [|apply (Th u Nu)]. cbn. intros a H1 H2. apply in_in_remove; auto. }
  Qed.
  Lemma silent2 s b b' cur n p B : asteps sem b [] b' -> I2 s b cur n p B -> I2 s b' cur n p B.
  Proof.
    intros S. remember (@nil (event Op Res)) as l eqn:E. revert E. induction S as [b b' V Ph|b l0 b' e b'' S IH St]; intros E I.
    - destruct I as (W & S & P & Le & Si & Th). split; [intros; rewrite V; auto|]. exists S, P. split; [exact Le|]. rewrite Ph. split.
      + eapply sinv_change; [|apply Nat.le_refl|exact Si]. intros last m. apply bound_same. apply V.
      + intros u N. rewrite Ph. now apply Th.
    - apply app_eq_nil in E as [-> ->]. eapply silent2_1; [exact St|]. now apply IH.
  Qed.
  Lemma I2_num s b cur n p B n' p' B' : I2 s b cur n p B -> n = n' -> p = p' -> B = B' -> I2 s b cur n' p' B'.
  Proof. now intros H <- <- <-. Qed.
  Lemma during_I ls : forall s b cur n p B s' tr h bf, I2 s b cur n p B -> layer_run code_of s ls = Some (s', tr) -> asteps sem b (inner_of tr ++ h) bf ->
    (forall r, ~ In (Outer (Return T r)) tr) ->
    exists b', I2 s' b' (doing T cur tr) (n + answers T tr) (p + spurious spur T cur tr) (B + rivals reads A T tr) /\ asteps sem b' h bf.
  Proof.
    induction ls as [|l ls IH]; intros s b cur n p B s' tr h bf I R S NR; cbn [layer_run] in R.
    - injection R as <- <-. exists b. split; [|exact S]. eapply I2_num; [exact I| | |]; cbn; lia.
    - destruct (layer_step code_of s l) as [[s1 e]|] eqn:E; [|discriminate R]. destruct (layer_run code_of s1 ls) as [[s2 tr1]|] eqn:R1; [|discriminate R].
      injection R as <- <-. assert (NR1 : forall r, ~ In (Outer (Return T r)) tr1) by (intros r H; apply (NR r); right; exact H).
      destruct l as [t a o|t|t r]; cbn [layer_step] in E; destruct (s t) as [|a' c|a' k] eqn:Es; try discriminate E.
      + destruct (code_of a o) as [c|] eqn:C; [|discriminate E]. injection E as <- <-. cbn [inner_of app answers rivals spurious doing] in *.
        destruct I as (W & S1 & P & Le & Si & Th). destruct (Nat.eq_dec t T) as [->|N]; [destruct Si as (m & last & Si); rewrite Es in Si; contradiction Si|].
        rewrite (proj2 (Nat.eqb_neq t T) N). cbn [negb andb].
        destruct (Z.eqb_spec a A) as [->|Na]; [destruct (reads o) eqn:Ro|]; cbn [negb andb].
        * apply (IH (lset s t (LRun A c)) b cur n p B s2 tr1 h bf); [|exact R1|exact S|exact NR1]. split; [exact W|]. exists S1, P. split; [exact Le|]. split.
          { unfold lset. rewrite (proj2 (Nat.eqb_neq T t)) by auto. exact Si. }
          intros u Nu. unfold lset. destruct (Nat.eqb_spec u t) as [->|Nt]; [|now apply Th].
          eapply o_call; [apply (Th t N)|exact Es|exact C|]. intros X. congruence.
        * enough (exists b', I2 s2 b' (doing T cur tr1) (n + answers T tr1) (p + spurious spur T cur tr1) (1 + B + rivals reads A T tr1) /\ asteps sem b' h bf) as (b' & Y & Z1) by (exists b'; split; [eapply I2_num; [exact Y| | |]; lia|exact Z1]).
          apply (IH (lset s t (LRun A c)) b cur n p (1 + B)%nat s2 tr1 h bf); [|exact R1|exact S|exact NR1]. split; [exact W|]. exists S1, (t :: P). split; [cbn [length]; lia|]. split.
          { unfold lset. rewrite (proj2 (Nat.eqb_neq T t)) by auto. exact Si. }
          intros u Nu. unfold lset. destruct (Nat.eqb_spec u t) as [->|Nt].
          { eapply o_call; [apply (Th t N)|exact Es|exact C|]. intros _ _. now left. }
          eapply oinv_mono; [|apply (Th u Nu)]. cbn. auto.
        * apply (IH (lset s t (LRun a c)) b cur n p B s2 tr1 h bf); [|exact R1|exact S|exact NR1]. split; [exact W|]. exists S1, P. split; [exact Le|]. split.
          { unfold lset. rewrite (proj2 (Nat.eqb_neq T t)) by auto. exact Si. }
          intros u Nu. unfold lset. destruct (Nat.eqb_spec u t) as [->|Nt]; [|now apply Th].
          eapply o_call; [apply (Th t N)|exact Es|exact C|]. intros _ X. contradiction.
      + destruct c as [r|i k]; injection E as <- <-; cbn [inner_of app answers rivals spurious doing] in *.
        * destruct (Nat.eq_dec t T) as [->|N]; [elim (NR r); left; reflexivity|].
          apply (IH (lset s t LIdle) b cur n p B s2 tr1 h bf); [|exact R1|exact S|exact NR1]. destruct I as (W & S1 & P & Le & Si & Th). split; [exact W|]. exists S1, P. split; [exact Le|]. split.
          { unfold lset. rewrite (proj2 (Nat.eqb_neq T t)) by auto. exact Si. }
          intros u Nu. unfold lset. destruct (Nat.eqb_spec u t) as [->|Nt]; [|now apply Th]. pose proof (Th t N) as Tt. rewrite Es in Tt. exact (proj1 Tt).
        * destruct (ClientProofs.asteps_cons _ _ _ _ _ S) as (b1 & b2 & Sa & Sb & Sc). apply (silent2 _ _ _ _ _ _ _ Sa) in I as (W & S1 & P & Le & Si & Th).
          inversion Sb as [? ? ? ? ? Ph V2 [U1 U2]| |]; subst.
          destruct (Nat.eqb_spec t T) as [->|N].
          { apply (IH (lset s T (LWait a' k)) b2 (Some i) n p B s2 tr1 h bf); [|exact R1|exact Sc|exact NR1]. split; [intros; now rewrite V2|]. exists S1, P. split; [exact Le|]. split.
            - unfold lset. rewrite Nat.eqb_refl, U1. rewrite Es in Si. destruct Si as (m & last & -> & _ & _ & [(Ud & Pr & Nn & Bd)|((r & X) & _)]); [|discriminate X].
              exists m, last. split; [reflexivity|]. exists i. split; [reflexivity|]. left. split; [reflexivity|]. split; [exact Ud|]. split; [exact Pr|]. split; [exact Nn|]. eapply bound_same; [|exact Bd]. apply V2.
            - intros u Nu. unfold lset. rewrite (proj2 (Nat.eqb_neq u T) Nu), U2 by assumption. now apply Th. }
          { apply (IH (lset s t (LWait a' k)) b2 cur n p B s2 tr1 h bf); [|exact R1|exact Sc|exact NR1]. split; [intros; now rewrite V2|]. exists S1, P. split; [exact Le|]. split.
            - unfold lset. rewrite (proj2 (Nat.eqb_neq T t)), U2 by auto. eapply sinv_change; [|apply Nat.le_refl|exact Si]. intros last m. apply bound_same, V2.
            - intros u Nu. unfold lset. destruct (Nat.eqb_spec u t) as [->|Nt]; [|rewrite U2 by assumption; now apply Th]. rewrite U1. pose proof (Th t N) as Tt. rewrite Es in Tt. apply (o_inner _ _ _ _ _ Tt). }
      + injection E as <- <-. cbn [inner_of app answers rivals spurious doing] in *.
        destruct (ClientProofs.asteps_cons _ _ _ _ _ S) as (b1 & b2 & Sa & Sb & Sc). apply (silent2 _ _ _ _ _ _ _ Sa) in I as (W & S1 & P & Le & Si & Th).
        inversion Sb as [| |? ? ? ? Ph V2 [U1 U2]]; subst.
        destruct (Nat.eqb_spec t T) as [->|N].
        * rewrite Es, Ph in Si. destruct Si as (m & last & -> & i & -> & [(X & _)|(r0 & X & Si)]); [discriminate X|]. injection X as <-.
          set (dp := if spur i r then 1%nat else 0%nat).
          enough (exists b', I2 s2 b' (doing T None tr1) (n + 1 + answers T tr1) (p + dp + spurious spur T None tr1) (B + rivals reads A T tr1) /\ asteps sem b' h bf) as (b' & Y & Z1) by (exists b'; split; [eapply I2_num; [exact Y| | |]; unfold dp; lia|exact Z1]).
          apply (IH (lset s T (LRun A (k r))) b2 None (n + 1)%nat (p + dp)%nat B s2 tr1 h bf); [|exact R1|exact Sc|exact NR1]. split; [intros; now rewrite V2|]. exists S1, P. split; [exact Le|]. split.
          { unfold lset. rewrite Nat.eqb_refl, U1. exists m, last. split; [reflexivity|]. split; [reflexivity|]. split; [reflexivity|].
            destruct Si as [(Nn & Ud & Pr & Bd)|(G & Nn & Bd)].
            - left. split; [exact Ud|]. split; [exact Pr|]. split; [|eapply bound_same; [|exact Bd]; apply V2]. unfold dp. destruct Nn as [[-> Nn]|Nn]; lia.
            - right. split; [exact G|]. lia. }
          intros u Nu. unfold lset. rewrite (proj2 (Nat.eqb_neq u T) Nu), U2 by assumption. now apply Th.
        * apply (IH (lset s t (LRun a' (k r))) b2 cur n p B s2 tr1 h bf); [|exact R1|exact Sc|exact NR1]. split; [intros; now rewrite V2|]. exists S1, P. split; [exact Le|]. split.
          { unfold lset. rewrite (proj2 (Nat.eqb_neq T t)), U2 by auto. eapply sinv_change; [|apply Nat.le_refl|exact Si]. intros last m. apply bound_same, V2. }
          intros u Nu. unfold lset. destruct (Nat.eqb_spec u t) as [->|Nt]; [|rewrite U2 by assumption; now apply Th]. rewrite U1. pose proof (Th t N) as Tt. rewrite Es, Ph in Tt. now apply o_answer.
  Qed.
  Lemma I2_le s b cur n p B : I2 s b cur n p B -> (n <= 2 + B + p)%nat.
  Proof.
    intros (W & S1 & P & Le & (m & last & Si) & Th).
      assert (K : (n <= 2 + S1 + p)%nat).
      { destruct (s T) as [|a c|a k]; [contradiction Si| |].
        - destruct Si as (_ & _ & _ & [(_ & _ & N & Bd)|(_ & N & Bd)]); [apply bound_le in Bd|]; lia.
        - destruct Si as (_ & i & _ & [(_ & _ & _ & N & Bd)|(r & _ & [(N & _ & _ & Bd)|(_ & N & Bd)])]); [apply bound_le in Bd; lia|apply bound_le in Bd; lia|lia]. }
    lia.
  Qed.
  Lemma during ls s b cur n p B s' tr bf : I2 s b cur n p B -> layer_run code_of s ls = Some (s', tr) -> asteps sem b (inner_of tr) bf ->
    (forall r, ~ In (Outer (Return T r)) tr) -> (n + answers T tr <= 2 + (B + rivals reads A T tr) + (p + spurious spur T cur tr))%nat.
  Proof.
    intros I R S NR. rewrite <- (app_nil_r (inner_of tr)) in S. destruct (during_I ls _ _ _ _ _ _ _ _ _ _ I R S NR) as (b' & I' & _). apply I2_le in I'. lia.
  Qed.
  (** Counting anew. *)
  Lemma restart s b cur n p B P : I2 s b cur n p B -> (forall u, u <> T -> s u <> LIdle -> In u P) -> I2 s b cur 0 0 (1 + length P).
  Proof.
    intros (W & S & P0 & _ & (m & last & Si) & Th) H. split; [exact W|]. exists 1%nat, P. split; [lia|]. split.
    - assert (B0 : bound b last 0 1) by (destruct last as [v|]; cbn; [destruct (avals b A =? v)|]; lia).
      assert (B1 : bound b last 1 1) by (destruct last as [v|]; cbn; [destruct (avals b A =? v)|]; lia).
      destruct (s T) as [|a c|a k]; [contradiction Si| |].
      + destruct Si as (E1 & E2 & E3 & [(U & Pr & _ & _)|(G & _ & _)]); exists 0%nat, last; (split; [exact E1|]); (split; [exact E2|]); (split; [exact E3|]).
        * left. split; [exact U|]. split; [exact Pr|]. split; [lia|exact B0].
        * right. split; [exact G|]. lia.
      + destruct Si as (E1 & i & E2 & [(E3 & U & Pr & _ & _)|(r & E3 & [(_ & U & Pr & _)|(G & _ & _)])]).
        * exists 0%nat, last. split; [exact E1|]. exists i. split; [exact E2|]. left. split; [exact E3|]. split; [exact U|]. split; [exact Pr|]. split; [lia|exact B0].
        * exists 1%nat, last. split; [exact E1|]. exists i. split; [exact E2|]. right. exists r. split; [exact E3|]. left. split; [right; lia|]. split; [exact U|]. split; [exact Pr|exact B1].
        * exists 0%nat, last. split; [exact E1|]. exists i. split; [exact E2|]. right. exists r. split; [exact E3|]. right. split; [exact G|]. lia.
    - intros u N. specialize (Th u N). specialize (H u N). destruct (s u) as [|a c|a k]; [exact Th| |]; (eapply oinv_mono; [|exact Th]); intros x _ _; apply H; discriminate.
  Qed.
End Retry.
