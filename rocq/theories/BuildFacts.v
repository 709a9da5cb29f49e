(** * Lemmas about the build script's tests, and about target features *)
From Coq Require Import ZArith String List Bool Lia Ascii.
From Verif Require Import StrModel StrFacts VersionModel VersionSpec VersionProofs RustflagsModel RustflagsSpec RustflagsProofs
  BuildModel BuildSpec.
Import ListNotations.
Local Open Scope string_scope.
Local Open Scope list_scope.
Local Open Scope Z_scope.

Lemma is_iff : forall s l, is s l = true <-> s = lit l.
Proof. intros. unfold is. apply str_eqb_eq. Qed.
Lemma one_of_iff : forall s l, one_of s l = true <-> In s (map lit l).
Proof.
  intros. unfold one_of. rewrite existsb_exists, in_map_iff. split; intros (x & A & B); exists x.
  - apply is_iff in B. auto.
  - split; [assumption|]. apply is_iff. auto.
Qed.
Lemma in_when : forall e b n, In e (when b n) <-> b = true /\ e = (n, None).
Proof.
  intros. unfold when. destruct b; simpl; split.
  - intros [H|[]]. auto.
  - intros [_ H]. auto.
  - intros [].
  - intros [H _]. discriminate.
Qed.
Lemma in_emit : forall e b n, In e (emit_target_feature_fallback n b) <-> b = true /\ e = ("portable_atomic_target_feature", Some n).
Proof.
  intros. unfold emit_target_feature_fallback. destruct b; simpl; split.
  - intros [H|[]]. auto.
  - intros [_ H]. auto.
  - intros [].
  - intros [H _]. discriminate.
Qed.
Lemma probe_iff : forall v m y mo d, probe v m y mo d = true <-> at_least v m y mo d.
Proof. exact probe_spec. Qed.
Lemma noprobe_iff : forall v m y mo d, negb (probe v m y mo d) = true <-> ~ at_least v m y mo d.
Proof.
  intros. rewrite <- probe_iff. destruct (probe v m y mo d); simpl; split; intros H; try congruence; try discriminate.
Qed.
Lemma at_least_dec : forall v m y mo d, at_least v m y mo d \/ ~ at_least v m y mo d.
Proof. intros. rewrite <- probe_iff. destruct (probe v m y mo d); [left | right]; congruence. Qed.

Lemma the_version_iff : forall i v, the_version i = Some v -> compiler i v.
Proof.
  intros i v. unfold the_version, compiler. destruct (rustc i); [intros [= ->]; auto|].
  destruct (deny_warnings i); [discriminate|]. intros [= <-]. auto.
Qed.

(** [lit] is injective *)
Lemma lit_inj : forall a b, lit a = lit b -> a = b.
Proof.
  unfold lit. induction a as [|x a IH]; destruct b as [|y b]; simpl; intros H; try discriminate; [reflexivity|].
  injection H as H1 H2. f_equal.
  - apply Nat2Z.inj in H1. rewrite <- (ascii_nat_embedding x), <- (ascii_nat_embedding y). congruence.
  - apply IH. exact H2.
Qed.

(** ** Target features as bits *)
Section Graph.
  Variable g : list (string * string).
  Definition mem (n : str) (l : list string) : bool := existsb (fun s => str_eqb n (lit s)) l.
  Lemma mem_iff : forall n l, mem n l = true <-> exists s, In s l /\ n = lit s.
  Proof.
    intros. unfold mem. rewrite existsb_exists. split; intros (s & A & B); exists s; (split; [exact A|]).
    - apply str_eqb_eq. exact B.
    - apply str_eqb_eq. exact B.
  Qed.
  Definition smem (n : string) (l : list string) : bool := existsb (String.eqb n) l.
  Lemma smem_iff : forall n l, smem n l = true <-> In n l.
  Proof.
    intros. unfold smem. rewrite existsb_exists. split.
    - intros (x & A & B). apply String.eqb_eq in B as ->. exact A.
    - intros A. exists n. split; [exact A | apply String.eqb_refl].
  Qed.
  (** what implies a member of [l], what is implied by one: one more step *)
  Definition ups (l : list string) : list string := l ++ map fst (filter (fun e => smem (snd e) l) g).
  Definition downs (l : list string) : list string := l ++ map snd (filter (fun e => smem (fst e) l) g).
  Fixpoint iter (k : nat) (h : list string -> list string) (l : list string) : list string :=
    match k with O => l | S k => iter k h (h l) end.
  Definition up_closed (l : list string) : bool := forallb (fun e => negb (smem (snd e) l) || smem (fst e) l) g.
  Definition down_closed (l : list string) : bool := forallb (fun e => negb (smem (fst e) l) || smem (snd e) l) g.

  Lemma implies_trans : forall a b c, implies g a b -> implies g b c -> implies g a c.
  Proof. intros a b c H. induction H; intros; [assumption|]. eapply implies_step; eauto. Qed.

  Lemma ups_sound : forall f k l, (forall s, In s l -> implies g (lit s) f) -> forall s, In s (iter k ups l) -> implies g (lit s) f.
  Proof.
    induction k as [|k IH]; simpl; intros l H s I; [auto|]. eapply IH; [|exact I]. intros t J. unfold ups in J.
    apply in_app_or in J as [J|J]; [auto|]. apply in_map_iff in J as ((a & b) & E & J). simpl in E. subst a.
    apply filter_In in J as [J M]. apply smem_iff in M. eapply implies_step; [exact J|]. apply H. exact M.
  Qed.
  Lemma downs_sound : forall f k l, (forall s, In s l -> implies g f (lit s)) -> forall s, In s (iter k downs l) -> implies g f (lit s).
  Proof.
    induction k as [|k IH]; simpl; intros l H s I; [auto|]. eapply IH; [|exact I]. intros t J. unfold downs in J.
    apply in_app_or in J as [J|J]; [auto|]. apply in_map_iff in J as ((a & b) & E & J). simpl in E. subst b.
    apply filter_In in J as [J M]. apply smem_iff in M. eapply implies_trans; [apply H; exact M|].
    eapply implies_step; [exact J | apply implies_refl].
  Qed.
  Lemma iter_ups_in : forall k l s, In s l -> In s (iter k ups l).
  Proof. induction k; simpl; intros; [assumption|]. apply IHk. apply in_or_app. auto. Qed.
  Lemma iter_downs_in : forall k l s, In s l -> In s (iter k downs l).
  Proof. induction k; simpl; intros; [assumption|]. apply IHk. apply in_or_app. auto. Qed.

  Lemma up_complete : forall l, up_closed l = true -> forall n f, implies g n f -> mem f l = true -> mem n l = true.
  Proof.
    intros l C n f H. induction H as [|a b c E H IH]; intros M; [exact M|]. specialize (IH M).
    apply mem_iff in IH as (s & I & Q). apply lit_inj in Q as <-.
    unfold up_closed in C. rewrite forallb_forall in C. specialize (C _ E). simpl in C.
    assert (X : smem b l = true) by (apply smem_iff; exact I). rewrite X in C. simpl in C. apply smem_iff in C.
    apply mem_iff. exists a. auto.
  Qed.
  Lemma down_complete : forall l, down_closed l = true -> forall n f, implies g f n -> mem f l = true -> mem n l = true.
  Proof.
    intros l C n f H. induction H as [|a b c E H IH]; intros M; [exact M|]. apply IH.
    apply mem_iff in M as (s & I & Q). apply lit_inj in Q as <-.
    unfold down_closed in C. rewrite forallb_forall in C. specialize (C _ E). simpl in C.
    assert (X : smem a l = true) by (apply smem_iff; exact I). rewrite X in C. simpl in C. apply smem_iff in C.
    apply mem_iff. exists b. auto.
  Qed.

  Definition above (f : string) : list string := iter 10 ups [f].
  Definition below (f : string) : list string := iter 10 downs [f].
  Definition closed (f : string) : bool := up_closed (above f) && down_closed (below f).
  Lemma above_iff : forall f n, closed f = true -> (implies g n (lit f) <-> mem n (above f) = true).
  Proof.
    intros f n C. apply andb_true_iff in C as [C _]. split.
    - intros H. eapply up_complete; [exact C | exact H|]. apply mem_iff. exists f. split; [apply iter_ups_in; simpl; auto | reflexivity].
    - intros H. apply mem_iff in H as (s & I & ->). eapply ups_sound; [|exact I]. intros t [<-|[]]. apply implies_refl.
  Qed.
  Lemma below_iff : forall f n, closed f = true -> (implies g (lit f) n <-> mem n (below f) = true).
  Proof.
    intros f n C. apply andb_true_iff in C as [_ C]. split.
    - intros H. eapply down_complete; [exact C | exact H|]. apply mem_iff. exists f. split; [apply iter_downs_in; simpl; auto | reflexivity].
    - intros H. apply mem_iff in H as (s & I & ->). eapply downs_sound; [|exact I]. intros t [<-|[]]. apply implies_refl.
  Qed.

  Definition bit (f : string) (st : bool) (flag : bool * str) : bool :=
    if fst flag then mem (snd flag) (above f) || st else st && negb (mem (snd flag) (below f)).
  Lemma enabled_bits : forall f, closed f = true -> forall flags (base : str -> Prop) b, (base (lit f) <-> b = true) ->
    (enabled g base flags (lit f) <-> fold_left (bit f) flags b = true).
  Proof.
    intros f C. unfold enabled. induction flags as [|[e n] flags IH]; simpl; intros base b B; [exact B|].
    apply IH. unfold switched, bit. cbn [fst snd]. destruct e.
    - rewrite orb_true_iff, <- above_iff, B by assumption. reflexivity.
    - rewrite andb_true_iff, negb_true_iff, below_iff, B by assumption. rewrite <- not_true_iff_false. reflexivity.
  Qed.
End Graph.

Lemma fold_proj : forall S F (proj : S -> bool) (step : S -> F -> S) (h : bool -> F -> bool),
  (forall s f, proj (step s f) = h (proj s) f) -> forall l s, proj (fold_left step l s) = fold_left h l (proj s).
Proof. intros S F proj step h H. induction l as [|f l IH]; simpl; intros s; [reflexivity|]. rewrite IH, H. reflexivity. Qed.
