(** Short executions never wrap a version counter. *)
From Coq Require Import ZArith List Bool Lia PeanoNat.
From Verif Require Import Words Spec FallbackModel WeakMem WeakFacts WeakSpec WeakModel WeakInv WeakSim.
Import ListNotations.
Open Scope Z_scope.

Section P.
  Variable c : config.
  Local Notation mem_of s := (wmem (world_of s)).
  (** at most [n] messages everywhere *)
  Definition few (n : nat) (m : memory cloc) : Prop := forall x, exists l, (length l <= n)%nat /\ forall t, m x t <> None -> In t l.
  Lemma few_le n n' m : (n <= n')%nat -> few n m -> few n' m.
  Proof. intros L F x. destruct (F x) as (l & A & B). exists l. split; [lia|exact B]. Qed.
  Lemma few_set n m x t g : few n m -> few (S n) (mset cloc_eqb m x t g).
  Proof.
    intros F y. destruct (F y) as (l & A & B). exists (t :: l). split; [cbn; lia|]. intros u H. unfold mset in H.
    destruct (Z.eq_dec u t) as [Q|Q]; [left; congruence|right]. apply B. rewrite (proj2 (Z.eqb_neq u t) Q), andb_false_r in H. exact H.
  Qed.
  Lemma few_perform n a ts (w : world cloc) v r w' v' : few n (wmem w) -> perform cloc_eqb a ts w v = Some (r, w', v') -> few (S n) (wmem w').
  Proof.
    intros F P. assert (F' : few (S n) (wmem w)) by (eapply few_le; [|exact F]; lia).
    destruct a as [x aq|x k rl|x f aq rl|[| |]].
    - apply load_inv in P as (g & _ & _ & _ & -> & _). exact F'.
    - apply store_inv in P as (_ & _ & -> & _). now apply few_set.
    - apply rmw_inv in P as (g & _ & _ & _ & P). destruct (f (mval g)).
      + destruct P as (_ & -> & _). now apply few_set.
      + destruct P as (-> & _). exact F'.
    - cbn in P. injection P as _ <- _. exact F'.
    - cbn in P. injection P as _ <- _. exact F'.
    - cbn in P. injection P as _ <- _. exact F'.
  Qed.
  Lemma few_step n s l s' e : few n (mem_of s) -> wstep cloc_eqb (next c) (code c) Cl s l = Some (s', e) -> few (S n) (mem_of s').
  Proof.
    intros F H. assert (F' : few (S n) (mem_of s)) by (eapply few_le; [|exact F]; lia).
    destruct l as [T a o|T ts|T a ts]; cbn [wstep] in H; destruct (confs s T) as [p|]; try easy.
    - destruct (code c a o); [|easy]. injection H as <- _. exact F'.
    - destruct (next c p) as [a k|r].
      + destruct (perform _ _ _ _ _) as [[[v w] tv]|] eqn:P; [|easy]. injection H as <- _. eapply few_perform; eauto.
      + injection H as <- _. exact F'.
    - destruct (perform _ _ _ _ _) as [[[v w] tv]|] eqn:P; [|easy]. injection H as <- _. eapply few_perform; eauto.
  Qed.
  Lemma few_at_least n m x k (P : Z -> Prop) : few n m -> (forall t, P t -> m x t <> None) -> at_least k P -> k <= Z.of_nat n.
  Proof.
    intros F H (l & A & B & C). destruct (F x) as (l' & D & E). assert (length l <= length l')%nat; [|lia].
    apply NoDup_incl_length; [exact A|]. intros t Ht. rewrite Forall_forall in C. auto.
  Qed.
  Lemma short_never_lapped ls : forall n s, few n (mem_of s) -> Z.of_nat (n + length ls) <= (if wide c then 2 ^ 32 else 2 ^ 63) ->
    never_lapped c s ls.
  Proof.
    induction ls as [|l ls IH]; intros n s F L; [exact I|]. cbn [never_lapped length] in *. split.
    - destruct l as [| T ts|]; auto. intros Lap. unfold lapped in Lap. destruct (confs s T) as [[]|]; try easy.
      + destruct Lap as [W Lap]. rewrite W in L. eapply (few_at_least _ _ (Lo (lock_index a))) in Lap; [|exact F|].
        * lia.
        * intros t (_ & x & -> & _). easy.
      + destruct Lap as [W Lap]. rewrite W in L. eapply (few_at_least _ _ (Hi (lock_index a))) in Lap; [|exact F|].
        * lia.
        * now intros t [_ H].
    - destruct (wstep _ _ _ _ s l) as [[s' e]|] eqn:St; [|exact I]. apply (IH (S n)); [eapply few_step; eauto|]. lia.
  Qed.
  Theorem never_lapped_short vars own ls : Z.of_nat (length ls) < (if wide c then 2 ^ 32 else 2 ^ 63) -> never_lapped c (w_init c vars own) ls.
  Proof.
    intros L. apply (short_never_lapped ls 1); [|lia]. intros x. exists [0]. split; [cbn; lia|].
    intros t H. cbn in H. destruct (Z.eqb_spec t 0); [now left|easy].
  Qed.
End P.
