(** Concrete assignments, for the examples of PropertiesRegs*.v. *)
From Coq Require Import ZArith List Bool Lia PeanoNat.
From Verif Require Import Words Spec WideSpec WordsFacts Halves LoopModel AsmModel BlockModel OrderingModel RegModel.
Import ListNotations.
Open Scope Z_scope.

Section Fill.
  Context {I J M S Res R : Type}.
  Variable A : isa I J M S Res R.
  Hypothesis RE : forall r q, reg_eq A r q = true <-> r = q.
  (** the inputs of [k] in their places, 77 elsewhere *)
  Definition filled (ops : list (R * operand)) (w : R -> nat) (k : option (bconf I J M S Res)) (n : nat) : Z :=
    match k, find (fun x => is_input (snd x) && (w (fst x) =? n)%nat) ops with
    | Some k, Some (r, _) => regs_of A (bst k) r
    | _, _ => 77
    end.
  Definition in_classb (o : operand) (n : nat) : bool := match oplace o with At k => (n =? k)%nat | Class c => c n end.
  Definition place_ok (ops : list (R * operand)) (w : R -> nat) : bool :=
    forallb (fun x => in_classb (snd x) (w (fst x))) ops &&
    forallb (fun x => forallb (fun y => reg_eq A (fst x) (fst y) || negb (w (fst x) =? w (fst y))%nat ||
      (may_share (snd x) (snd y) && negb (is_input (snd x) && is_input (snd y)))) ops) ops.
  Lemma place_ok_permitted ops w k0 k rest : place_ok ops w = true ->
    (forall r o, In (r, o) ops -> is_input o = true -> regs_of A (bst k) r = regs_of A (bst k0) r) ->
    permitted A ops k (mk_assignment w (filled ops w (Some k0)) rest).
  Proof.
    intros H E. unfold place_ok in H. apply andb_true_iff in H as [H1 H2]. rewrite forallb_forall in H1, H2.
    unfold permitted. cbn [where_is file0]. refine (conj _ (conj _ _)).
    - intros r o X. specialize (H1 _ X). cbn in H1. unfold in_classb in H1. unfold in_class.
      destruct (oplace o); [now apply Nat.eqb_eq|exact H1].
    - intros r o q p X Y N W. specialize (H2 _ X). rewrite forallb_forall in H2. specialize (H2 _ Y). cbn [fst snd] in H2.
      apply orb_true_iff in H2 as [H2|H2]; [apply orb_true_iff in H2 as [H2|H2]|].
      + apply RE in H2. contradiction.
      + apply negb_true_iff, Nat.eqb_neq in H2. contradiction.
      + now apply andb_true_iff in H2 as [H2 _].
    - intros r o X Y. unfold filled. destruct (find _ ops) as [[q p]|] eqn:F.
      + apply find_some in F as [F1 F2]. cbn [fst snd] in F2. apply andb_true_iff in F2 as [F2 F3]. apply Nat.eqb_eq in F3.
        specialize (H2 _ X). rewrite forallb_forall in H2. specialize (H2 _ F1). cbn [fst snd] in H2.
        apply orb_true_iff in H2 as [H2|H2]; [apply orb_true_iff in H2 as [H2|H2]|].
        * apply RE in H2. subst q. symmetry. eauto.
        * apply negb_true_iff, Nat.eqb_neq in H2. congruence.
        * apply andb_true_iff in H2 as [_ H2]. rewrite Y, F2 in H2. discriminate.
      + pose proof (find_none _ _ F _ X) as F'. cbn [fst snd] in F'. rewrite Y, Nat.eqb_refl in F'. discriminate.
  Qed.
End Fill.
