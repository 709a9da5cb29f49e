(** * Running code with given answers from memory: shows that executions exist (examples for C31) *)
From Coq Require Import ZArith List Bool.
From Verif Require Import Words Spec WideSpec LoopModel AsmModel BlockModel TraceSpec TraceModel.
Import ListNotations.

Section Run.
  Context {C Res : Type}.
  Variable next : C -> action C Res.
  Variable ann : C -> bool -> list ev.
  (** [cs]: value read / spurious failure or success of a conditional store, one per memory instruction *)
  Fixpoint trun (fuel : nat) (cs : list (Z * bool)) (c : C) : option (list ev * Res) :=
    match fuel with
    | O => None
    | S k =>
      let go es cs' c' := match trun k cs' c' with Some (tr, r) => Some (es ++ tr, r) | None => None end in
      match next c with
      | ALocal c' => go (ann c false) cs c'
      | ARead _ _ _ f | ALoadLinked _ _ _ _ f =>
        match cs with (v, _) :: cs' => go (ann c false) cs' (f v) | [] => None end
      | AAtomic _ g f =>
        match cs with
        | (x, sp) :: cs' => go (ann c (match fst (g sp x) with Some _ => true | None => false end)) cs' (f (snd (g sp x)))
        | [] => None
        end
      | AStoreCond _ _ f => match cs with (_, ok) :: cs' => go (ann c ok) cs' (f ok) | [] => None end
      | ADone r => Some ([], r)
      | AStuck => None
      end
    end.
  Lemma traces_cons c es c1 : tstep next ann c es c1 -> forall tr c', traces next ann c1 tr c' -> traces next ann c (es ++ tr) c'.
  Proof.
    intros H tr c' T. induction T as [|tr c2 es2 c3 T IH H2].
    - rewrite app_nil_r. change es with ([] ++ es). eapply t_snoc; [apply t_nil|exact H].
    - rewrite app_assoc. eapply t_snoc; [exact IH|exact H2].
  Qed.
  Lemma trun_completes fuel : forall cs c tr r, trun fuel cs c = Some (tr, r) -> completes next ann c tr r.
  Proof.
    induction fuel as [|k IH]; intros cs c tr r Q; [discriminate Q|]. cbn in Q.
    assert (G : forall es cs' c', tstep next ann c es c' ->
      match trun k cs' c' with Some (tr, r) => Some (es ++ tr, r) | None => None end = Some (tr, r) ->
      completes next ann c tr r).
    { intros es cs' c' H Q'. destruct (trun k cs' c') as [[tr' r']|] eqn:E; [|discriminate Q'].
      injection Q' as <- <-. destruct (IH _ _ _ _ E) as (c2 & T & D). exists c2. split; [|exact D].
      eapply traces_cons; eauto. }
    destruct (next c) as [c'|a w p f|a g f|b a w p f|a v f|r'|] eqn:E; try discriminate Q.
    - eapply G; [|exact Q]. apply t_local. exact E.
    - destruct cs as [|[v x] cs]; [discriminate Q|]. eapply G; [|exact Q]. eapply t_read. exact E.
    - destruct cs as [|[v sp] cs]; [discriminate Q|]. eapply G; [|exact Q]. eapply t_atomic. exact E.
    - destruct cs as [|[v x] cs]; [discriminate Q|]. eapply G; [|exact Q]. eapply t_linked. exact E.
    - destruct cs as [|[v0 ok] cs]; [discriminate Q|]. eapply G; [|exact Q]. eapply t_cond. exact E.
    - injection Q as <- <-. exists c. split; [apply t_nil|exact E].
  Qed.
  Definition run_of (fuel : nat) (cs : list (Z * bool)) (c : option C) : option (list ev * Res) :=
    match c with Some c => trun fuel cs c | None => None end.
  Lemma run_of_completes fuel cs code tr r : run_of fuel cs code = Some (tr, r) ->
    exists c, code = Some c /\ completes next ann c tr r.
  Proof. destruct code as [c|]; intros Q; [|discriminate Q]. exists c. split; [reflexivity|]. unfold run_of in Q. exact (trun_completes fuel cs c tr r Q). Qed.
End Run.
