(** What one thread inside a block can have changed of its own registers, whatever memory answers. *)
From Coq Require Import ZArith List Bool Lia PeanoNat.
From Verif Require Import Words Spec LoopModel AsmModel BlockModel.
Import ListNotations.
Open Scope Z_scope.

(** One instruction of one thread, with any answer from memory. *)
Inductive steps1 {C Res : Type} (next : C -> action C Res) : C -> C -> Prop :=
| s1_local c c' : next c = ALocal c' -> steps1 next c c'
| s1_read c a k p kont v : next c = ARead a k p kont -> steps1 next c (kont v)
| s1_atomic c a f kont sp x : next c = AAtomic a f kont -> steps1 next c (kont (snd (f sp x)))
| s1_linked c b a k p kont v : next c = ALoadLinked b a k p kont -> steps1 next c (kont v)
| s1_cond c a w kont b : next c = AStoreCond a w kont -> steps1 next c (kont b).
Inductive steps {C Res : Type} (next : C -> action C Res) : C -> C -> Prop :=
| ss_refl c : steps next c c
| ss_step c c' c'' : steps next c c' -> steps1 next c' c'' -> steps next c c''.

Section Clobber.
  Context {I J M S Res : Type}.
  Variable exec1 : I -> S -> S.
  Variable test : J -> S -> bool.
  Variable access : M -> S -> action S Res.
  Variable keeps : S -> S -> Prop.
  Hypothesis Krefl : forall s, keeps s s.
  Hypothesis Ktrans : forall s1 s2 s3, keeps s1 s2 -> keeps s2 s3 -> keeps s1 s3.
  Definition acc_keeps (m : M) : Prop := forall s, match access m s with
    | ALocal s' => keeps s s'
    | ARead _ _ _ f => forall v, keeps s (f v)
    | AAtomic _ g f => forall sp x, keeps s (f (snd (g sp x)))
    | ALoadLinked _ _ _ _ f => forall v, keeps s (f v)
    | AStoreCond _ _ f => forall b, keeps s (f b)
    | ADone _ | AStuck => True
    end.
  Definition i_keeps (b : binstr I J M) : Prop :=
    match b with BI i => forall s, keeps s (exec1 i s) | BJ _ _ => True | BM m => acc_keeps m end.
  Lemma step_keeps c c' : Forall i_keeps (bprog c) -> steps1 (bnext exec1 test access) c c' ->
    bprog c' = bprog c /\ keeps (bst c) (bst c').
  Proof.
    intros F H. rewrite Forall_forall in F.
    inversion H as [? ? E|? a k p kont v E|? a f kont sp x E|? b a k p kont v E|? a w kont b E]; subst; unfold bnext in E;
      destruct (nth_error (bprog c) (bpos c)) as [i|] eqn:N; try discriminate;
      apply nth_error_In in N; apply F in N; destruct i as [i|j n|m]; cbn [i_keeps] in N; try discriminate.
    - injection E as <-. cbn. auto.
    - injection E as <-. destruct (test j (bst c)); cbn; auto.
    - specialize (N (bst c)). destruct (access m (bst c)); try discriminate. injection E as <-. cbn. auto.
    - specialize (N (bst c)). destruct (access m (bst c)); try discriminate. injection E as <- <- <- <-. cbn. auto.
    - specialize (N (bst c)). destruct (access m (bst c)); try discriminate.
      injection E as <- E1 E2. subst. cbn. auto.
    - specialize (N (bst c)). destruct (access m (bst c)); try discriminate. injection E as <- <- <- <- <-. cbn. auto.
    - specialize (N (bst c)). destruct (access m (bst c)); try discriminate. injection E as <- <- <-. cbn. auto.
  Qed.
  Lemma steps_keep c c' : Forall i_keeps (bprog c) -> steps (bnext exec1 test access) c c' ->
    bprog c' = bprog c /\ keeps (bst c) (bst c').
  Proof.
    intros F H. induction H as [|c c' c'' H IH S1]; [auto|]. destruct (IH F) as [P K].
    destruct (step_keeps c' c'') as [P' K']; [now rewrite P|exact S1|]. split; [congruence|eauto].
  Qed.
End Clobber.
