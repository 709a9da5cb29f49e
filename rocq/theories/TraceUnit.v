(** * Checking blocks whose registers do not matter (proofs for C31) *)
From Coq Require Import ZArith List Bool Lia.
From Verif Require Import Words Spec WideSpec LoopModel AsmModel BlockModel OrderingModel
  TraceSpec TraceModel TraceFacts TraceCheck TraceBackends.
From Verif Require PowerModel PowerProofs S390xModel Aarch64Model X86Model ZacasModel KuserModel.
Import ListNotations.

(** ** Blocks whose registers do not matter *)
Section Unit.
  Context {I J M S : Type}.
  Variables (exec1 : I -> S -> S) (test : J -> S -> bool) (access : M -> S -> action S res).
  Variables (ann_i : I -> list ev) (ann_m : M -> bool -> list ev) (tso : bool).
  Hypothesis no_done : forall m s, match access m s with ADone _ => False | _ => True end.
  Definition uchk (P : list (binstr I J M)) (ok : sum -> bool) : bool :=
    check ann_i ann_m tso (fun _ _ => true) [tt] (fun _ _ => [tt]) (fun _ _ => None) (fun _ _ _ => [tt]) P (fun _ => ok).
  Lemma uchk_sound P ok : uchk P ok = true -> forall (c : bconf I J M S res) tr r,
    bprog c = P -> bpos c = 0%nat -> completes (bnext exec1 test access) (block_ann ann_i ann_m) c tr r ->
    ok (summary tso tr) = true /\ exists s, r = bret c s.
  Proof.
    intros Q c tr r H1 H2 D.
    destruct (check_sound exec1 test access ann_i ann_m tso (fun _ => tt) (fun _ _ => true) [tt] (fun _ _ => [tt])
      (fun _ _ => None) (fun _ _ _ => [tt])) with (P := P) (ok := fun _ : unit => ok) (c := c) (tr := tr) (r := r)
      as (s & E & O); auto.
    - intros [] []; reflexivity.
    - intros; left; reflexivity.
    - intros; left; reflexivity.
    - intros j s b X; discriminate X.
    - intros m s. specialize (no_done m s). destruct (access m s); intros; try (left; reflexivity); auto.
    - eauto.
  Qed.
End Unit.
