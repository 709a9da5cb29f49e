(** From refinement of every block to linearizability of the multi-threaded program. *)
From Coq Require Import ZArith List Bool Lia.
From Verif Require Import Words Spec WideSpec WordsFacts LoopModel LoopProofs AsmModel AsmProofs AtomicImpls.
Import ListNotations.
Open Scope Z_scope.

Theorem blocks_atomic {C : Type} (next : C -> action C res) (code_of : Z -> wop -> option C)
    (impl_of : Z -> wop -> option (impl res)) (ty : Z -> ity) :
  (forall a o c, code_of a o = Some c -> exists i, impl_of a o = Some i /\
     refines next (fun a => ibits (ty a)) a o c i) ->
  (forall a o i, impl_of a o = Some i ->
     impl_correct (fun a => ibits (ty a)) (fun a x => of_bits (ty a) x) (sem ty) a o i) ->
  forall m ls s h, mem_ok ty m -> asm_run next code_of (asm_init m) ls = Some (s, h) ->
  atomic_history ty m h (amem s).
Proof.
  intros HR HC m ls s h Hm H.
  destruct (asm_refines_loops next code_of impl_of (fun a => ibits (ty a)) HR m ls s h Hm H) as (ls' & s' & H' & M).
  pose proof (loops_linearizable impl_of (fun a => ibits (ty a)) (fun a x => of_bits (ty a) x) (sem ty) HC m ls' s' h Hm H') as L.
  destruct L as (A & L1 & L2). exists A. split; [exact L1|]. intros a v E. injection E as <-.
  rewrite <- M. now apply L2.
Qed.

Theorem loops_atomic (impl_of : Z -> wop -> option (impl res)) (ty : Z -> ity) :
  (forall a o i, impl_of a o = Some i ->
     impl_correct (fun a => ibits (ty a)) (fun a x => of_bits (ty a) x) (sem ty) a o i) ->
  forall m ls s h, mem_ok ty m -> run impl_of (init m) ls = Some (s, h) ->
  atomic_history ty m h (mem s).
Proof.
  intros HC m ls s h Hm H.
  exact (loops_linearizable impl_of (fun a => ibits (ty a)) (fun a x => of_bits (ty a) x) (sem ty) HC m ls s h Hm H).
Qed.
