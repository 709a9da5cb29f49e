(** Atomicity and progress of the public types of FrontModel. *)
From Coq Require Import ZArith List Bool Lia PeanoNat.
From Verif Require Import Words Spec WordsFacts FrontSpec FloatSpec LoopModel LoopProofs LoopProgress AsmModel AsmProofs AsmProgress LockFree
  BlockProofs FrontModel FrontProofs FloatProofs.
Import ListNotations.
Open Scope Z_scope.

(** The float unit computes what IEEE says; NaN patterns may vary. *)
Definition float_unit (kd : Z -> kind) (ev : Z -> fop -> list Z -> Z -> Z) : Prop :=
  forall a mw ew op hist x, kd a = KFloat mw ew -> fop_typed (1 + mw + ew) op = true -> 0 <= x < 2 ^ (1 + mw + ew) ->
    fl_spec mw ew op x (ev a op hist x).

Section M.
  Variable g : cfg.
  Variable kd : Z -> kind.
  Variable ev : Z -> fop -> list Z -> Z -> Z.
  Hypothesis kok : forall a, kind_ok (kd a).
  Hypothesis unit_ok : float_unit kd ev.
  Local Notation width := (fun a => kbits (kd a)).
  Local Notation ab := (fun a x => kval (kd a) x).
  Local Notation sem := (psem kd (ieee kd)).
  Local Notation code := (p_code_of ev g kd).

  Lemma front_code_ok a o c : code a o = Some c -> conf_ok kd (ieee kd) a o c.
  Proof.
    apply p_code_ok with (ev := ev).
    - exact kok.
    - intros b mw ew op hist x K T X. pose proof (unit_ok b mw ew op hist x K T X) as H. unfold ieee. rewrite K.
      split; [exact H|]. exact (proj1 H).
    - intros b mw ew v x y K V X. unfold ieee. rewrite K. pose proof (kok b) as KO. rewrite K in KO. destruct KO as [M E].
      now apply fl_sub_ok.
  Qed.
  Definition front_impl (a : Z) (o : pop) : option (impl pres) := option_map f_impl (code a o).
  Lemma front_refines a o c : code a o = Some c ->
    exists i, front_impl a o = Some i /\ refines fnext width a o c i.
  Proof.
    intros E. exists (f_impl c). unfold front_impl. rewrite E. split; [reflexivity|].
    apply (conf_refines kd (ieee kd) kok). now apply front_code_ok.
  Qed.
  Lemma front_impl_ok a o i : front_impl a o = Some i -> impl_correct width ab sem a o i.
  Proof.
    unfold front_impl. destruct (code a o) as [c|] eqn:E; [|discriminate]. intros H. injection H as <-.
    apply (conf_correct kd (ieee kd) kok). now apply front_code_ok.
  Qed.
  Lemma front_reads a o i : front_impl a o = Some i -> reads_all width a i.
  Proof.
    unfold front_impl. destruct (code a o) as [c|] eqn:E; [|discriminate]. intros H. injection H as <-.
    pose proof (front_code_ok a o c E) as C. pose proof (wpos kd kok a) as W.
    destruct c as [a' f k|a' k dec f ok err| |]; try contradiction; [exact I|].
    destruct C as (-> & -> & _). cbn [f_impl reads_all]. exists 1%nat. split; [lia|]. split; [exact W|]. split; [reflexivity|lia].
  Qed.

  Theorem front_atomic m ls s h : pmem_ok kd m -> asm_run fnext code (asm_init m) ls = Some (s, h) ->
    atomic_history_p kd (ieee kd) m h (amem s) /\ pmem_ok kd (amem s).
  Proof.
    intros Hm H.
    destruct (asm_refines_loops fnext code front_impl width front_refines m ls s h Hm H) as (ls' & s' & H' & M).
    destruct (loops_linearizable_range front_impl width ab sem front_impl_ok m ls' s' h Hm H') as ((A & L1 & L2) & L3).
    split.
    - exists A. split; [exact L1|]. intros a v E. injection E as <-. rewrite <- M. now apply L2.
    - intros a. rewrite <- M. apply L3.
  Qed.
  Theorem front_never_stuck m ls s h t c : pmem_ok kd m -> asm_run fnext code (asm_init m) ls = Some (s, h) -> athr s t = Some c ->
    forall sp, exists s' e, asm_step fnext code s (mk_label t None sp) = Some (s', e).
  Proof. intros Hm. eapply (asm_never_stuck _ code front_impl width); [exact front_refines|exact Hm]. Qed.
  Theorem front_solo m ls s h t c : pmem_ok kd m -> asm_run fnext code (asm_init m) ls = Some (s, h) -> athr s t = Some c ->
    exists j s' r, asm_run fnext code s (repeat (mk_label t None false) j) = Some (s', [Return t r]).
  Proof.
    apply (asm_solo_finishes _ _ front_impl width ab sem front_impl_ok front_reads).
    intros. now apply front_refines.
  Qed.
  Theorem front_lock_free T m ls s h : NoDup T -> pmem_ok kd m -> asm_run fnext code (asm_init m) ls = Some (s, h) ->
    exists n, forall ts s' h', Forall (fun t => In t T) ts -> (n <= length ts)%nat ->
      asm_run fnext code s (map (fun t => mk_label t None false) ts) = Some (s', h') -> h' <> [].
  Proof.
    intros NT. apply (asm_lock_free _ _ front_impl width ab sem front_impl_ok front_reads); [|exact NT].
    intros. now apply front_refines.
  Qed.
End M.
