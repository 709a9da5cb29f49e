(** * Property C03: the exact strength of the version counter *)
From Coq Require Import ZArith Lia Bool List.
From Verif Require Import Words Spec FallbackModel FallbackMain FallbackTight.
Import ListNotations.
Open Scope Z_scope.

(** Only if: a history no atomic variable could produce needs an optimistic load during
    which at least 2^63 (resp. 2^63 - 2^31) writes completed under its lock. *)
Theorem C03_narrow_needs_2_63_writes : forall c m ls s h,
  wide c = false -> wf_config c -> wf_mem c m -> run c (init m) ls = Some (s, h) ->
  ~ linearizable (atomic_var c) (var_value c m) h -> max_window c = 2 ^ 63 /\ ~ windows_ok c (init m) ls.
Proof.
  intros c m ls s h Hw WF WM Hr Hn. split.
  - unfold max_window. now rewrite Hw.
  - intros Hk. apply Hn. eapply fallback_linearizable_lemma; eauto.
Qed.
Theorem C03_wide_needs_2_63_minus_2_31_writes : forall c m ls s h,
  wide c = true -> wf_config c -> wf_mem c m -> run c (init m) ls = Some (s, h) ->
  ~ linearizable (atomic_var c) (var_value c m) h -> max_window c = 2 ^ 63 - 2 ^ 31 /\ ~ windows_ok c (init m) ls.
Proof.
  intros c m ls s h Hw WF WM Hr Hn. split.
  - unfold max_window. now rewrite Hw.
  - intros Hk. apply Hn. eapply fallback_linearizable_lemma; eauto.
Qed.

(** If: with exactly that many writes it does happen. *)
Theorem C03_narrow_bound_is_exact : exists c m ls s h,
  wide c = false /\ wf_config c /\ wf_mem c m /\ run c (init m) ls = Some (s, h) /\
  windows_at_most c (2 ^ 63) (init m) ls /\
  ~ linearizable (atomic_var c) (var_value c m) h.
Proof.
  destruct tight_narrow_lemma as (ls & s & h & Hr & Hw & Hn).
  exists tight_narrow, zero_mem, ls, s, h. split; [reflexivity|]; split; [apply tight_wf|]; split; [apply zero_mem_wf|]; auto.
Qed.
Theorem C03_wide_bound_is_exact : exists c m ls s h,
  wide c = true /\ wf_config c /\ wf_mem c m /\ run c (init m) ls = Some (s, h) /\
  windows_at_most c (2 ^ 63 - 2 ^ 31) (init m) ls /\
  ~ linearizable (atomic_var c) (var_value c m) h.
Proof.
  destruct tight_wide_lemma as (ls & s & h & Hr & Hw & Hn).
  exists tight_wide, zero_mem, ls, s, h. split; [reflexivity|]; split; [apply tight_wf|]; split; [apply zero_mem_wf|]; auto.
Qed.

Print Assumptions C03_narrow_needs_2_63_writes.
Print Assumptions C03_wide_needs_2_63_minus_2_31_writes.
Print Assumptions C03_narrow_bound_is_exact.
Print Assumptions C03_wide_bound_is_exact.
