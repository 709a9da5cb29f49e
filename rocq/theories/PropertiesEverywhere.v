(** * C54, C55 and C56 for programs that mix the crate's types in any supported configuration

    [exported], [layered_code], [modules_make]: as for C53.  [few_evals], [few_before_progress]: EvalSpec, ProgressSpec; [few_before_return]:
    LayerProgressSpec. *)
From Coq Require Import String ZArith List Bool Arith Lia.
From Verif Require Import ConfigSpec ConfigTargets ConfigModel ConfigProofs.
From Verif Require Import Words Spec.
From Verif Require FallbackModel PropertiesFallback.
From Verif Require Import WideSpec LoopModel AsmModel ByteSpec FrontSpec FloatSpec UpdateSpec CoreModel OrderSpec EntrySpec EntryModel.
From Verif Require FrontMain ClientSpec ClientModel PropertiesClient PropertiesConfig.
From Verif Require Import LayerSpec LayerModel PropertiesPublic SelectSpec SelectModel PropertiesSelect RetrySpec.
From Verif Require Import WholeSpec WholeModel PropertiesWhole WholeConfig WholeLocal WholeMain EvalSpec PropertiesEval ProgressSpec PropertiesProgress LayerProgressSpec PropertiesLayerProgress.
Import ListNotations.
Local Open Scope string_scope.
Local Open Scope list_scope.
Open Scope Z_scope.

Lemma stack_reads_ok kd arith : reads_only public_reads (fsem kd arith).
Proof. intros a o x x' [r|] E; cbn [fsem]; [intros [P _]; exact (public_reads_ok kd arith a o x x' r E P)|intros [-> _]; reflexivity]. Qed.

(** How often closures are called ... *)
Theorem C54_everywhere : forall e kd from used ev ls q tr init fin St progs ls1 (c : ClientModel.cstate (Op := pop) (Res := option pres) St) tr1,
  supported crate e -> (forall a, exists t, exported e (program crate e) (from a) t (kd a)) ->
  FrontMain.float_unit kd ev -> (forall a, value_ok (kd a) (init a)) ->
  layer_run (public_code ev (pcfg_of e) kd) layer_init ls = Some (q, tr) -> layered_code e (program crate e) kd from (outer_of tr) ->
  modules_make e used from kd init (inner_of tr) fin ->
  ClientModel.client_run (stack_iface kd) St (ClientModel.client_init St progs) ls1 = Some (c, tr1) -> ClientSpec.base_of tr1 = outer_of tr ->
  few_evals public_reads tr1.
Proof.
  intros e kd from used ev ls q tr init fin St progs ls1 c tr1 S X U V R Y M C E.
  pose proof (proj1 (proj1 (C53_atomic e kd from used ev ls q tr init fin S X U V R Y M))) as L. rewrite <- E in L.
  exact (C54_any_backend _ _ _ _ _ St progs ls1 c tr1 init fin (stack_ok kd _) (stack_reads_ok kd _) C L).
Qed.
(** ... and that they cannot keep each other from finishing. *)
Theorem C55_everywhere : forall e kd from used ev ls q tr init fin St progs ls1 (c : ClientModel.cstate (Op := pop) (Res := option pres) St) tr1,
  supported crate e -> (forall a, exists t, exported e (program crate e) (from a) t (kd a)) ->
  FrontMain.float_unit kd ev -> (forall a, value_ok (kd a) (init a)) ->
  layer_run (public_code ev (pcfg_of e) kd) layer_init ls = Some (q, tr) -> layered_code e (program crate e) kd from (outer_of tr) ->
  modules_make e used from kd init (inner_of tr) fin ->
  ClientModel.client_run (stack_iface kd) St (ClientModel.client_init St progs) ls1 = Some (c, tr1) -> ClientSpec.base_of tr1 = outer_of tr ->
  few_before_progress tr1.
Proof.
  intros e kd from used ev ls q tr init fin St progs ls1 c tr1 S X U V R Y M C E.
  pose proof (proj1 (proj1 (C53_atomic e kd from used ev ls q tr init fin S X U V R Y M))) as L. rewrite <- E in L.
  exact (C55_any_backend _ _ _ _ _ St progs ls1 c tr1 init fin (stack_ok kd _) (stack_reads_ok kd _) C L).
Qed.

(** The public operations themselves. *)
Theorem C56_everywhere : forall e kd from used ev ls q tr init fin,
  supported crate e -> (forall a, exists t, exported e (program crate e) (from a) t (kd a)) ->
  FrontMain.float_unit kd ev -> (forall a, value_ok (kd a) (init a)) ->
  layer_run (public_code ev (pcfg_of e) kd) layer_init ls = Some (q, tr) -> layered_code e (program crate e) kd from (outer_of tr) ->
  modules_make e used from kd init (inner_of tr) fin ->
  few_before_return tr.
Proof.
  intros e kd from used ev ls q tr init fin S X U V R _ M.
  assert (K : forall a, kind_ok (kd a)). { intros a. destruct (X a) as (t & _ & (size & Hs & K) & _). exact (kind_named_ok e size t _ Hs K). }
  assert (SQ : sequential (inner_of tr)). { eapply layer_sequential; [exact R|]. intros t. cbn. tauto. }
  destruct (modules_atomic e used from kd init _ fin K SQ M) as (base & B & L).
  assert (L' : linearizable_to base init (rename same_enc (inner_of tr)) fin) by (rewrite rename_same; exact L).
  exact (C56_any_backend (pcfg_of e) kd ev bop base same_enc ls q tr init fin K U B V R L').
Qed.

(** ** The hypotheses are met: C53's program on x86-64 Linux.  Thread 0 adds to the u128 at 1000, thread 4 flips the bool at 8, thread 1 is in a fetch_update of
    the u128 whose closure says None, thread 3's fetch_update panics because it loads with Release. *)
Definition ex_progs (t : nat) : ClientSpec.prog pop (option pres) unit :=
  match t with
  | 0%nat => ClientSpec.Prim 1000 (Plain (ORmw (Add 1) SeqCst)) (fun _ => ClientSpec.Ret tt None)
  | 1%nat => ClientSpec.Update 1000 SeqCst Acquire tt (fun _ _ => ClientSpec.Ret tt None) (fun _ _ => ClientSpec.Ret tt None)
  | 3%nat => ClientSpec.Update 1000 SeqCst Release tt (fun _ _ => ClientSpec.Ret tt None) (fun _ _ => ClientSpec.Ret tt None)
  | _ => ClientSpec.Prim 8 (BoolRmw (BXor true) AcqRel) (fun _ => ClientSpec.Ret tt None)
  end.
Definition ex_cls : list (nat * option (option pres)) :=
  [(0, None); (4, None); (1, None); (3, None); (4, Some (Some (PBool false))); (1, Some (Some (PPlain (RVal 5)))); (3, Some None); (0, Some (Some (PPlain (RVal 5)))); (1, None)]%nat.
Definition ex_ctr : list (ClientSpec.cevent pop (option pres)) :=
  match ClientModel.client_run (stack_iface PropertiesWhole.ex_kd) unit (ClientModel.client_init unit ex_progs) ex_cls with Some (_, tr) => tr | None => [] end.
Example ex_crun : exists c, ClientModel.client_run (stack_iface PropertiesWhole.ex_kd) unit (ClientModel.client_init unit ex_progs) ex_cls = Some (c, ex_ctr).
Proof. exact (run_some (ClientModel.client_run (stack_iface PropertiesWhole.ex_kd) unit (ClientModel.client_init unit ex_progs) ex_cls) ltac:(vm_compute; reflexivity)). Qed.
Example ex_same : ClientSpec.base_of ex_ctr = outer_of PropertiesWhole.ex_tr /\ all_evals ex_ctr = 1%nat.
Proof. vm_compute. split; reflexivity. Qed.
Example ex_everywhere : few_evals public_reads ex_ctr /\ few_before_progress ex_ctr /\ few_before_return PropertiesWhole.ex_tr.
Proof.
  destruct PropertiesWhole.ex_run_ok as [q R]. destruct ex_crun as [c C]. refine (conj _ (conj _ _)).
  - exact (C54_everywhere _ PropertiesWhole.ex_kd ex_from _ PropertiesWhole.ex_ev _ q _ PropertiesWhole.ex_init _ unit _ _ c _ (proj1 PropertiesConfig.C41_supported) ex_exported
      (fun a mw ew op hist x H => ltac:(exfalso; revert H; unfold PropertiesWhole.ex_kd; destruct (a =? 8); discriminate)) PropertiesWhole.ex_values R PropertiesWhole.ex_layered ex_modules C (proj1 ex_same)).
  - exact (C55_everywhere _ PropertiesWhole.ex_kd ex_from _ PropertiesWhole.ex_ev _ q _ PropertiesWhole.ex_init _ unit _ _ c _ (proj1 PropertiesConfig.C41_supported) ex_exported
      (fun a mw ew op hist x H => ltac:(exfalso; revert H; unfold PropertiesWhole.ex_kd; destruct (a =? 8); discriminate)) PropertiesWhole.ex_values R PropertiesWhole.ex_layered ex_modules C (proj1 ex_same)).
  - exact (C56_everywhere _ PropertiesWhole.ex_kd ex_from _ PropertiesWhole.ex_ev _ q _ PropertiesWhole.ex_init _ (proj1 PropertiesConfig.C41_supported) ex_exported
      (fun a mw ew op hist x H => ltac:(exfalso; revert H; unfold PropertiesWhole.ex_kd; destruct (a =? 8); discriminate)) PropertiesWhole.ex_values R PropertiesWhole.ex_layered ex_modules).
Qed.

Print Assumptions C54_everywhere.
Print Assumptions C55_everywhere.
Print Assumptions C56_everywhere.
