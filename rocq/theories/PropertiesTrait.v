(** * C57: formatting, serializing, converting

    [layer_run (trait_code text serde kd) ...]: any number of threads format and serialize shared variables ([Show]) among operations of every other kind
    ([Other]); [Outer] events are those, [Inner] ones the public operations they make.  [tsem], [makes_only], [answers_after]: TraitSpec. *)
From Coq Require Import String ZArith List Bool Lia.
From Verif Require Import ConfigSpec ConfigTargets ConfigModel ConfigFlat ConfigTaut ConfigProofs ConfigMain.
From Verif Require Import Words Spec WordsFacts.
From Verif Require FallbackModel PropertiesFallback.
From Verif Require Import WideSpec LoopModel AsmModel ByteSpec FrontSpec FloatSpec LifeSpec UpdateSpec CoreModel OrderSpec EntrySpec EntryModel.
From Verif Require FrontModel FrontMain LifeModel LifeProofs PropertiesConfig.
From Verif Require Import LayerSpec LayerModel LayerProofs PropertiesPublic SelectSpec SelectModel PropertiesSelect TraitSpec TraitModel TraitProofs.
From Verif Require Import WholeSpec WholeModel WholeConfig WholeLocal WholeMain PropertiesWhole.
Import ListNotations.
Open Scope Z_scope.

(** Which types have which trait. *)
Theorem C57_implemented : forall (Out : Type) (text : trait -> kind -> val -> Out) serde kd a w,
  trait_code text serde kd a (Show w) <> None <-> implements serde (kd a) w.
Proof.
  intros Out text serde kd a w. cbn [trait_code].
  assert (H : has_impl serde (kd a) w = true <-> implements serde (kd a) w).
  { destruct (kd a) as [t| |p sz|mw ew], w; cbn [has_impl implements].
    all: try (split; [discriminate|intros (? & ? & H); discriminate H]).
    all: try (split; [intros; exact I|reflexivity]).
    - split; [auto|intros [H _]; exact H].
    - split; [auto|intros [H _]; exact H].
    - split; [intros _; eauto|reflexivity].
    - split; [discriminate|intros [_ []]].
    - destruct (Z.eqb_spec (1 + mw + ew) 16), (Z.eqb_spec (1 + mw + ew) 128); cbn [orb]; (split; [intros H; try discriminate H; auto|intros (H & ? & ?); try contradiction; auto]). }
  rewrite <- H. destruct (has_impl serde (kd a) w); split; intros G; try discriminate; try reflexivity. exfalso. now apply G.
Qed.

(** Around any linearizable implementation of the public operations: formatting is atomic together with all of them, and makes one relaxed load. *)
Theorem C57_any_backend : forall (Out : Type) (text : trait -> kind -> val -> Out) serde kd arith ls q tr init fin,
  layer_run (trait_code text serde kd) layer_init ls = Some (q, tr) -> linearizable_to (fsem kd arith) init (inner_of tr) fin ->
  linearizable_to (tsem text kd arith) init (outer_of tr) fin /\ calls_ok makes_only answers_after (fun _ => None) tr.
Proof.
  intros Out text serde kd arith ls q tr init fin R L.
  exact (layer_correct (tsem text kd arith) (fsem kd arith) (fun _ _ => True) makes_only answers_after (trait_code text serde kd)
    (codes_good text kd arith serde) ls q tr init fin (fun _ => I) R L).
Qed.

(** In every supported configuration, on the code that the crate has for it: as C53. *)
Theorem C57_everywhere : forall (Out : Type) (text : trait -> kind -> val -> Out) serde e kd from used ev ls q tr init fin ls1 q1 tr1,
  supported crate e -> (forall a, exists t, exported e (program crate e) (from a) t (kd a)) ->
  FrontMain.float_unit kd ev -> (forall a, value_ok (kd a) (init a)) ->
  layer_run (public_code ev (pcfg_of e) kd) layer_init ls = Some (q, tr) -> layered_code e (program crate e) kd from (outer_of tr) ->
  modules_make e used from kd init (inner_of tr) fin ->
  layer_run (trait_code text serde kd) layer_init ls1 = Some (q1, tr1) -> inner_of tr1 = outer_of tr ->
  linearizable_to (tsem text kd (ieee kd)) init (outer_of tr1) fin /\ calls_ok makes_only answers_after (fun _ => None) tr1.
Proof.
  intros Out text serde e kd from used ev ls q tr init fin ls1 q1 tr1 S X U V R Y M R1 E.
  pose proof (proj1 (proj1 (C53_atomic e kd from used ev ls q tr init fin S X U V R Y M))) as L. rewrite <- E in L.
  exact (C57_any_backend Out text serde kd (ieee kd) ls1 q1 tr1 init fin R1 L).
Qed.

(** Converting a value makes a variable that holds it, and leaves the others alone. *)
Theorem C57_from : forall (kd : Z -> kind) m a v, (forall a, kind_ok (kd a)) -> LifeModel.val_typed (kd a) v = true ->
  exists m', from_impl kd m a v = LifeModel.Result m' None /\ means (kd a) (m' a) = Some v /\ forall b, b <> a -> m' b = m b.
Proof.
  intros kd m a v K T. destruct (LifeProofs.new_means kd K a v T) as (x & E & EM). exists (LoopModel.setz m a x).
  unfold from_impl. cbn [LifeModel.own_step]. rewrite T, E. split; [reflexivity|]. unfold LoopModel.setz. rewrite Z.eqb_refl. split; [exact EM|].
  intros b N. destruct (Z.eqb_spec b a); [contradiction|reflexivity].
Qed.

(** What was serialized, deserialized at another variable of the same type (when the value type reads back what it wrote), is the value that the first variable
    held at the instant of [tsem]; no value is lost or changed by going through the integer inside. *)
Theorem C57_serialized : forall (Out : Type) (text : trait -> kind -> val -> Out) parse (kd : Z -> kind) arith m a b x x' s,
  (forall a, kind_ok (kd a)) -> kd b = kd a -> value_ok (kd a) x ->
  (forall v, LifeModel.val_typed (kd a) v = true -> parse (kd a) (text Serialize (kd a) v) = Some v) ->
  tsem text kd arith a (Show Serialize) x (x', Shown s) ->
  exists m', deserialize parse kd m b s = Some (LifeModel.Result m' None) /\ means (kd b) (m' b) = Some (holding (kd a) x) /\ forall c, c <> b -> m' c = m c.
Proof.
  intros Out text parse kd arith m a b x x' s K E V P [_ ->].
  assert (T : LifeModel.val_typed (kd a) (holding (kd a) x) = true).
  { destruct V as [V _]. unfold holding. destruct (kd a) as [t| |w sz|mw ew]; cbn [LifeModel.val_typed int_of] in *; [now apply in_rangeb_iff|reflexivity| |];
      unfold in_range, imin, imax in V; cbn [isigned ibits] in V; unfold FrontModel.in_bits; apply andb_true_iff; lia. }
  unfold deserialize. rewrite E, (P _ T). assert (T' : LifeModel.val_typed (kd b) (holding (kd a) x) = true) by (rewrite E; exact T).
  destruct (C57_from kd m b _ K T') as (m' & F & R). exists m'. unfold from_impl in F. rewrite F. rewrite E in R. auto.
Qed.
(** An error of the value type is passed on: no variable is made. *)
Theorem C57_errors : forall (Out : Type) (parse : kind -> Out -> option val) (kd : Z -> kind) m a s, parse (kd a) s = None <-> deserialize parse kd m a s = None.
Proof. intros Out parse kd m a s. unfold deserialize. destruct (parse (kd a) s); split; intros H; auto; discriminate H. Qed.

(** ** The hypotheses are met: an AtomicBool of x86-64 Linux, on core's atomics; it is formatted and serialized while another thread flips it. *)
Definition ex_text (w : trait) (k : kind) (v : val) : trait * val := (w, v).
Definition ex_parse (k : kind) (s : trait * val) : option val := match s with (Serialize, v) => Some v | _ => None end.
Definition ex_kind (a : Z) : kind := KBool.
Definition ex_module (a : Z) : path := ["imp"; "core_atomic"]%string.
Definition ex_tls : list (llabel top (option pres)) :=
  [LCall 0 8 (Other (BoolRmw (BXor true) AcqRel)); LCall 1 8 (Show Debug); LCall 2 8 (Show Serialize); LStep 0; LStep 1; LAnswer 1 (Some (PBool false)); LStep 2;
   LAnswer 0 (Some (PBool false)); LAnswer 2 (Some (PBool true)); LStep 1; LStep 2; LStep 0].
Definition ex_ttr : list (levent top (tres (trait * val)) pop (option pres)) :=
  match layer_run (trait_code ex_text true ex_kind) layer_init ex_tls with Some (_, tr) => tr | None => [] end.
Example ex_trun : exists q, layer_run (trait_code ex_text true ex_kind) layer_init ex_tls = Some (q, ex_ttr).
Proof. exact (run_some (layer_run (trait_code ex_text true ex_kind) layer_init ex_tls) ltac:(vm_compute; reflexivity)). Qed.
Example ex_touter : outer_of ex_ttr =
  [Call 0%nat 8 (Other (BoolRmw (BXor true) AcqRel)); Call 1%nat 8 (Show Debug); Call 2%nat 8 (Show Serialize);
   Return 1%nat (Shown (Debug, VBool false)); Return 2%nat (Shown (Serialize, VBool true)); Return 0%nat (Did (Some (PBool false)))].
Proof. vm_compute. reflexivity. Qed.
Definition ex_pls : list (llabel pop res) :=
  [LCall 0 8 (BoolRmw (BXor true) AcqRel); LCall 1 8 (BoolLoad Relaxed); LStep 0; LStep 1; LAnswer 1 (RVal 0); LStep 1; LCall 2 8 (BoolLoad Relaxed); LStep 2;
   LAnswer 2 (RVal 1); LAnswer 0 (RVal 0); LStep 0; LStep 2].
Definition ex_ptr : list (levent pop (option pres) bop res) :=
  match layer_run (public_code ex_ev (pcfg_of PropertiesConfig.linux_x86_64) ex_kind) layer_init ex_pls with Some (_, tr) => tr | None => [] end.
Example ex_prun : exists q, layer_run (public_code ex_ev (pcfg_of PropertiesConfig.linux_x86_64) ex_kind) layer_init ex_pls = Some (q, ex_ptr).
Proof. exact (run_some (layer_run (public_code ex_ev (pcfg_of PropertiesConfig.linux_x86_64) ex_kind) layer_init ex_pls) ltac:(vm_compute; reflexivity)). Qed.
Example ex_same : inner_of ex_ttr = outer_of ex_ptr.
Proof. vm_compute. reflexivity. Qed.
Definition ex_cls : list (label uop) :=
  [mk_label 0 (Some (8, UOp (WOp (ORmw (Xor 1) AcqRel)))) false; mk_label 1 (Some (8, UOp (WOp (OLoad Relaxed)))) false; mk_label 1 None false; mk_label 1 None false;
   mk_label 2 (Some (8, UOp (WOp (OLoad Relaxed)))) false; mk_label 0 None false; mk_label 2 None false; mk_label 2 None false; mk_label 0 None false].
Definition ex_zero (a : Z) : Z := 0.
Example ex_cmachine :
  match asm_run (enext cnext RPanic) (ecode (c_code_of PropertiesWhole.ex_g (ints ex_kind)) check_u) (asm_init ex_zero) ex_cls with
  | Some (s, h) => h = rename (fun o => UOp (wide_enc o)) (inner_of ex_ptr) /\ amem s 8 = 1 | None => False end.
Proof. vm_compute. split; reflexivity. Qed.
Definition ex_final (a : Z) : option Z := if a =? 8 then Some 1 else None.
Example ex_makes : modules_make PropertiesConfig.linux_x86_64 [["imp"; "core_atomic"]%string] ex_module ex_kind ex_zero (inner_of ex_ptr) ex_final.
Proof.
  split; [intros a; left; reflexivity|]. intros q [<-|[]]. exists MCore, ex_zero, ex_final. split; [vm_compute; reflexivity|]. split; [auto|].
  replace (part_of _ _) with (inner_of ex_ptr) by (vm_compute; reflexivity). cbn [makes]. exists PropertiesWhole.ex_g.
  pose proof ex_cmachine as E. destruct (asm_run _ _ _ ex_cls) as [[s h]|] eqn:R; [|contradiction E]. destruct E as [-> F].
  exists ex_zero, ex_cls, s. split; [intros a; vm_compute; split; [discriminate|reflexivity]|]. split; [exact R|]. split; [reflexivity|].
  intros a v H. unfold ex_final in H. destruct (Z.eqb_spec a 8) as [->|]; [|discriminate H]. injection H as <-. rewrite F. reflexivity.
Qed.
Example ex_formatted : linearizable_to (tsem ex_text ex_kind (ieee ex_kind)) ex_zero (outer_of ex_ttr) ex_final /\ calls_ok makes_only answers_after (fun _ => None) ex_ttr.
Proof.
  destruct ex_prun as [q R], ex_trun as [q1 R1].
  refine (C57_everywhere _ ex_text true _ ex_kind ex_module _ ex_ev ex_pls q ex_ptr ex_zero ex_final ex_tls q1 ex_ttr (proj1 PropertiesConfig.C41_supported) _ _ _ R _ ex_makes R1 ex_same).
  - intros a. exists "AtomicBool"%string. split; [apply defines_In; vm_compute; reflexivity|]. split; [exists 0; split; [lia|reflexivity]|]. apply In_use_of. vm_compute. reflexivity.
  - intros a mw ew op hist x H. discriminate H.
  - intros a. split; [vm_compute; split; discriminate|left; reflexivity].
  - split; [|intros _ a mw ew H; discriminate H]. intros _ t a k bit o _ H. vm_compute in H. repeat (destruct H as [H|H]; [discriminate H|]). exact H.
Qed.
Example ex_copied : exists m', deserialize ex_parse ex_kind ex_zero 16 (Serialize, VBool true) = Some (LifeModel.Result m' None) /\ means KBool (m' 16) = Some (VBool true).
Proof. eexists. split; reflexivity. Qed.
Example ex_types : implements true (KInt i8) Serialize /\ ~ implements true (KFloat 112 15) Serialize /\ ~ implements false KBool Serialize.
Proof. cbn. split; [auto|]. split; [intros (_ & _ & H); apply H; reflexivity|intros [H _]; discriminate H]. Qed.

Print Assumptions C57_implemented.
Print Assumptions C57_any_backend.
Print Assumptions C57_everywhere.
Print Assumptions C57_from.
Print Assumptions C57_serialized.
Print Assumptions C57_errors.
