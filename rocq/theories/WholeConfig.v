(** * Which module the integer types are taken from, in every configuration *)
From Coq Require Import String List Bool Arith PArith ZArith Lia.
From Verif Require Import Words FrontSpec ConfigSpec ConfigTaut ConfigFlat ConfigTargets ConfigModel ConfigProofs ConfigMain.
From Verif Require LayerSpec.
From Verif Require Import WholeSpec WholeModel.
Import ListNotations.
Local Open Scope string_scope.
Local Open Scope list_scope.

(** imp takes [n] from somewhere *)
Definition takes (n : string) (l : leaf) : bool := match l with LUse p _ n' => path_eqb ["imp"] p && String.eqb n n' | _ => false end.
Definition takes_not_from (q : path) (n : string) (l : leaf) : bool :=
  match l with LUse p q' n' => path_eqb ["imp"] p && String.eqb n n' && negb (path_eqb q q') | _ => false end.
Lemma takes_In n l : existsb (takes n) l = true <-> exists q, In (LUse ["imp"] q n) l.
Proof.
  rewrite existsb_exists. split.
  - intros (x & Hx & E). destruct x as [|p q n'| | | |]; try discriminate E. unfold takes in E. apply andb_prop in E as [E1 E2].
    apply path_eqb_eq in E1 as <-. apply String.eqb_eq in E2 as <-. eauto.
  - intros (q & H). eexists. split; [exact H|]. unfold takes. rewrite String.eqb_refl, (proj2 (path_eqb_eq _ _) eq_refl). reflexivity.
Qed.
Lemma all_taken : forallb (fun t => valid (bex (defines [] t)) (bex (takes (inner_named t)))) type_names = true.
Proof. vm_compute. reflexivity. Qed.
Lemma taken e t : supported crate e -> In t type_names -> In (LDef [] t) (program crate e) -> exists from, In (LUse ["imp"] from (inner_named t)) (program crate e).
Proof.
  intros S T H. apply (forallb_In _ _ _ all_taken) in T. apply takes_In. rewrite <- bex_eval. apply (valid_sound _ _ e T S). rewrite bex_eval. now apply defines_In.
Qed.

Definition f_alone (l : leaf) : option bf :=
  match l with LUse p q n => if path_eqb ["imp"] p then Some (mkN (bex (takes_not_from q n))) else None | _ => None end.
Lemma all_alone : per_leaf f_alone BT = true.
Proof. vm_compute. reflexivity. Qed.
Lemma alone e q q' n : supported crate e -> In (LUse ["imp"] q n) (program crate e) -> In (LUse ["imp"] q' n) (program crate e) -> q = q'.
Proof.
  intros S H H'. pose proof (per_leaf_sound f_alone BT e (LUse ["imp"] q n) _ all_alone S eq_refl H eq_refl) as A. rewrite mkN_eval, bex_eval in A. apply negb_true_iff in A.
  destruct (path_eqb q q') eqn:E; [now apply path_eqb_eq|]. exfalso.
  enough (existsb (takes_not_from q n) (program crate e) = true) by congruence. apply existsb_exists. eexists. split; [exact H'|].
  unfold takes_not_from. now rewrite E, String.eqb_refl, (proj2 (path_eqb_eq _ _) eq_refl).
Qed.

(** The pairs that occur. *)
Definition is_pair (l : leaf) : option (path * string) := match l with LUse p q n => if path_eqb ["imp"] p then Some (q, n) else None | _ => None end.
Definition pairs : list (path * string) := Eval vm_compute in
  nub (fun x y => path_eqb (fst x) (fst y) && String.eqb (snd x) (snd y)) (flat_map (fun x => match is_pair (snd x) with Some p => [p] | None => [] end) table).
Definition pair_in (x : path * string) : bool := existsb (fun y => path_eqb (fst x) (fst y) && String.eqb (snd x) (snd y)) pairs.
Lemma pairs_all : forallb (fun x => match is_pair (snd x) with Some p => pair_in p | None => true end) table = true.
Proof. vm_compute. reflexivity. Qed.
Lemma pair_of e q n : In (LUse ["imp"] q n) (program crate e) -> In (q, n) pairs.
Proof.
  intros H. apply table_In in H as (b & H & _). apply (forallb_In _ _ _ pairs_all) in H. cbn [snd is_pair] in H.
  rewrite (proj2 (path_eqb_eq ["imp"] _) eq_refl) in H. apply existsb_exists in H as ([q' n'] & Hin & E). cbn [fst snd] in E. apply andb_prop in E as [E1 E2].
  apply path_eqb_eq in E1 as ->. apply String.eqb_eq in E2 as ->. exact Hin.
Qed.

Definition use_of (q : path) (n : string) (l : leaf) : bool := match l with LUse p q' n' => path_eqb ["imp"] p && path_eqb q q' && String.eqb n n' | _ => false end.
Lemma use_of_In q n l : In (LUse ["imp"] q n) l -> existsb (use_of q n) l = true.
Proof. intros H. apply existsb_exists. eexists. split; [exact H|]. unfold use_of. now rewrite !(proj2 (path_eqb_eq _ _) eq_refl), String.eqb_refl. Qed.
Lemma In_use_of q n l : existsb (use_of q n) l = true -> In (LUse ["imp"] q n) l.
Proof.
  intros H. apply existsb_exists in H as (x & Hx & E). destruct x as [|p q' n'| | | |]; try discriminate E. unfold use_of in E. apply andb_prop in E as [E E3]. apply andb_prop in E as [E1 E2].
  apply path_eqb_eq in E1 as <-. apply path_eqb_eq in E2 as <-. apply String.eqb_eq in E3 as <-. exact Hx.
Qed.
(** Conditions under which some of them occur. *)
Definition wide_ptr : list string := ["AtomicIsize"; "AtomicUsize"; "AtomicPtr"].
Definition conditions : list (path * string * cfg) :=
  map (fun n => (["imp"; "riscv"], n, Any [arch "riscv64"; width "32"])) wide_ptr ++ map (fun n => (["imp"; "riscv"], n, arch "riscv64")) ["AtomicI64"; "AtomicU64"] ++
  map (fun n => (["imp"; "core_atomic"], n, imply esp (width "32"))) wide_ptr ++ map (fun n => (["imp"; "core_atomic"], n, Not esp)) ["AtomicI64"; "AtomicU64"].
Lemma conditions_hold : forallb (fun x => known (snd x) && valid (bex (use_of (fst (fst x)) (snd (fst x)))) (icfg (snd x))) conditions = true.
Proof. vm_compute. reflexivity. Qed.
Lemma condition e q n c : supported crate e -> In (LUse ["imp"] q n) (program crate e) -> In (q, n, c) conditions -> holds e c = true.
Proof.
  intros S H C. apply (forallb_In _ _ _ conditions_hold) in C. cbn [fst snd] in C. refine (only_when (use_of q n) c e C S _). now apply use_of_In.
Qed.

Lemma machine_defined e q n : In (LUse ["imp"] q n) (program crate e) -> exists mc, machine_of e q = Some mc.
Proof.
  intros H. apply pair_of in H.
  repeat (destruct H as [H|H]; [injection H as <- <-; eexists; reflexivity|]). destruct H.
Qed.

Open Scope Z_scope.
Definition bits_named (w : Z) (n : string) : Z :=
  let is := String.eqb n in
  if is "AtomicI8" || is "AtomicU8" then 8 else if is "AtomicI16" || is "AtomicU16" then 16 else if is "AtomicI32" || is "AtomicU32" then 32
  else if is "AtomicI64" || is "AtomicU64" then 64 else if is "AtomicI128" || is "AtomicU128" then 128 else w.
Lemma kind_bits w size t k : kind_named w size t = Some k -> ibits (LayerSpec.int_of k) = bits_named w (inner_named t).
Proof.
  unfold kind_named, inner_named. cbv zeta.
  repeat match goal with |- context [String.eqb t ?s] => destruct (String.eqb_spec t s) as [->|]; [intros [= <-]; reflexivity|] end. discriminate.
Qed.
Lemma pointer_bits_range e : pointer_bits e = 16 \/ pointer_bits e = 32 \/ pointer_bits e = 64.
Proof. unfold pointer_bits. destruct (e "target_pointer_width" (Some "16")), (e "target_pointer_width" (Some "32")); auto. Qed.
Lemma pointer_bits_32 e : holds e (width "32") = true -> pointer_bits e <= 32.
Proof. cbn [holds width]. unfold pointer_bits. intros ->. destruct (e "target_pointer_width" (Some "16")); lia. Qed.

Lemma machine_fits e q n mc : supported crate e -> In (LUse ["imp"] q n) (program crate e) -> machine_of e q = Some mc -> fits mc (bits_named (pointer_bits e) n).
Proof.
  intros S H M. pose proof (pair_of e q n H) as P. pose proof (pointer_bits_range e) as W.
  assert (R : forall n, In (LUse ["imp"] ["imp"; "riscv"] n) (program crate e) -> In n wide_ptr -> pointer_bits e <= (if holds e (arch "riscv64") then 64 else 32)).
  { intros n0 H0 I0. assert (C : holds e (Any [arch "riscv64"; width "32"]) = true).
    { apply (condition e ["imp"; "riscv"] n0 _ S H0). unfold conditions. apply in_or_app. left. apply in_map_iff. exists n0. auto. }
    rewrite !holds_any_cons, holds_any_nil, orb_false_r in C. destruct (holds e (arch "riscv64")); [lia|]. now apply pointer_bits_32. }
  assert (R64 : forall n, In (LUse ["imp"] ["imp"; "riscv"] n) (program crate e) -> In n ["AtomicI64"; "AtomicU64"] -> holds e (arch "riscv64") = true).
  { intros n0 H0 I0. apply (condition e ["imp"; "riscv"] n0 _ S H0). unfold conditions. apply in_or_app. right. apply in_or_app. left. apply in_map_iff. exists n0. auto. }
  assert (X : forall n, In (LUse ["imp"] ["imp"; "core_atomic"] n) (program crate e) -> In n wide_ptr -> holds e esp = true -> pointer_bits e <= 32).
  { intros n0 H0 I0 E. assert (C : holds e (imply esp (width "32")) = true).
    { apply (condition e ["imp"; "core_atomic"] n0 _ S H0). unfold conditions. apply in_or_app. right. apply in_or_app. right. apply in_or_app. left. apply in_map_iff. exists n0. auto. }
    unfold imply in C. rewrite !holds_any_cons, holds_any_nil, holds_not, orb_false_r, E in C. cbn [negb orb] in C. now apply pointer_bits_32. }
  assert (X64 : forall n, In (LUse ["imp"] ["imp"; "core_atomic"] n) (program crate e) -> In n ["AtomicI64"; "AtomicU64"] -> holds e esp = false).
  { intros n0 H0 I0. assert (C : holds e (Not esp) = true).
    { apply (condition e ["imp"; "core_atomic"] n0 _ S H0). unfold conditions. apply in_or_app. right. apply in_or_app. right. apply in_or_app. right. apply in_map_iff. exists n0. auto. }
    rewrite holds_not in C. now apply negb_true_iff in C. }
  repeat (destruct P as [P|P];
    [injection P as <- <-; unfold machine_of, own in M; cbn [path_eqb String.eqb Ascii.eqb Bool.eqb andb] in M; cbv zeta in M; injection M as <-;
     repeat match goal with |- context [if ?b then _ else _] => let E := fresh "E" in destruct b eqn:E end; unfold fits, bits_named;
     cbn [String.eqb Ascii.eqb Bool.eqb orb andb];
     try change (holds e esp = true) in E; try change (holds e (arch "riscv64") = false) in E;
     first [lia | specialize (X64 _ H ltac:(cbn; tauto)); congruence | specialize (R64 _ H ltac:(cbn; tauto)); congruence
           | specialize (X _ H ltac:(cbn; tauto) ltac:(assumption)); lia | specialize (R _ H ltac:(cbn; tauto)); rewrite E in R; lia | specialize (R64 _ H ltac:(cbn; tauto)); congruence ]
    |]).
  destruct P.
Qed.

Lemma kind_exists w size t : In t type_names -> exists k, kind_named w size t = Some k.
Proof. intros T. repeat (destruct T as [<-|T]; [eexists; reflexivity|]). destruct T. Qed.

Definition others : list string := ["fence"; "compiler_fence"; "imp"; "utils"; "cfgs"].
Lemma exports_all : forallb (fun x => match snd x with LDef [] n => existsb (String.eqb n) (type_names ++ others) | _ => true end) table = true.
Proof. vm_compute. reflexivity. Qed.
Lemma exports e n : In (LDef [] n) (program crate e) -> In n type_names \/ In n others.
Proof.
  intros H. apply table_In in H as (b & H & _). apply (forallb_In _ _ _ exports_all) in H. cbn [snd] in H. apply existsb_exists in H as (m & Hm & E). apply String.eqb_eq in E as <-.
  now apply in_app_or in Hm.
Qed.
