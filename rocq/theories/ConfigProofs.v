(** * Checking the crate's configurations *)
From Coq Require Import String List Bool Arith PArith Lia.
From Verif Require Import ConfigSpec ConfigTaut ConfigFlat ConfigTargets ConfigModel.
Import ListNotations.
Local Open Scope list_scope.

(** ** The tables *)
Fixpoint keys_in (c : cfg) : list string :=
  match c with
  | KV k _ | Flag k => [k]
  | Not c => keys_in c
  | Any l | All l => (fix go l := match l with [] => [] | c :: l => keys_in c ++ go l end) l
  end.
Fixpoint vals_in (c : cfg) : list (option string) :=
  match c with
  | KV _ v => [Some v] | Flag _ => [None]
  | Not c => vals_in c
  | Any l | All l => (fix go l := match l with [] => [] | c :: l => vals_in c ++ go l end) l
  end.
Definition nub {A} (eqb : A -> A -> bool) (l : list A) : list A :=
  fold_left (fun acc x => if existsb (eqb x) acc then acc else acc ++ [x]) l [].

Definition flat_crate : list (cfg * leaf) := flat1 crate.
Definition all_cfgs : list cfg := map fst flat_crate ++ target_facts.
Definition keys : list string := Eval vm_compute in nub String.eqb (flat_map keys_in all_cfgs).
Definition vals : list (option string) := Eval vm_compute in nub oeqb (flat_map vals_in all_cfgs).

Definition icfg (c : cfg) : bf := match intern keys vals c with Some b => b | None => BA 1 1 end.
Definition known (c : cfg) : bool := match intern keys vals c with Some _ => true | None => false end.
Definition table : list (bf * leaf) := map (fun x => (icfg (fst x), snd x)) flat_crate.

Lemma all_known : forallb (fun x => known (fst x)) flat_crate = true.
Proof. vm_compute. reflexivity. Qed.
Lemma facts_known : forallb known target_facts = true.
Proof. vm_compute. reflexivity. Qed.
Lemma nub_nodup {A} (eqb : A -> A -> bool) (l : list A) : (forall x y, eqb x y = true <-> x = y) ->
  (fix nd l := match l with [] => true | x :: l => negb (existsb (eqb x) l) && nd l end) l = true -> NoDup l.
Proof.
  intros Heq. induction l as [|x l IH]; intros H; [constructor|].
  apply andb_prop in H as [H1 H2]. constructor; [|now apply IH].
  intros Hx. apply negb_true_iff in H1.
  assert (existsb (eqb x) l = true) as E; [|congruence].
  apply existsb_exists. exists x. split; [exact Hx|]. now apply Heq.
Qed.
Lemma oeqb_iff a b : oeqb a b = true <-> a = b.
Proof. split; [apply oeqb_eq|]. intros <-. destruct a; cbn; [apply String.eqb_refl|reflexivity]. Qed.
Lemma vals_nodup : NoDup vals.
Proof. apply (nub_nodup oeqb); [exact oeqb_iff|]. vm_compute. reflexivity. Qed.

Definition thr (e : env) := through keys vals e.
Definition single := isingle keys.

Lemma icfg_eval e c : known c = true -> beval (thr e) (icfg c) = holds e c.
Proof.
  unfold known, icfg. destruct (intern keys vals c) as [b|] eqn:H; [|discriminate].
  intros _. apply intern_sound. exact H.
Qed.

Lemma table_pick e : pickb (thr e) table = program crate e.
Proof.
  rewrite <- flat1_pick. fold flat_crate. unfold table, pickb, pick.
  pose proof all_known as H. revert H. generalize flat_crate as L.
  induction L as [|[g l] L IH]; intros H; [reflexivity|].
  cbn [forallb fst] in H. apply andb_prop in H as [H1 H2].
  cbn [map filter fst snd]. rewrite (icfg_eval e g H1).
  destruct (holds e g); cbn [map snd]; now rewrite IH.
Qed.

(** ** Formulas about a configuration *)
Definition hyps : bf := mkAnd (ball (map icfg target_facts)) (mkN (bany (bguards rejected table))).

Lemma hyps_eval e : supported crate e -> beval (thr e) hyps = true.
Proof.
  intros (_ & H1 & H2). unfold hyps. rewrite mkAnd_eval, mkN_eval, <- bguards_exists, table_pick, H2, ball_eval.
  cbn [negb]. rewrite andb_true_r. rewrite <- H1.
  pose proof facts_known as K. revert K. generalize target_facts as L.
  induction L as [|c L IH]; intros K; [reflexivity|].
  cbn [forallb] in K. apply andb_prop in K as [K1 K2]. cbn [map forallb].
  now rewrite (icfg_eval e c K1), IH.
Qed.

(** [valid h b]: every supported configuration in which [h] holds satisfies [b]. *)
Definition valid_n (n : nat) (h b : bf) : bool := unsat single n (mkAnd (mkAnd h (mkN b)) hyps).

Lemma valid_n_sound n h b e : valid_n n h b = true -> supported crate e -> beval (thr e) h = true -> beval (thr e) b = true.
Proof.
  intros V S H. unfold valid_n in V.
  assert (O : ok single (thr e)) by (apply through_ok; [exact vals_nodup|exact (proj1 S)]).
  apply (unsat_sound single (thr e) O) in V. revert V.
  rewrite !mkAnd_eval, mkN_eval, (hyps_eval e S), H. cbn [andb]. rewrite andb_true_r.
  intros V. now apply negb_false_iff in V.
Qed.

Definition fuel : nat := 400.
Definition valid (h b : bf) : bool := valid_n fuel h b.
Lemma valid_sound h b e : valid h b = true -> supported crate e -> beval (thr e) h = true -> beval (thr e) b = true.
Proof. exact (valid_n_sound fuel h b e). Qed.

(** ** Ingredients *)
Definition bex (f : leaf -> bool) : bf := bany (bguards f table).
Definition bexp (n : string) : bf := icfg (mcfg (flat0 crate) n).
Definition biff (a b : bf) : bf := mkOr (mkAnd a b) (mkAnd (mkN a) (mkN b)).
Definition bimp (a b : bf) : bf := mkOr (mkN a) b.

Lemma bex_eval e f : beval (thr e) (bex f) = existsb f (program crate e).
Proof. unfold bex. rewrite <- bguards_exists, table_pick. reflexivity. Qed.
Lemma bexp_eval e n : known (mcfg (flat0 crate) n) = true -> beval (thr e) (bexp n) = expands crate e n.
Proof. intros K. unfold bexp. rewrite icfg_eval by exact K. apply mcfg_spec. Qed.
Lemma biff_eval E a b : beval E (biff a b) = Bool.eqb (beval E a) (beval E b).
Proof. unfold biff. rewrite mkOr_eval, !mkAnd_eval, !mkN_eval. destruct (beval E a), (beval E b); reflexivity. Qed.
Lemma bimp_eval E a b : beval E (bimp a b) = implb (beval E a) (beval E b).
Proof. unfold bimp. rewrite mkOr_eval, mkN_eval. destruct (beval E a), (beval E b); reflexivity. Qed.

Lemma table_In e l : In l (program crate e) <-> exists b, In (b, l) table /\ beval (thr e) b = true.
Proof. rewrite <- table_pick. apply pickb_In. Qed.

(** ** The checks *)
Definition per_leaf (f : leaf -> option bf) (h : bf) : bool :=
  forallb (fun x => match f (snd x) with Some b => valid (mkAnd h (fst x)) b | None => true end) table.

Lemma per_leaf_sound f h e l b : per_leaf f h = true -> supported crate e -> beval (thr e) h = true ->
  In l (program crate e) -> f l = Some b -> beval (thr e) b = true.
Proof.
  intros V Hs Hh Hl Hf. unfold per_leaf in V. apply table_In in Hl as (g & Hg & Eg).
  pose proof (proj1 (forallb_forall _ _) V (g, l) Hg) as W. cbn [fst snd] in W. rewrite Hf in W.
  apply (valid_sound _ _ e W Hs). rewrite mkAnd_eval, Hh, Eg. reflexivity.
Qed.

Definition f_call (l : leaf) : option bf :=
  match l with LCall n | LAlias _ n => Some (bone (bguards (is_macro_def n) table)) | _ => None end.
Definition f_use (l : leaf) : option bf :=
  match l with LUse _ q n => Some (bone (bguards (defines q n) table)) | _ => None end.
Definition f_def (l : leaf) : option bf :=
  match l with LDef p n => Some (bone (bguards (defines p n) table)) | _ => None end.
Definition f_error (l : leaf) : option bf :=
  match l with LError _ => Some BF | _ => None end.
Definition nobug : bf := mkN (icfg old_miri_cmpxchg16b).

Lemma checks : per_leaf f_call BT && per_leaf f_use nobug && per_leaf f_def BT && per_leaf f_error BT = true.
Proof. vm_compute. reflexivity. Qed.
Lemma bug_known : known old_miri_cmpxchg16b = true.
Proof. vm_compute. reflexivity. Qed.

Lemma check_call : per_leaf f_call BT = true.
Proof. pose proof checks as H. now apply andb_prop in H as [[[H _]%andb_prop _]%andb_prop _]. Qed.
Lemma check_use : per_leaf f_use nobug = true.
Proof. pose proof checks as H. now apply andb_prop in H as [[[_ H]%andb_prop _]%andb_prop _]. Qed.
Lemma check_def : per_leaf f_def BT = true.
Proof. pose proof checks as H. now apply andb_prop in H as [[_ H]%andb_prop _]. Qed.
Lemma check_error : per_leaf f_error BT = true.
Proof. pose proof checks as H. now apply andb_prop in H as [_ H]. Qed.

Lemma count_one e f : beval (thr e) (bone (bguards f table)) = true -> length (filter f (program crate e)) = 1.
Proof. rewrite bone_eval, <- bguards_count, table_pick. apply Nat.eqb_eq. Qed.

Lemma macro_calls e n : supported crate e -> In (LCall n) (program crate e) \/ (exists a, In (LAlias a n) (program crate e)) ->
  macro_definitions n (program crate e) = 1.
Proof.
  intros S [H|[a H]]; apply count_one; refine (per_leaf_sound f_call BT e _ _ check_call S eq_refl H eq_refl).
Qed.
Lemma uses e at_ q n : supported crate e -> holds e old_miri_cmpxchg16b = false -> In (LUse at_ q n) (program crate e) ->
  definitions q n (program crate e) = 1.
Proof.
  intros S Hb H. apply count_one. refine (per_leaf_sound f_use nobug e _ _ check_use S _ H eq_refl).
  unfold nobug. rewrite mkN_eval, (icfg_eval e _ bug_known), Hb. reflexivity.
Qed.
Lemma defs e p n : supported crate e -> In (LDef p n) (program crate e) -> definitions p n (program crate e) = 1.
Proof. intros S H. apply count_one. refine (per_leaf_sound f_def BT e _ _ check_def S eq_refl H eq_refl). Qed.
Lemma errors e p : supported crate e -> ~ In (LError p) (program crate e).
Proof. intros S H. discriminate (per_leaf_sound f_error BT e _ _ check_error S eq_refl H eq_refl). Qed.

(** ** Facts of other shapes *)
Definition isdef (p : path) (n : string) (l : leaf) : bool := defines p n l.
Lemma path_eqb_eq p q : path_eqb p q = true <-> p = q.
Proof.
  revert q. induction p as [|a p IH]; intros [|b q]; cbn; try (split; (reflexivity || discriminate)).
  rewrite andb_true_iff, IH, String.eqb_eq. split; [intros [-> ->]; reflexivity|intros [= -> ->]; auto].
Qed.
Lemma defines_In p n l : existsb (defines p n) l = true <-> In (LDef p n) l.
Proof.
  rewrite existsb_exists. split.
  - intros (x & Hx & E). destruct x as [p' n'| | | | |]; try discriminate.
    cbn in E. apply andb_prop in E as [E1 E2]. apply path_eqb_eq in E1. apply String.eqb_eq in E2. now subst.
  - intros H. exists (LDef p n). split; [exact H|]. cbn. rewrite String.eqb_refl, (proj2 (path_eqb_eq p p) eq_refl). reflexivity.
Qed.
(** A use by module [p] of something in module [q]. *)
Definition use_from (p q : path) (l : leaf) : bool :=
  match l with LUse p' q' _ => path_eqb p p' && path_eqb q q' | _ => false end.
Lemma use_from_In p q n l : In (LUse p q n) l -> existsb (use_from p q) l = true.
Proof.
  intros H. apply existsb_exists. exists (LUse p q n). split; [exact H|].
  cbn. now rewrite !(proj2 (path_eqb_eq _ _) eq_refl).
Qed.
