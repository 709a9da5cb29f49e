(** * Facts about which types exist and which implementation is chosen *)
From Coq Require Import String List Bool Arith PArith Lia.
From Verif Require Import ConfigSpec ConfigTaut ConfigFlat ConfigTargets ConfigModel ConfigProofs.
Import ListNotations.
Local Open Scope list_scope.

Definition has_macro (w : string) : string := String.append "cfg_has_atomic_" w.
Definition no_macro (w : string) : string := String.append "cfg_no_atomic_" w.

Lemma forallb_In {A} (f : A -> bool) l x : forallb f l = true -> In x l -> f x = true.
Proof. intros H. apply forallb_forall. exact H. Qed.

Definition all_ws : list string := ["8"; "16"; "32"; "64"; "128"; "ptr"; "cas"]%string.

Lemma ws_known : forallb (fun w => known (mcfg (flat0 crate) (has_macro w)) && known (mcfg (flat0 crate) (no_macro w))) all_ws = true.
Proof. vm_compute. reflexivity. Qed.
Lemma bhas_eval e w : In w all_ws -> beval (thr e) (bexp (has_macro w)) = expands crate e (has_macro w).
Proof. intros H. apply bexp_eval. apply (forallb_In _ _ _ ws_known) in H. now apply andb_prop in H as [H _]. Qed.
Lemma bno_eval e w : In w all_ws -> beval (thr e) (bexp (no_macro w)) = expands crate e (no_macro w).
Proof. intros H. apply bexp_eval. apply (forallb_In _ _ _ ws_known) in H. now apply andb_prop in H as [_ H]. Qed.

Lemma has_or_no e w : supported crate e -> In w all_ws -> expands crate e (has_macro w) = negb (expands crate e (no_macro w)).
Proof.
  intros S H. rewrite <- (bhas_eval e w H), <- (bno_eval e w H).
  assert (V : forallb (fun w => valid BT (biff (bexp (has_macro w)) (mkN (bexp (no_macro w))))) all_ws = true)
    by (vm_compute; reflexivity).
  apply (forallb_In _ _ _ V) in H. pose proof (valid_sound _ _ e H S eq_refl) as W.
  rewrite biff_eval, mkN_eval in W. apply eqb_prop in W. exact W.
Qed.

Lemma has_when (c : cfg) (ws : list string) e w :
  known c && forallb (fun w => valid (icfg c) (bexp (has_macro w))) ws = true ->
  incl ws all_ws -> supported crate e -> holds e c = true -> In w ws -> expands crate e (has_macro w) = true.
Proof.
  intros [K V]%andb_prop I S Hc H. rewrite <- (bhas_eval e w (I _ H)).
  apply (forallb_In _ _ _ V) in H. apply (valid_sound _ _ e H S). rewrite (icfg_eval e c K). exact Hc.
Qed.

(** [f] is left only when [c] holds. *)
Lemma only_when (f : leaf -> bool) (c : cfg) e : known c && valid (bex f) (icfg c) = true ->
  supported crate e -> existsb f (program crate e) = true -> holds e c = true.
Proof.
  intros [K V]%andb_prop S H. rewrite <- (icfg_eval e c K). apply (valid_sound _ _ e V S). rewrite bex_eval. exact H.
Qed.

Lemma two_way (f : leaf -> bool) (c : cfg) (m : string) e :
  known c && known (mcfg (flat0 crate) m) && valid BT (biff (bex f) (mkAnd (icfg c) (bexp m))) = true ->
  supported crate e -> (existsb f (program crate e) = true <-> holds e c = true /\ expands crate e m = true).
Proof.
  intros [[K1 K2]%andb_prop V]%andb_prop S. pose proof (valid_sound _ _ e V S eq_refl) as W.
  rewrite biff_eval, mkAnd_eval, bex_eval, (icfg_eval e c K1), (bexp_eval e m K2) in W. apply eqb_prop in W. rewrite W.
  apply andb_true_iff.
Qed.

Lemma macro_iff (m : string) (c : cfg) e :
  known c && known (mcfg (flat0 crate) m) && valid BT (biff (bexp m) (icfg c)) = true ->
  supported crate e -> expands crate e m = holds e c.
Proof.
  intros [[K1 K2]%andb_prop V]%andb_prop S. pose proof (valid_sound _ _ e V S eq_refl) as W.
  rewrite biff_eval, (icfg_eval e c K1), (bexp_eval e m K2) in W. now apply eqb_prop in W.
Qed.

Lemma when_or (f g : leaf -> bool) (c d : cfg) e :
  known c && known d && valid (bex f) (mkAnd (icfg c) (mkOr (icfg d) (bex g))) = true ->
  supported crate e -> existsb f (program crate e) = true ->
  holds e c = true /\ (holds e d = true \/ existsb g (program crate e) = true).
Proof.
  intros [[K1 K2]%andb_prop V]%andb_prop S H. assert (Hh : beval (thr e) (bex f) = true) by (rewrite bex_eval; exact H).
  pose proof (valid_sound _ _ e V S Hh) as W.
  rewrite mkAnd_eval, mkOr_eval, !icfg_eval, bex_eval in W by assumption.
  apply andb_prop in W as [W1 W2]. apply orb_prop in W2. now split.
Qed.

Lemma never_when (f : leaf -> bool) (c : cfg) e : known c && valid (icfg c) (mkN (bex f)) = true ->
  supported crate e -> holds e c = true -> existsb f (program crate e) = false.
Proof.
  intros [K V]%andb_prop S H. assert (Hh : beval (thr e) (icfg c) = true) by (rewrite (icfg_eval e c K); exact H).
  pose proof (valid_sound _ _ e V S Hh) as W.
  rewrite mkN_eval, bex_eval in W. now apply negb_true_iff in W.
Qed.

(** ** Configurations given by lists *)
Definition same_key_same_value (l : list (string * option string)) : bool :=
  forallb (fun x => forallb (fun y => if existsb (String.eqb (fst x)) one_value && String.eqb (fst x) (fst y)
                                      then oeqb (snd x) (snd y) else true) l) l.
Lemma of_list_In l k v : of_list l k v = true -> In (k, v) l.
Proof.
  unfold of_list. intros ([k' v'] & H & E)%existsb_exists. cbn [fst snd] in E.
  apply andb_prop in E as [E1 E2]. apply String.eqb_eq in E1 as ->.
  change (oeqb v' v = true) in E2. apply oeqb_eq in E2 as ->. exact H.
Qed.
Lemma of_list_single l : same_key_same_value l = true -> single_valued (of_list l).
Proof.
  intros H k v w Hk Hv Hw. apply of_list_In in Hv, Hw.
  apply (forallb_In _ _ _ H) in Hv. cbn [fst snd] in Hv. apply (forallb_In _ _ _ Hv) in Hw. cbn [fst snd] in Hw.
  rewrite String.eqb_refl, andb_true_r in Hw.
  assert (existsb (String.eqb k) one_value = true) as E.
  { apply existsb_exists. exists k. split; [exact Hk|apply String.eqb_refl]. }
  rewrite E in Hw. now apply oeqb_eq.
Qed.
Lemma of_list_supported l :
  same_key_same_value l && forallb (holds (of_list l)) target_facts && negb (existsb rejected (program crate (of_list l))) = true ->
  supported crate (of_list l).
Proof.
  intros [[H1 H2]%andb_prop H3]%andb_prop. split; [now apply of_list_single|]. split; [exact H2|].
  now apply negb_true_iff in H3.
Qed.

(** The errors at the top of lib.rs, for every real configuration (supported or not). *)
Definition facts0 : bf := ball (map icfg target_facts).
Lemma facts0_eval e : real e -> beval (thr e) facts0 = true.
Proof.
  intros [_ H]. unfold facts0. rewrite ball_eval, <- H.
  pose proof facts_known as K. revert K. generalize target_facts as L.
  induction L as [|c L IH]; intros K; [reflexivity|].
  cbn [forallb] in K. apply andb_prop in K as [K1 K2]. cbn [map forallb].
  now rewrite (icfg_eval e c K1), IH.
Qed.
Lemma real_iff n (f : leaf -> bool) (c : cfg) e :
  known c && unsat single n (mkAnd (mkN (biff (bex f) (icfg c))) facts0) = true ->
  real e -> existsb f (program crate e) = holds e c.
Proof.
  intros [K V]%andb_prop R.
  assert (O : ok single (thr e)) by (apply through_ok; [exact vals_nodup|exact (proj1 R)]).
  apply (unsat_sound single (thr e) O) in V. revert V.
  rewrite mkAnd_eval, mkN_eval, (facts0_eval e R), andb_true_r, biff_eval, bex_eval, (icfg_eval e c K).
  intros V. apply negb_false_iff in V. now apply eqb_prop in V.
Qed.
