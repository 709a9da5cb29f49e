(** * A proved decision procedure for cfg predicates

    [unsat] is a splitting procedure on formulas whose atoms are (key, value) pairs of numbers; a key in [single] has
    at most one value.  [intern] translates cfg predicates; [valid_sound] says that what the procedure accepts holds
    in every single-valued configuration. *)
From Coq Require Import String List Bool Arith PArith Lia.
From Verif Require Import ConfigSpec.
Import ListNotations.
Local Open Scope list_scope.

Inductive bf : Type := BT | BF | BA (k v : positive) | BN (a : bf) | BOr (a b : bf) | BAnd (a b : bf).

Fixpoint beval (E : positive -> positive -> bool) (f : bf) : bool :=
  match f with
  | BT => true | BF => false
  | BA k v => E k v
  | BN a => negb (beval E a)
  | BOr a b => beval E a || beval E b
  | BAnd a b => beval E a && beval E b
  end.

Definition mkN (a : bf) := match a with BT => BF | BF => BT | BN b => b | _ => BN a end.
Definition mkOr (a b : bf) := match a with BT => BT | BF => b | _ => match b with BT => BT | BF => a | _ => BOr a b end end.
Definition mkAnd (a b : bf) := match a with BF => BF | BT => b | _ => match b with BF => BF | BT => a | _ => BAnd a b end end.

Section Dpll.
Variable single : positive -> bool.

Fixpoint assign (k v : positive) (x : bool) (f : bf) : bf :=
  match f with
  | BT => BT | BF => BF
  | BA k' v' => if Pos.eqb k k' then
                  if Pos.eqb v v' then (if x then BT else BF)
                  else if x && single k then BF else f
                else f
  | BN a => mkN (assign k v x a)
  | BOr a b => match assign k v x a with BT => BT | a' => mkOr a' (assign k v x b) end
  | BAnd a b => match assign k v x a with BF => BF | a' => mkAnd a' (assign k v x b) end
  end.

Fixpoint atom (f : bf) : option (positive * positive) :=
  match f with
  | BT | BF => None
  | BA k v => Some (k, v)
  | BN a => atom a
  | BOr a b | BAnd a b => match atom a with Some x => Some x | None => atom b end
  end.

Fixpoint unsat (n : nat) (f : bf) : bool :=
  match f with
  | BF => true
  | BT => false
  | _ => match n with
         | O => false
         | S n => match atom f with
                  | None => false
                  | Some (k, v) => if unsat n (assign k v true f) then unsat n (assign k v false f) else false
                  end
         end
  end.

Definition ok (E : positive -> positive -> bool) : Prop :=
  forall k v w, single k = true -> E k v = true -> E k w = true -> v = w.

Lemma mkN_eval E a : beval E (mkN a) = negb (beval E a).
Proof. destruct a; cbn; try reflexivity. now rewrite negb_involutive. Qed.
Lemma mkOr_eval E a b : beval E (mkOr a b) = beval E a || beval E b.
Proof. destruct a, b; cbn; rewrite ?orb_true_r, ?orb_false_r; reflexivity. Qed.
Lemma mkAnd_eval E a b : beval E (mkAnd a b) = beval E a && beval E b.
Proof. destruct a, b; cbn; rewrite ?andb_true_r, ?andb_false_r; reflexivity. Qed.

Lemma assign_eval E k v f : ok E -> beval E (assign k v (E k v) f) = beval E f.
Proof.
  intros HE. induction f as [| |k' v'|a IH|a IHa b IHb|a IHa b IHb]; cbn [assign]; try reflexivity.
  - destruct (Pos.eqb_spec k k') as [<-|]; [|reflexivity].
    destruct (Pos.eqb_spec v v') as [<-|n].
    + destruct (E k v) eqn:H; cbn; now rewrite ?H.
    + destruct (E k v) eqn:H, (single k) eqn:Hs; try reflexivity; cbn.
      destruct (E k v') eqn:H'; [|reflexivity]. elim n. exact (HE k v v' Hs H H').
  - rewrite mkN_eval, IH. reflexivity.
  - assert (H : beval E (mkOr (assign k v (E k v) a) (assign k v (E k v) b)) = beval E (BOr a b)).
    { rewrite mkOr_eval, IHa, IHb. reflexivity. }
    destruct (assign k v (E k v) a) eqn:Ha; exact H.
  - assert (H : beval E (mkAnd (assign k v (E k v) a) (assign k v (E k v) b)) = beval E (BAnd a b)).
    { rewrite mkAnd_eval, IHa, IHb. reflexivity. }
    destruct (assign k v (E k v) a) eqn:Ha; exact H.
Qed.

Lemma unsat_sound E : ok E -> forall n f, unsat n f = true -> beval E f = false.
Proof.
  intros HE. induction n as [|n IH]; intros f H.
  - destruct f; cbn in *; try discriminate; reflexivity.
  - assert (G : match atom f with
                | None => false
                | Some (k, v) => if unsat n (assign k v true f) then unsat n (assign k v false f) else false
                end = true \/ f = BF).
    { destruct f; first [left; exact H | discriminate H | right; reflexivity]. }
    destruct G as [G| -> ]; [|reflexivity].
    destruct (atom f) as [[k v]|]; [|discriminate].
    rewrite <- (assign_eval E k v f HE).
    destruct (unsat n (assign k v true f)) eqn:H1; [|discriminate].
    destruct (E k v); apply IH; assumption.
Qed.
End Dpll.

(** ** Interning *)
Fixpoint find_pos {A} (eqb : A -> A -> bool) (x : A) (l : list A) (i : positive) : option positive :=
  match l with [] => None | y :: l => if eqb x y then Some i else find_pos eqb x l (Pos.succ i) end.

Definition oeqb (a b : option string) : bool :=
  match a, b with None, None => true | Some x, Some y => String.eqb x y | _, _ => false end.

Section Intern.
Variables (keys : list string) (vals : list (option string)).

Definition iatom (k : string) (v : option string) : option bf :=
  match find_pos String.eqb k keys 1, find_pos oeqb v vals 1 with
  | Some i, Some j => Some (BA i j)
  | _, _ => None
  end.

Fixpoint intern (c : cfg) : option bf :=
  match c with
  | KV k v => iatom k (Some v)
  | Flag f => iatom f None
  | Not c => option_map mkN (intern c)
  | Any l => (fix go l := match l with
                          | [] => Some BF
                          | c :: l => match intern c, go l with Some a, Some b => Some (mkOr a b) | _, _ => None end
                          end) l
  | All l => (fix go l := match l with
                          | [] => Some BT
                          | c :: l => match intern c, go l with Some a, Some b => Some (mkAnd a b) | _, _ => None end
                          end) l
  end.


(** The configuration seen through the tables. *)
Definition through (e : env) (k v : positive) : bool :=
  match nth_error keys (Pos.to_nat k - 1), nth_error vals (Pos.to_nat v - 1) with
  | Some ks, Some vo => e ks vo
  | _, _ => false
  end.

Definition isingle (k : positive) : bool :=
  match nth_error keys (Pos.to_nat k - 1) with
  | Some ks => existsb (String.eqb ks) one_value
  | None => false
  end.
End Intern.

Lemma find_pos_nth {A} (eqb : A -> A -> bool) (Heq : forall x y, eqb x y = true -> x = y) x : forall l i j,
  find_pos eqb x l i = Some j -> nth_error l (Pos.to_nat j - Pos.to_nat i) = Some x /\ (i <= j)%positive.
Proof.
  induction l as [|y l IH]; intros i j H; cbn in H; [discriminate|].
  destruct (eqb x y) eqn:E.
  - injection H as <-. rewrite Nat.sub_diag. cbn. split; [f_equal; symmetry; now apply Heq|lia].
  - destruct (IH _ _ H) as [H1 H2].
    replace (Pos.to_nat j - Pos.to_nat i) with (S (Pos.to_nat j - Pos.to_nat (Pos.succ i))) by lia.
    split; [exact H1|lia].
Qed.

Lemma oeqb_eq a b : oeqb a b = true -> a = b.
Proof. destruct a, b; cbn; try discriminate; [|reflexivity]. intros H. apply String.eqb_eq in H. now subst. Qed.
Lemma seqb_eq a b : String.eqb a b = true -> a = b.
Proof. apply String.eqb_eq. Qed.

Section CfgInd.
Variable P : cfg -> Prop.
Hypothesis HKV : forall k v, P (KV k v).
Hypothesis HFlag : forall f, P (Flag f).
Hypothesis HNot : forall c, P c -> P (Not c).
Hypothesis HAny : forall l, Forall P l -> P (Any l).
Hypothesis HAll : forall l, Forall P l -> P (All l).
Fixpoint cfg_ind' (c : cfg) : P c :=
  match c with
  | KV k v => HKV k v
  | Flag f => HFlag f
  | Not c => HNot c (cfg_ind' c)
  | Any l => HAny l ((fix go l := match l return Forall P l with [] => Forall_nil _ | c :: l => Forall_cons _ (cfg_ind' c) (go l) end) l)
  | All l => HAll l ((fix go l := match l return Forall P l with [] => Forall_nil _ | c :: l => Forall_cons _ (cfg_ind' c) (go l) end) l)
  end.
End CfgInd.

Section Sound.
Variables (keys : list string) (vals : list (option string)).

Lemma iatom_sound e k v b : iatom keys vals k v = Some b -> beval (through keys vals e) b = e k v.
Proof.
  unfold iatom. destruct (find_pos String.eqb k keys 1) as [i|] eqn:Hi; [|discriminate].
  destruct (find_pos oeqb v vals 1) as [j|] eqn:Hj; [|discriminate].
  intros [= <-]. cbn. unfold through.
  destruct (find_pos_nth _ seqb_eq _ _ _ _ Hi) as [Hi' _].
  destruct (find_pos_nth _ oeqb_eq _ _ _ _ Hj) as [Hj' _].
  change (Pos.to_nat 1) with 1 in *. rewrite Hi', Hj'. reflexivity.
Qed.

Lemma intern_sound e c : forall b, intern keys vals c = Some b -> beval (through keys vals e) b = holds e c.
Proof.
  induction c as [k v|f|c IH|l IH|l IH] using cfg_ind'; intros b H.
  - apply iatom_sound. exact H.
  - apply iatom_sound. exact H.
  - cbn in H. destruct (intern keys vals c) as [a|] eqn:Hc; [|discriminate].
    cbn in H. injection H as <-. rewrite mkN_eval, (IH _ eq_refl). reflexivity.
  - revert b H. induction IH as [|c l Hc Hl IHl]; intros b H; cbn in H.
    + injection H as <-. reflexivity.
    + destruct (intern keys vals c) as [a|] eqn:Ec; [|discriminate].
      match type of H with match ?x with _ => _ end = _ => destruct x as [a'|] eqn:El end; [|discriminate].
      injection H as <-. rewrite mkOr_eval, (Hc _ eq_refl).
      change (holds e (Any (c :: l))) with (holds e c || holds e (Any l)). f_equal. apply IHl. exact El.
  - revert b H. induction IH as [|c l Hc Hl IHl]; intros b H; cbn in H.
    + injection H as <-. reflexivity.
    + destruct (intern keys vals c) as [a|] eqn:Ec; [|discriminate].
      match type of H with match ?x with _ => _ end = _ => destruct x as [a'|] eqn:El end; [|discriminate].
      injection H as <-. rewrite mkAnd_eval, (Hc _ eq_refl).
      change (holds e (All (c :: l))) with (holds e c && holds e (All l)). f_equal. apply IHl. exact El.
Qed.

Hypothesis vals_nodup : NoDup vals.

Lemma through_ok e : single_valued e -> ok (isingle keys) (through keys vals e).
Proof.
  intros He k v w Hk. unfold through, isingle in *.
  destruct (nth_error keys (Pos.to_nat k - 1)) as [ks|]; [|discriminate].
  assert (Hin : In ks one_value).
  { apply existsb_exists in Hk as (x & Hx & E). apply String.eqb_eq in E. now subst. }
  destruct (nth_error vals (Pos.to_nat v - 1)) as [a|] eqn:Ha; [|discriminate].
  destruct (nth_error vals (Pos.to_nat w - 1)) as [b|] eqn:Hb; [|discriminate].
  intros H1 H2.
  assert (a = b) as -> by exact (He ks a b Hin H1 H2).
  assert (Hlt : Pos.to_nat v - 1 < length vals) by (apply nth_error_Some; congruence).
  assert (E : Pos.to_nat v - 1 = Pos.to_nat w - 1).
  { apply (proj1 (NoDup_nth_error vals) vals_nodup); [exact Hlt|congruence]. }
  apply Pos2Nat.inj. pose proof (Pos2Nat.is_pos v). pose proof (Pos2Nat.is_pos w). lia.
Qed.
End Sound.
