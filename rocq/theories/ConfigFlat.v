(** * Flattening the item tree

    [flat] lists every leaf of the tree with the predicate under which it is left; [pick_flat] says that picking the
    leaves whose predicate holds gives exactly what [left_] gives. *)
From Coq Require Import String List Bool Arith PArith Lia.
From Verif Require Import ConfigSpec ConfigTaut.
Import ListNotations.
Local Open Scope list_scope.

Definition acfg (a : attr) : cfg := match a with Cfg c => c | CfgAttr p c => Any [Not p; c] end.
Definition both (g : cfg) (l : list attr) : cfg := All (g :: map acfg l).

Fixpoint flat (M : string -> cfg) (p : path) (g : cfg) (i : item) {struct i} : list (cfg * leaf) :=
  let items := fix items (p : path) (g : cfg) (l : list item) : list (cfg * leaf) :=
    match l with [] => [] | i :: l => flat M p g i ++ items p g l end in
  let bodies := fix bodies (p : path) (g : cfg) (l : list (cfg * list item)) : list (cfg * leaf) :=
    match l with [] => [] | (c, b) :: l => items p (All [g; c]) b ++ bodies p (All [g; Not c]) l end in
  let branches := fix branches (g : cfg) (l : list (option (list attr) * list item)) : list (cfg * leaf) :=
    match l with
    | [] => []
    | (None, b) :: _ => items p g b
    | (Some a, b) :: l => items p (both g a) b ++ branches (All [g; Not (All (map acfg a))]) l
    end in
  match i with
  | Def a n => [(both g a, LDef p n)]
  | Use a q n x => [(both g a, LUse p q n); (both g a, LDef p x)]
  | Ref a q n => [(both g a, LUse p q n)]
  | Mod a n b => (both g a, LDef p n) :: bodies (p ++ [n]) (both g a) b
  | Items a l => items p (both g a) l
  | Sel a l => branches (both g a) l
  | Block a n l => (both g a, LCall n) :: items p (All [both g a; M n]) l
  | MacroDef a n x => match x with
                      | Some b => [(both (both g a) b, LMacro n true); (All [both g a; Not (All (map acfg b))], LMacro n false)]
                      | None => [(both g a, LMacro n false)]
                      end
  | MacroAlias a n o => [(both g a, LAlias n o)]
  | CompileError a => [(both g a, LError p)]
  end.

Definition flat_items M p g (l : list item) : list (cfg * leaf) := flat_map (flat M p g) l.

Section ItemInd.
Variable P : item -> Prop.
Hypothesis HDef : forall a n, P (Def a n).
Hypothesis HUse : forall a q n x, P (Use a q n x).
Hypothesis HRef : forall a q n, P (Ref a q n).
Hypothesis HMod : forall a n b, Forall (fun x => Forall P (snd x)) b -> P (Mod a n b).
Hypothesis HItems : forall a l, Forall P l -> P (Items a l).
Hypothesis HSel : forall a l, Forall (fun x => Forall P (snd x)) l -> P (Sel a l).
Hypothesis HBlock : forall a n l, Forall P l -> P (Block a n l).
Hypothesis HMacroDef : forall a n x, P (MacroDef a n x).
Hypothesis HMacroAlias : forall a n o, P (MacroAlias a n o).
Hypothesis HErr : forall a, P (CompileError a).
Fixpoint item_ind' (i : item) : P i :=
  let items := fix items (l : list item) : Forall P l :=
    match l with [] => Forall_nil _ | i :: l => Forall_cons _ (item_ind' i) (items l) end in
  match i with
  | Def a n => HDef a n
  | Use a q n x => HUse a q n x
  | Ref a q n => HRef a q n
  | Mod a n b => HMod a n b ((fix bs l : Forall (fun x => Forall P (snd x)) l :=
      match l with [] => Forall_nil _ | x :: l => Forall_cons x (items (snd x)) (bs l) end) b)
  | Items a l => HItems a l (items l)
  | Sel a l => HSel a l ((fix bs l : Forall (fun x => Forall P (snd x)) l :=
      match l with [] => Forall_nil _ | x :: l => Forall_cons x (items (snd x)) (bs l) end) l)
  | Block a n l => HBlock a n l (items l)
  | MacroDef a n x => HMacroDef a n x
  | MacroAlias a n o => HMacroAlias a n o
  | CompileError a => HErr a
  end.
End ItemInd.

Definition pick {A} (e : env) (l : list (cfg * A)) : list A := map snd (filter (fun x => holds e (fst x)) l).

Lemma pick_app {A} e (a b : list (cfg * A)) : pick e (a ++ b) = pick e a ++ pick e b.
Proof. unfold pick. now rewrite filter_app, map_app. Qed.
Lemma pick_cons {A} e g (l : A) a : pick e ((g, l) :: a) = (if holds e g then [l] else []) ++ pick e a.
Proof. unfold pick. cbn. destruct (holds e g); reflexivity. Qed.
Lemma pick_nil {A} e : pick e (@nil (cfg * A)) = [].
Proof. reflexivity. Qed.

Lemma holds_all_cons e c l : holds e (All (c :: l)) = holds e c && holds e (All l).
Proof. reflexivity. Qed.
Lemma holds_any_cons e c l : holds e (Any (c :: l)) = holds e c || holds e (Any l).
Proof. reflexivity. Qed.
Lemma holds_all_nil e : holds e (All []) = true. Proof. reflexivity. Qed.
Lemma holds_any_nil e : holds e (Any []) = false. Proof. reflexivity. Qed.
Lemma holds_not e c : holds e (Not c) = negb (holds e c). Proof. reflexivity. Qed.

Lemma holds_attrs e l : holds e (All (map acfg l)) = attrs_hold e l.
Proof.
  induction l as [|a l IH]; [reflexivity|].
  cbn [map]. rewrite holds_all_cons, IH. unfold attrs_hold. cbn [forallb]. f_equal.
  destruct a; cbn; [reflexivity|]. now rewrite orb_false_r.
Qed.
Lemma holds_both e g l : holds e (both g l) = holds e g && attrs_hold e l.
Proof. unfold both. now rewrite holds_all_cons, holds_attrs. Qed.

Lemma pick_flat (e : env) (m : string -> bool) (M : string -> cfg) (HM : forall n, holds e (M n) = m n) :
  forall i p g, pick e (flat M p g i) = if holds e g then left_ e m p i else [].
Proof.
  assert (HI : forall l, Forall (fun i => forall p g, pick e (flat M p g i) = if holds e g then left_ e m p i else []) l ->
    forall p g, pick e ((fix items (p : path) (g : cfg) (l : list item) : list (cfg * leaf) :=
      match l with [] => [] | i :: l => flat M p g i ++ items p g l end) p g l)
    = if holds e g then (fix items (p : path) (l : list item) : list leaf :=
        match l with [] => [] | i :: l => left_ e m p i ++ items p l end) p l else []).
  { induction 1 as [|i l Hi Hl IH]; intros p g; [rewrite pick_nil; now destruct (holds e g)|].
    rewrite pick_app, Hi, IH. destruct (holds e g); reflexivity. }
  intros i. induction i as [a n|a q n x|a q n|a n b IH|a l IH|a l IH|a n l IH|a n x|a n o|a] using item_ind'; intros p g;
    cbn [flat left_].
  - rewrite pick_cons, pick_nil, holds_both. destruct (holds e g), (attrs_hold e a); reflexivity.
  - rewrite !pick_cons, pick_nil, !holds_both. destruct (holds e g), (attrs_hold e a); reflexivity.
  - rewrite pick_cons, pick_nil, holds_both. destruct (holds e g), (attrs_hold e a); reflexivity.
  - rewrite pick_cons, holds_both.
    assert (HB : forall p g,
      pick e ((fix bodies (p : path) (g : cfg) (l : list (cfg * list item)) : list (cfg * leaf) :=
        match l with [] => [] | (c, b) :: l =>
          (fix items (p : path) (g : cfg) (l : list item) : list (cfg * leaf) :=
             match l with [] => [] | i :: l => flat M p g i ++ items p g l end) p (All [g; c]) b
          ++ bodies p (All [g; Not c]) l end) p g b)
      = if holds e g then (fix bodies (p : path) (l : list (cfg * list item)) : list leaf :=
          match l with [] => [] | (c, b) :: l => if holds e c then
            (fix items (p : path) (l : list item) : list leaf :=
               match l with [] => [] | i :: l => left_ e m p i ++ items p l end) p b else bodies p l end) p b else []).
    { clear p g. induction IH as [|[c b'] l Hb Hl IHl]; intros p g; [rewrite pick_nil; now destruct (holds e g)|].
      rewrite pick_app, (HI _ Hb), IHl, !holds_all_cons, holds_all_nil, holds_not.
      destruct (holds e g), (holds e c); cbn [andb negb]; rewrite ?app_nil_r; reflexivity. }
    rewrite HB, holds_both.
    destruct (holds e g), (attrs_hold e a); reflexivity.
  - rewrite (HI _ IH), holds_both. destruct (holds e g), (attrs_hold e a); reflexivity.
  - assert (HB : forall g,
      pick e ((fix branches (g : cfg) (l : list (option (list attr) * list item)) : list (cfg * leaf) :=
        match l with
        | [] => []
        | (None, b) :: _ => (fix items (p : path) (g : cfg) (l : list item) : list (cfg * leaf) :=
             match l with [] => [] | i :: l => flat M p g i ++ items p g l end) p g b
        | (Some a, b) :: l => (fix items (p : path) (g : cfg) (l : list item) : list (cfg * leaf) :=
             match l with [] => [] | i :: l => flat M p g i ++ items p g l end) p (both g a) b
             ++ branches (All [g; Not (All (map acfg a))]) l
        end) g l)
      = if holds e g then (fix branches (l : list (option (list attr) * list item)) : list leaf :=
        match l with
        | [] => []
        | (None, b) :: _ => (fix items (p : path) (l : list item) : list leaf :=
               match l with [] => [] | i :: l => left_ e m p i ++ items p l end) p b
        | (Some a, b) :: l => if attrs_hold e a then (fix items (p : path) (l : list item) : list leaf :=
               match l with [] => [] | i :: l => left_ e m p i ++ items p l end) p b else branches l
        end) l else []).
    { clear g a. induction IH as [|[[a|] b'] l Hb Hl IHl]; intros g; [rewrite pick_nil; now destruct (holds e g)| |].
      - rewrite pick_app, (HI _ Hb), IHl, holds_both, !holds_all_cons, holds_all_nil, holds_not, holds_attrs.
        destruct (holds e g), (attrs_hold e a); cbn [andb negb]; rewrite ?app_nil_r; reflexivity.
      - rewrite (HI _ Hb). reflexivity. }
    rewrite HB, holds_both. destruct (holds e g), (attrs_hold e a); reflexivity.
  - rewrite pick_cons, (HI _ IH), holds_all_cons, !holds_both, holds_all_cons, holds_all_nil, HM.
    destruct (holds e g), (attrs_hold e a), (m n); reflexivity.
  - destruct x as [b|].
    + rewrite !pick_cons, pick_nil, holds_all_cons, !holds_both, holds_all_cons, holds_all_nil, holds_not, holds_attrs.
      destruct (holds e g), (attrs_hold e a), (attrs_hold e b); reflexivity.
    + rewrite pick_cons, pick_nil, holds_both. destruct (holds e g), (attrs_hold e a); reflexivity.
  - rewrite pick_cons, pick_nil, holds_both. destruct (holds e g), (attrs_hold e a); reflexivity.
  - rewrite pick_cons, pick_nil, holds_both. destruct (holds e g), (attrs_hold e a); reflexivity.
Qed.

Lemma pick_flat_items e m M p l : (forall n, holds e (M n) = m n) ->
  pick e (flat_items M p (All []) l) = left_items e m p l.
Proof.
  intros HM. induction l as [|i l IH]; [reflexivity|].
  change (flat_items M p (All []) (i :: l)) with (flat M p (All []) i ++ flat_items M p (All []) l).
  rewrite pick_app, (pick_flat e m M HM), IH. reflexivity.
Qed.

(** ** The macros *)
Definition guards (f : leaf -> bool) (L : list (cfg * leaf)) : list cfg := map fst (filter (fun x => f (snd x)) L).

Lemma any_guards e f L : holds e (Any (guards f L)) = existsb f (pick e L).
Proof.
  induction L as [|[g l] L IH]; [reflexivity|].
  rewrite pick_cons, existsb_app. unfold guards in *. cbn [filter snd].
  destruct (f l) eqn:Hf; cbn [map fst]; [rewrite holds_any_cons|]; rewrite IH;
    destruct (holds e g); cbn; rewrite ?Hf; reflexivity.
Qed.

Definition flat0 (c : list item) : list (cfg * leaf) := flat_items (fun _ => Any []) [] (All []) c.

Definition yes (L : list (cfg * leaf)) (n : string) : cfg := Any (guards (macro_yes n) L).
Definition aliases (L : list (cfg * leaf)) (n : string) : list (cfg * leaf) :=
  filter (fun x => match snd x with LAlias n' _ => String.eqb n n' | _ => false end) L.
Definition mcfg (L : list (cfg * leaf)) (n : string) : cfg :=
  Any (yes L n :: map (fun x => All [fst x; match snd x with LAlias _ o => yes L o | _ => Any [] end]) (aliases L n)).

Lemma flat0_pick c e : pick e (flat0 c) = outside c e.
Proof. unfold outside. apply pick_flat_items. reflexivity. Qed.

Lemma aliases_spec c e n L :
  holds e (Any (map (fun x => All [fst x; match snd x with LAlias _ o => yes (flat0 c) o | _ => Any [] end]) (aliases L n)))
  = existsb (fun l => match l with LAlias n' o => String.eqb n n' && existsb (macro_yes o) (outside c e) | _ => false end)
      (pick e L).
Proof.
  unfold aliases. induction L as [|[g l] L IH]; [reflexivity|].
  rewrite pick_cons, existsb_app. cbn [filter snd].
  destruct l as [| | |n' o| |].
  4: { destruct (String.eqb n n') eqn:E.
       - cbn [map fst snd]. rewrite holds_any_cons, IH, !holds_all_cons, holds_all_nil. unfold yes.
         rewrite any_guards, flat0_pick.
         destruct (holds e g); cbn [existsb]; rewrite ?E, ?andb_true_r, ?orb_false_r; reflexivity.
       - rewrite IH. destruct (holds e g); cbn [existsb]; rewrite ?E; reflexivity. }
  all: rewrite IH; destruct (holds e g); reflexivity.
Qed.

Lemma mcfg_spec c e n : holds e (mcfg (flat0 c) n) = expands c e n.
Proof.
  unfold mcfg, expands. rewrite holds_any_cons, aliases_spec. unfold yes. rewrite any_guards, flat0_pick. reflexivity.
Qed.

(** The whole crate. *)
Definition flat1 (c : list item) : list (cfg * leaf) :=
  let L := flat0 c in flat_items (mcfg L) [] (All []) c.

Lemma flat1_pick c e : pick e (flat1 c) = program c e.
Proof. unfold program, flat1. apply pick_flat_items. intros n. apply mcfg_spec. Qed.

(** ** Interned *)
Section Interned.
Variables (keys : list string) (vals : list (option string)).

Fixpoint intern_all (L : list (cfg * leaf)) : option (list (bf * leaf)) :=
  match L with
  | [] => Some []
  | (g, l) :: L => match intern keys vals g, intern_all L with Some b, Some L => Some ((b, l) :: L) | _, _ => None end
  end.

Definition pickb (E : positive -> positive -> bool) (L : list (bf * leaf)) : list leaf :=
  map snd (filter (fun x => beval E (fst x)) L).

Lemma intern_all_pick e L B : intern_all L = Some B -> pickb (through keys vals e) B = pick e L.
Proof.
  revert B. induction L as [|[g l] L IH]; intros B H; cbn in H; [injection H as <-; reflexivity|].
  destruct (intern keys vals g) as [b|] eqn:Hb; [|discriminate].
  destruct (intern_all L) as [B'|] eqn:HB; [|discriminate]. injection H as <-.
  unfold pickb, pick in *. cbn [filter fst]. rewrite (intern_sound keys vals e g b Hb).
  destruct (holds e g); cbn; now rewrite (IH _ eq_refl).
Qed.
End Interned.

Definition bguards (f : leaf -> bool) (B : list (bf * leaf)) : list bf := map fst (filter (fun x => f (snd x)) B).
Definition bany (l : list bf) : bf := fold_right mkOr BF l.
Definition ball (l : list bf) : bf := fold_right mkAnd BT l.
Fixpoint bone (l : list bf) : bf :=
  match l with
  | [] => BF
  | b :: l => mkOr (mkAnd b (mkN (bany l))) (mkAnd (mkN b) (bone l))
  end.

Section Eval.
Variable E : positive -> positive -> bool.
Lemma bany_eval l : beval E (bany l) = existsb (beval E) l.
Proof.
  induction l as [|b l IH]; [reflexivity|].
  change (bany (b :: l)) with (mkOr b (bany l)). rewrite mkOr_eval, IH. reflexivity.
Qed.
Lemma ball_eval l : beval E (ball l) = forallb (beval E) l.
Proof.
  induction l as [|b l IH]; [reflexivity|].
  change (ball (b :: l)) with (mkAnd b (ball l)). rewrite mkAnd_eval, IH. reflexivity.
Qed.
Lemma filter_none {A} (f : A -> bool) l : length (filter f l) = 0 <-> existsb f l = false.
Proof. induction l as [|a l IH]; cbn; [tauto|]. destruct (f a); cbn; [split; discriminate|exact IH]. Qed.
Lemma bone_eval l : beval E (bone l) = (length (filter (beval E) l) =? 1).
Proof.
  induction l as [|b l IH]; cbn; [reflexivity|].
  rewrite mkOr_eval, !mkAnd_eval, !mkN_eval, bany_eval, IH.
  destruct (beval E b); cbn.
  - pose proof (filter_none (beval E) l) as H.
    destruct (existsb (beval E) l); cbn.
    + destruct (length (filter (beval E) l)); [discriminate (proj1 H eq_refl)|reflexivity].
    + rewrite (proj2 H eq_refl). reflexivity.
  - reflexivity.
Qed.
Lemma bguards_count f B : length (filter f (pickb E B)) = length (filter (beval E) (bguards f B)).
Proof.
  induction B as [|[b l] B IH]; [reflexivity|].
  unfold pickb, bguards in *. cbn [filter fst snd].
  destruct (beval E b) eqn:Hb, (f l) eqn:Hf; cbn [map filter fst snd]; rewrite ?Hb, ?Hf; cbn [length]; now rewrite IH.
Qed.
Lemma bguards_exists f B : existsb f (pickb E B) = beval E (bany (bguards f B)).
Proof.
  rewrite bany_eval. induction B as [|[b l] B IH]; [reflexivity|].
  unfold pickb, bguards in *. cbn [filter fst snd].
  destruct (beval E b) eqn:Hb, (f l) eqn:Hf; cbn [map existsb fst snd]; rewrite ?Hb, ?Hf; cbn [orb];
    first [reflexivity | exact IH].
Qed.
Lemma pickb_In l B : In l (pickb E B) <-> exists b, In (b, l) B /\ beval E b = true.
Proof.
  unfold pickb. rewrite in_map_iff. split.
  - intros ([b l'] & <- & H). apply filter_In in H as [H1 H2]. exists b. split; [exact H1|exact H2].
  - intros (b & H1 & H2). exists (b, l). split; [reflexivity|]. apply filter_In. now split.
Qed.
End Eval.
