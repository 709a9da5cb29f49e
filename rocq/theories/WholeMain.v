(** * All modules together *)
From Coq Require Import String ZArith List Bool Arith Lia.
From Verif Require Import Words Spec WordsFacts.
From Verif Require Import ByteSpec FrontSpec ConfigSpec ConfigTaut ConfigFlat ConfigTargets ConfigModel ConfigProofs ConfigMain.
From Verif Require FrontMain.
From Verif Require Import LayerSpec LayerModel PropertiesPublic WholeSpec WholeModel WholeProofs WholeConfig WholeLocal.
Import ListNotations.
Local Open Scope string_scope.
Local Open Scope list_scope.
Open Scope Z_scope.

Lemma finite_choice {X : Type} (d : X) (P : path -> X -> Prop) (l : list path) : (forall q, In q l -> exists x, P q x) -> exists f, forall q, In q l -> P q (f q).
Proof.
  induction l as [|q l IH]; intros H; [exists (fun _ => d); intros q []|].
  destruct IH as [f F]; [intros k Hk; apply H; now right|]. destruct (H q (or_introl eq_refl)) as [x Hx].
  exists (fun k => if path_eqb k q then x else f k). intros k Hk. destruct (path_eqb k q) eqn:E.
  - apply path_eqb_eq in E as ->. exact Hx.
  - destruct Hk as [->|Hk]; [now rewrite (proj2 (path_eqb_eq k k) eq_refl) in E|auto].
Qed.

Lemma layer_sequential {HOp HRes Op Res} (code_of : Z -> HOp -> option (code HRes Op Res)) ls : forall s q tr at_,
  layer_run code_of s ls = Some (q, tr) -> (forall t, at_ t = None <-> match s t with LWait _ _ => False | _ => True end) -> seq_from at_ (inner_of tr).
Proof.
  induction ls as [|l ls IH]; intros s q tr at_ R H; cbn [layer_run] in R; [injection R as <- <-; exact Logic.I|].
  destruct (layer_step code_of s l) as [[s1 e]|] eqn:St; [|discriminate]. destruct (layer_run code_of s1 ls) as [[s2 tr']|] eqn:R'; [|discriminate]. injection R as <- <-.
  assert (Keep : forall t x, s1 = lset s t x -> (match x with LWait _ _ => False | _ => True end <-> match s t with LWait _ _ => False | _ => True end) ->
    forall u, at_ u = None <-> match s1 u with LWait _ _ => False | _ => True end).
  { intros t x -> K u. unfold lset. destruct (Nat.eqb_spec u t) as [->|]; [rewrite K; apply H|apply H]. }
  destruct l as [t a o|t|t r]; cbn [layer_step] in St; destruct (s t) as [|a' c|a' k] eqn:Et; try discriminate.
  - destruct (code_of a o); [|discriminate]. injection St as <- <-. cbn [inner_of]. apply (IH _ _ _ at_ R'). eapply Keep; [reflexivity|]. now rewrite Et.
  - destruct c as [r|o k]; injection St as <- <-; cbn [inner_of].
    + apply (IH _ _ _ at_ R'). eapply Keep; [reflexivity|]. now rewrite Et.
    + cbn [seq_from fine]. split; [apply H; now rewrite Et|]. apply (IH _ _ _ _ R'). intros u. cbn [moves]. unfold lset. destruct (Nat.eqb_spec u t) as [->|]; [split; [discriminate|contradiction]|apply H].
  - injection St as <- <-. cbn [inner_of seq_from fine]. split; [intros E; apply H in E; now rewrite Et in E|].
    apply (IH _ _ _ _ R'). intros u. cbn [moves]. unfold lset. destruct (Nat.eqb_spec u t) as [ -> | ]; [tauto|apply H].
Qed.

Lemma modules_atomic e used from kd init h fin : (forall a, kind_ok (kd a)) -> sequential h -> modules_make e used from kd init h fin ->
  exists base, backend_ok (ints kd) base same_enc /\ linearizable_to base init h fin.
Proof.
  intros K SQ [U M].
  assert (X : forall q, In q used -> exists x : (Z -> bop -> Z -> Z * res -> Prop) * (Z -> Z) * astate bop res,
    backend_ok (ints kd) (fst (fst x)) same_enc /\ (forall a, from a = q -> snd (fst x) a = init a /\ forall v, fin a = Some v -> avals (snd x) a = v) /\
    asteps (fst (fst x)) (mk_astate (snd (fst x)) (fun _ => AIdle)) (part_of (fun a => path_eqb q (from a)) h) (snd x)).
  { intros q Hq. destruct (M q Hq) as (mc & init' & fin' & Hm & Hi & Mk). destruct (makes_atomic kd K mc init' _ fin' Mk) as (Op & base & enc & B & L).
    apply unrename in L as (s & A & F). exists (fun a o => base a (enc o), init', s). cbn [fst snd]. split; [|split; [|exact A]].
    - intros a o x x' r H. exact (B a o x x' r H).
    - intros a Ea. destruct (Hi a Ea) as [E1 E2]. split; [exact E1|]. intros v Hv. apply F. now rewrite E2. }
  destruct (finite_choice (fun _ _ _ _ => False, init, mk_astate init (fun _ => AIdle)) _ _ X) as [f F].
  set (B := fun q => fst (fst (f q))). set (inits := fun q => snd (fst (f q))).
  destruct (merge from (fun q => In q used) B init inits) with (h := h) (S := fun q => snd (f q)) as (s & A & V & _).
  - intros a. exact (proj1 (proj1 (proj2 (F (from a) (U a))) a eq_refl)).
  - exact U.
  - exact SQ.
  - intros q Hq. exact (proj2 (proj2 (F q Hq))).
  - exists (whole from B). split.
    + intros a o x x' r H. exact (proj1 (F (from a) (U a)) a o x x' r H).
    + exists s. split; [exact A|]. intros a v H. rewrite V. exact (proj2 (proj1 (proj2 (F (from a) (U a))) a eq_refl) v H).
Qed.

Lemma kind_named_ok e size t k : 0 <= size -> kind_named (pointer_bits e) size t = Some k -> kind_ok k.
Proof.
  intros Hs. assert (P : exists x, 0 <= x /\ pointer_bits e = 2 ^ x).
  { destruct (pointer_bits_range e) as [E|[E|E]]; rewrite E; [exists 4|exists 5|exists 6]; split; lia. }
  assert (P' : forall x, 0 <= x -> exists y, 0 <= y /\ 2 ^ x = 2 ^ y) by eauto.
  unfold kind_named. cbv zeta.
  repeat match goal with |- context [String.eqb t ?s] => destruct (String.eqb_spec t s) as [->|] end; intros [= <-]; cbn [kind_ok ibits i8 u8 i16 u16 i32 u32 i64 u64 i128 u128];
    first [exact Logic.I | exact P | split; [exact P|exact Hs] | lia | exact (P' 3 ltac:(lia)) | exact (P' 4 ltac:(lia)) | exact (P' 5 ltac:(lia)) | exact (P' 6 ltac:(lia)) | exact (P' 7 ltac:(lia))].
Qed.
