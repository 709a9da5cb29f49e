(** * Facts about the string model *)
From Coq Require Import ZArith String List Bool Lia.
From Verif Require Import StrModel.
Import ListNotations.
Open Scope Z_scope.

Definition ascii (c : Z) : Prop := c < 128.

Lemma str_eqb_eq : forall a b, str_eqb a b = true <-> a = b.
Proof.
  induction a as [|x a IH]; intros [|y b]; simpl; split; intros H; try discriminate; try reflexivity.
  - apply andb_true_iff in H as [H1 H2]. apply Z.eqb_eq in H1 as ->. apply IH in H2 as ->. reflexivity.
  - injection H as -> ->. rewrite Z.eqb_refl. apply IH. reflexivity.
Qed.
Lemma str_eqb_refl : forall a, str_eqb a a = true.
Proof. intros a. apply str_eqb_eq. reflexivity. Qed.

Lemma utf8_ascii : forall c, ascii c -> utf8 c = [c].
Proof. intros c H. unfold utf8, ascii in *. destruct (Z.ltb_spec c 128); [reflexivity | lia]. Qed.

Lemma utf8_first : forall c, exists b r, utf8 c = b :: r /\ (b < 128 -> b = c /\ r = [] /\ ascii c).
Proof.
  intros c. unfold utf8, ascii. destruct (Z.ltb_spec c 128) as [H|H]; [exists c, []; auto|].
  destruct (Z.ltb_spec c 2048); [eexists _, _; split; [reflexivity|]; intros; pose proof (Z.div_pos c 64); lia|].
  destruct (Z.ltb_spec c 65536); [eexists _, _; split; [reflexivity|]; intros; pose proof (Z.div_pos c 4096); lia|].
  eexists _, _; split; [reflexivity|]; intros; pose proof (Z.div_pos c 262144); lia.
Qed.

Lemma bytes_app : forall p s, Forall ascii p -> as_bytes (p ++ s) = p ++ as_bytes s.
Proof.
  intros p s H. induction H as [|c p A _ IH]; [reflexivity|]. unfold as_bytes in *. simpl.
  rewrite utf8_ascii by exact A. simpl. f_equal. exact IH.
Qed.
Lemma bytes_cons : forall c s, ascii c -> as_bytes (c :: s) = c :: as_bytes s.
Proof. intros c s H. apply (bytes_app [c]). repeat constructor. exact H. Qed.

Lemma bytes_head : forall s b r, as_bytes s = b :: r -> ascii b -> exists t, s = b :: t /\ r = as_bytes t.
Proof.
  intros [|c t] b r H A; [discriminate|]. unfold as_bytes in H. simpl in H.
  destruct (utf8_first c) as (b' & r' & E & F). rewrite E in H. simpl in H.
  assert (X : b' = b /\ r' ++ flat_map utf8 t = r) by (injection H; auto). destruct X as [-> <-].
  destruct (F A) as (-> & -> & _). exists t. split; reflexivity.
Qed.

Lemma bytes_nil : forall s, as_bytes s = [] -> s = [].
Proof.
  intros [|c t] H; [reflexivity|]. unfold as_bytes in H. simpl in H.
  destruct (utf8_first c) as (b & r & E & _). rewrite E in H. discriminate.
Qed.

Lemma bytes_nth_app : forall p s k, Forall ascii p ->
  nth_error (as_bytes (p ++ s)) (length p + k) = nth_error (as_bytes s) k.
Proof.
  intros p s k H. rewrite bytes_app by exact H. rewrite nth_error_app2 by lia. f_equal. lia.
Qed.

Lemma slice_app : forall p s, Forall ascii p -> slice_from (p ++ s) (length p) = Some s.
Proof.
  intros p s H. induction H as [|c p A _ IH]; [destruct s; reflexivity|]. simpl.
  rewrite utf8_ascii by exact A. simpl. rewrite Nat.sub_0_r. exact IH.
Qed.

Lemma len_app : forall p s, Forall ascii p -> len (p ++ s) = (length p + len s)%nat.
Proof. intros p s H. unfold len. rewrite bytes_app by exact H. apply app_length. Qed.

Lemma len_0 : forall s, len s = O -> s = [].
Proof. intros s H. apply bytes_nil. unfold len in H. destruct (as_bytes s); [reflexivity | discriminate]. Qed.

Lemma starts_with_iff : forall pat s, starts_with s pat = true <-> exists t, s = pat ++ t.
Proof.
  induction pat as [|p pat IH]; intros s; simpl; [split; [intros _; exists s; reflexivity | destruct s; reflexivity]|].
  destruct s as [|c s]; [split; [discriminate | intros (t & H); discriminate]|].
  rewrite andb_true_iff, IH, Z.eqb_eq. split.
  - intros [-> (t & ->)]. exists t. reflexivity.
  - intros (t & H). injection H as -> ->. split; [reflexivity | exists t; reflexivity].
Qed.

(** [split_on] gives the pieces: none of them contains a separator, and with separators between them they are the
    string. *)
Lemma split_nonempty : forall p s, split_on p s <> [].
Proof. intros p [|c s]; simpl; [discriminate|]. destruct (p c); [discriminate|]. destruct (split_on p s); discriminate. Qed.

Lemma split_app : forall p a b, (forall c, In c a -> p c = false) ->
  split_on p (a ++ b) = match split_on p b with h :: r => (a ++ h) :: r | [] => [] end.
Proof.
  induction a as [|c a IH]; intros b H; simpl.
  - destruct (split_on p b) eqn:E; [destruct (split_nonempty p b E) | reflexivity].
  - rewrite (H c (or_introl eq_refl)), IH by (intros x Hx; apply H; right; exact Hx).
    destruct (split_on p b) eqn:E; [destruct (split_nonempty p b E) | reflexivity].
Qed.
Lemma split_none : forall p a, (forall c, In c a -> p c = false) -> split_on p a = [a].
Proof. intros p a H. pose proof (split_app p a [] H) as E. rewrite app_nil_r in E. rewrite E. simpl. rewrite app_nil_r. reflexivity. Qed.
