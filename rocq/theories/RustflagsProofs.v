(** * Rustflags::new never panics, and reads the command line the way rustc does *)
From Coq Require Import ZArith String List Bool Lia.
From Verif Require Import StrModel StrFacts RustflagsModel RustflagsSpec.
Import ListNotations.
Open Scope Z_scope.

Lemma ascii_b : forall l, forallb (fun c => c <? 128) l = true -> Forall ascii l.
Proof.
  induction l as [|c l IH]; simpl; intros H; [constructor|]. apply andb_true_iff in H as [A B].
  constructor; [unfold ascii; lia | apply IH; exact B].
Qed.
Ltac ascii := apply ascii_b; reflexivity.

(** ** The pieces *)
Lemma strip_prefix_some : forall pat t, Forall ascii pat -> strip_prefix (pat ++ t) pat = Some (Some t).
Proof.
  intros pat t H. unfold strip_prefix.
  assert (E : starts_with (pat ++ t) pat = true) by (apply starts_with_iff; exists t; reflexivity).
  rewrite E. unfold len. replace (length (as_bytes pat)) with (length pat).
  - rewrite slice_app by exact H. reflexivity.
  - rewrite <- (app_nil_r pat) at 2. rewrite bytes_app by exact H. simpl. rewrite app_nil_r. reflexivity.
Qed.
Lemma strip_prefix_none : forall s pat, (forall t, s <> pat ++ t) -> strip_prefix s pat = Some None.
Proof.
  intros s pat H. unfold strip_prefix. destruct (starts_with s pat) eqn:E; [|reflexivity].
  apply starts_with_iff in E as (t & ->). destruct (H t eq_refl).
Qed.
Lemma strip_prefix_total : forall s pat, Forall ascii pat -> exists r, strip_prefix s pat = Some r /\
  match r with Some t => s = pat ++ t | None => forall t, s <> pat ++ t end.
Proof.
  intros s pat H. unfold strip_prefix. destruct (starts_with s pat) eqn:E.
  - apply starts_with_iff in E as (t & ->). exists (Some t). split; [|reflexivity].
    pose proof (strip_prefix_some pat t H) as X. unfold strip_prefix in X.
    assert (Y : starts_with (pat ++ t) pat = true) by (apply starts_with_iff; exists t; reflexivity).
    rewrite Y in X. exact X.
  - exists None. split; [reflexivity|]. intros t ->.
    assert (Y : starts_with (pat ++ t) pat = true) by (apply starts_with_iff; exists t; reflexivity). congruence.
Qed.

Lemma strip_flag_total : forall s a b, Forall ascii a -> Forall ascii b -> exists r, strip_flag s a b = Some r.
Proof.
  intros s a b A B. unfold strip_flag.
  destruct (strip_prefix_total s a A) as ([t|] & -> & _); [eexists; reflexivity|].
  destruct (strip_prefix_total s b B) as (r & -> & _). eexists; reflexivity.
Qed.

Lemma codegen_total : forall f st, exists st', codegen f st = Some st'.
Proof.
  intros f st. unfold codegen.
  destruct (strip_flag_total f (lit "target-feature=") (lit "target_feature=")) as ([v|] & ->); [ascii | ascii | eexists; reflexivity |].
  destruct (strip_flag_total f (lit "target-cpu=") (lit "target_cpu=")) as ([v|] & ->); [ascii | ascii | eexists; reflexivity | eexists; reflexivity].
Qed.
Lemma unstable_total : forall f st, exists st', unstable f st = Some st'.
Proof.
  intros f st. unfold unstable.
  destruct (strip_flag_total f (lit "allow-features=") (lit "allow_features=")) as ([v|] & ->); [ascii | ascii | eexists; reflexivity | eexists; reflexivity].
Qed.
Lemma cz_total : forall b f st, exists st', cz b f st = Some st'.
Proof. intros b f st. unfold cz. destruct (b =? 90); [apply unstable_total | apply codegen_total]. Qed.

(** ** Where a flag starts *)
Definition gov (c : Z) : Prop := c = 103 \/ c = 79 \/ c = 118.

Lemma skip_spec : forall s, exists q u, s = q ++ u /\ Forall gov q /\ skip_flags (as_bytes s) = length q /\
  (forall c w, u = c :: w -> ~ gov c).
Proof.
  induction s as [|c s (q & u & -> & G & E & N)].
  - exists [], []. repeat split; auto. discriminate.
  - assert (D : {gov c} + {~ gov c}).
    { unfold gov. destruct (Z.eq_dec c 103), (Z.eq_dec c 79), (Z.eq_dec c 118); (left; auto; fail) || (right; lia). }
    destruct D as [D|D].
    + exists (c :: q), u. repeat split; auto.
      rewrite bytes_cons by (unfold gov, ascii in *; lia). simpl. rewrite E.
      assert (X : (c =? 103) || (c =? 79) || (c =? 118) = true) by (destruct D as [->|[->| ->]]; reflexivity).
      rewrite X. reflexivity.
    + exists [], (c :: q ++ u). repeat split; auto.
      * simpl. unfold as_bytes. simpl. destruct (utf8_first c) as (b & r & -> & F). simpl.
        destruct (Z.ltb_spec b 128) as [L|L].
        -- destruct (F L) as (-> & _ & _). unfold gov in D.
           replace (c =? 103) with false by lia. replace (c =? 79) with false by lia. replace (c =? 118) with false by lia. reflexivity.
        -- replace (b =? 103) with false by lia. replace (b =? 79) with false by lia. replace (b =? 118) with false by lia. reflexivity.
      * intros c' w H. injection H as <- <-. exact D.
Qed.

Lemma gov_ascii : forall q, Forall gov q -> Forall ascii q.
Proof. intros q H. eapply Forall_impl; [|exact H]. unfold gov, ascii. intros; lia. Qed.

Lemma byte_0 : forall s b, ascii b -> byte_is s 0 b = true -> exists t, s = b :: t.
Proof.
  intros s b A H. unfold byte_is in H. destruct (as_bytes s) as [|x r] eqn:E; [discriminate|]. simpl in H.
  apply Z.eqb_eq in H as ->. destruct (bytes_head s b r E A) as (t & -> & _). exists t. reflexivity.
Qed.
Lemma byte_after : forall p s k b, Forall ascii p -> byte_is (p ++ s) (length p + k) b = byte_is s k b.
Proof. intros p s k b H. unfold byte_is. rewrite bytes_nth_app by exact H. reflexivity. Qed.

(** An argument that begins with a dash, and its two readings. *)
Lemma start_spec : forall t,
  (exists u, t = 45 :: u /\ start_of (45 :: t) = (2%nat, true)) \/
  (exists q u, t = q ++ u /\ Forall gov q /\ start_of (45 :: t) = (length (45 :: q), false) /\
               (forall c w, u = c :: w -> ~ gov c) /\ (forall u', t <> 45 :: u')).
Proof.
  intros t. unfold start_of.
  assert (A : Forall ascii [45]) by ascii.
  change (byte_is (45 :: t) 1 45) with (byte_is ([45] ++ t) (length [45] + 0) 45). rewrite byte_after by exact A.
  destruct (byte_is t 0 45) eqn:E.
  - apply byte_0 in E as (u & ->); [|unfold ascii; lia]. left. exists u. split; reflexivity.
  - right. destruct (skip_spec t) as (q & u & -> & G & L & N). exists q, u.
    split; [reflexivity|]. split; [exact G|].
    change (as_bytes (45 :: q ++ u)) with (as_bytes ([45] ++ q ++ u)). rewrite (bytes_app [45]) by exact A.
    simpl skipn. rewrite L. split; [reflexivity|]. split; [exact N|].
    intros u' Hu. rewrite Hu in E. unfold byte_is in E. rewrite bytes_cons in E by (unfold ascii; lia). discriminate.
Qed.

(** ** No panic *)
Lemma parse_total : forall n args st, (length args <= n)%nat -> exists r, parse_flags args st = Some r.
Proof.
  induction n as [|n IH]; intros args st L.
  { destruct args; [|simpl in L; lia]. eexists; reflexivity. }
  destruct args as [|flag rest]; [eexists; reflexivity|].
  assert (R : forall st, exists r, parse_flags rest st = Some r) by (intros; apply IH; simpl in L; lia).
  assert (R2 : forall v rest' st, rest = v :: rest' -> exists r, parse_flags rest' st = Some r)
    by (intros v rest' st' ->; apply IH; simpl in L; lia).
  cbn [parse_flags].
  destruct (byte_is flag 0 45) eqn:B0; cbn [negb]; [|apply R].
  apply byte_0 in B0 as (t & ->); [|unfold ascii; lia].
  assert (CASE : exists p u long, 45 :: t = p ++ u /\ Forall ascii p /\ start_of (45 :: t) = (length p, long)).
  { destruct (start_spec t) as [(u & -> & E)|(q & u & -> & G & E & _)].
    - exists [45; 45], u, true. split; [reflexivity|]. split; [ascii | exact E].
    - exists (45 :: q), u, false. split; [reflexivity|]. split; [|exact E]. constructor; [unfold ascii; lia | apply gov_ascii; exact G]. }
  destruct CASE as (p & u & long & EP & AP & ES). rewrite ES, EP. cbv beta iota.
  pose proof (bytes_nth_app p u 0 AP) as NTH. rewrite Nat.add_0_r in NTH. rewrite NTH. clear NTH.
  destruct (nth_error (as_bytes u) 0) as [b|] eqn:EB; [|apply R].
  destruct ((b =? 67) || (b =? 90)) eqn:CZ.
  - assert (AB : ascii b) by (unfold ascii; lia).
    destruct (as_bytes u) as [|b' r'] eqn:EU; [discriminate|]. simpl in EB. injection EB as ->.
    destruct (bytes_head u b r' EU AB) as (w & -> & _).
    destruct (Nat.eqb (len (p ++ b :: w)) (S (length p))).
    + destruct rest as [|f rest']; [eexists; reflexivity|].
      destruct (cz_total b f st) as (st' & ->). exact (R2 f rest' st' eq_refl).
    + assert (AP1 : Forall ascii (p ++ [b])) by (apply Forall_app; split; [exact AP | repeat constructor; exact AB]).
      assert (LP1 : length (p ++ [b]) = S (length p)) by (rewrite app_length; simpl; lia).
      replace (p ++ b :: w) with ((p ++ [b]) ++ w) by (rewrite <- app_assoc; reflexivity).
      destruct long.
      * pose proof (byte_after (p ++ [b]) w 0 61 AP1) as NTH. rewrite Nat.add_0_r in NTH. rewrite <- LP1, NTH. clear NTH.
        destruct (byte_is w 0 61) eqn:B1; cbn [negb]; [|apply R].
        apply byte_0 in B1 as (v & ->); [|unfold ascii; lia].
        replace ((p ++ [b]) ++ 61 :: v) with (((p ++ [b]) ++ [61]) ++ v) by (rewrite <- app_assoc; reflexivity).
        replace (length (p ++ [b]) + 1)%nat with (length ((p ++ [b]) ++ [61])) by (rewrite app_length; reflexivity).
        rewrite slice_app by (apply Forall_app; split; [exact AP1 | ascii]).
        destruct (cz_total b v st) as (st' & ->). apply R.
      * rewrite <- LP1, slice_app by exact AP1.
        destruct (cz_total b w st) as (st' & ->). apply R.
  - destruct (short_with_value b && Nat.eqb (len (p ++ u)) (length p + 1)).
    { destruct rest as [|v rest']; [apply R | exact (R2 v rest' st eq_refl)]. }
    destruct (negb ((0 <=? b) && (b <? 128)) || negb long); [apply R|].
    rewrite slice_app by exact AP.
    destruct (strip_prefix_total u (lit "codegen")) as ([f|] & -> & _); [ascii| |].
    + destruct (strip_prefix_total f (lit "=")) as ([f'|] & -> & _); [ascii| |].
      * destruct (codegen_total f' st) as (st' & ->). apply R.
      * destruct f; [|apply R]. destruct rest as [|v rest']; [eexists; reflexivity|].
        destruct (codegen_total v st) as (st' & ->). exact (R2 v rest' st' eq_refl).
    + destruct (contains u 61); [apply R|]. destruct (existsb (str_eqb u) long_with_value); [|apply R].
      destruct rest as [|v rest']; [apply R | exact (R2 v rest' st eq_refl)].
Qed.

Lemma new_total : forall s env, exists r, new s env = Some r.
Proof. intros s env. unfold new. eapply parse_total. reflexivity. Qed.

(** ** The values of -C and -Z *)
Lemma split_eq_spec : forall s, match split_eq s with
  | (k, Some w) => s = k ++ 61 :: w /\ ~ In 61 k
  | (k, None) => s = k /\ ~ In 61 k
  end.
Proof.
  induction s as [|c s IH]; simpl; [auto|]. destruct (Z.eqb_spec c 61) as [-> |N]; [auto|].
  destruct (split_eq s) as [k [w|]]; destruct IH as [-> I]; (split; [reflexivity|]); simpl; intros [E|E]; auto.
Qed.
Lemma split_eq_app : forall k w, ~ In 61 k -> split_eq (k ++ 61 :: w) = (k, Some w).
Proof.
  induction k as [|c k IH]; intros w H; simpl; [reflexivity|].
  destruct (Z.eqb_spec c 61) as [-> |N]; [destruct H; left; reflexivity|].
  rewrite IH by (intros X; apply H; right; exact X). reflexivity.
Qed.
Lemma split_eq_none : forall k, ~ In 61 k -> split_eq k = (k, None).
Proof.
  induction k as [|c k IH]; intros H; simpl; [reflexivity|].
  destruct (Z.eqb_spec c 61) as [-> |N]; [destruct H; left; reflexivity|].
  rewrite IH by (intros X; apply H; right; exact X). reflexivity.
Qed.

Definition norm (c : Z) : Z := if c =? 45 then 95 else c.

(** Undoing the normalisation of a key that has a single separator. *)
Lemma norm_inv : forall a b k, ~ In 45 a -> ~ In 95 a -> ~ In 45 b -> ~ In 95 b ->
  map norm k = a ++ 95 :: b -> k = a ++ 45 :: b \/ k = a ++ 95 :: b.
Proof.
  assert (T : forall l k, ~ In 45 l -> ~ In 95 l -> map norm k = l -> k = l).
  { induction l as [|x l IH]; intros [|y k] A B E; try discriminate; [reflexivity|].
    injection E as E1 E2. f_equal.
    - unfold norm in E1. destruct (Z.eqb_spec y 45) as [-> |N]; [destruct B; left; auto | exact E1].
    - apply IH; [intros X; apply A; right; exact X | intros X; apply B; right; exact X | exact E2]. }
  induction a as [|x a IH]; intros b [|y k] A1 A2 B1 B2 E; try discriminate.
  - injection E as E1 E2. apply T in E2 as ->; [|assumption..].
    unfold norm in E1. destruct (Z.eqb_spec y 45) as [-> |N]; [left; reflexivity | right; rewrite E1; reflexivity].
  - injection E as E1 E2.
    assert (y = x) as ->.
    { unfold norm in E1. destruct (Z.eqb_spec y 45) as [-> |N]; [destruct A2; left; auto | exact E1]. }
    assert (Y1 : ~ In 45 a) by (intros X; apply A1; right; exact X).
    assert (Y2 : ~ In 95 a) by (intros X; apply A2; right; exact X).
    destruct (IH b k Y1 Y2 B1 B2 E2) as [-> | ->]; [left | right]; reflexivity.
Qed.

Lemma strip_flag_spec : forall a b f, Forall ascii a -> Forall ascii b ->
  ~ In 45 a -> ~ In 95 a -> ~ In 45 b -> ~ In 95 b -> ~ In 61 a -> ~ In 61 b ->
  strip_flag f (a ++ 45 :: b ++ [61]) (a ++ 95 :: b ++ [61]) =
  Some (match split_eq f with
        | (k, Some w) => if str_eqb (map norm k) (a ++ 95 :: b) then Some w else None
        | _ => None
        end).
Proof.
  intros a b f FA FB A1 A2 B1 B2 A3 B3.
  assert (X : forall s, Forall ascii [s] -> Forall ascii (a ++ s :: b ++ [61])).
  { intros s Hs. apply Forall_app; split; [exact FA|]. inversion_clear Hs. constructor; [assumption|].
    apply Forall_app; split; [exact FB | ascii]. }
  assert (N : forall s, s = 45 \/ s = 95 -> map norm (a ++ s :: b) = a ++ 95 :: b).
  { assert (Q : forall l, ~ In 45 l -> map norm l = l).
    { induction l as [|x l IH]; intros H; [reflexivity|]. simpl. unfold norm at 1.
      destruct (Z.eqb_spec x 45) as [-> |_]; [destruct H; left; reflexivity|]. f_equal. apply IH. intros Y; apply H; right; exact Y. }
    intros s Hs. rewrite map_app. simpl. rewrite !Q by assumption. destruct Hs as [-> | ->]; reflexivity. }
  assert (E : forall s, s = 45 \/ s = 95 -> forall t, split_eq ((a ++ s :: b ++ [61]) ++ t) = (a ++ s :: b, Some t)).
  { intros s Hs t. replace ((a ++ s :: b ++ [61]) ++ t) with ((a ++ s :: b) ++ 61 :: t)
      by (rewrite <- !app_assoc; simpl; rewrite <- app_assoc; reflexivity).
    apply split_eq_app. rewrite in_app_iff. simpl. intuition lia. }
  unfold strip_flag.
  destruct (strip_prefix_total f (a ++ 45 :: b ++ [61])) as ([t|] & -> & H1); [apply X; ascii| |].
  { rewrite H1, (E 45) by auto. rewrite (N 45), str_eqb_refl by auto. reflexivity. }
  destruct (strip_prefix_total f (a ++ 95 :: b ++ [61])) as ([t|] & -> & H2); [apply X; ascii| |].
  { rewrite H2, (E 95) by auto. rewrite (N 95), str_eqb_refl by auto. reflexivity. }
  f_equal. pose proof (split_eq_spec f) as S. destruct (split_eq f) as [k [w|]]; [|reflexivity].
  destruct S as [-> _]. destruct (str_eqb (map norm k) (a ++ 95 :: b)) eqn:EE; [|reflexivity].
  apply str_eqb_eq in EE. apply norm_inv in EE; [|assumption..].
  destruct EE as [-> | ->]; [destruct (H1 w) | destruct (H2 w)];
    rewrite <- !app_assoc; simpl; rewrite <- app_assoc; reflexivity.
Qed.

Ltac key_tac := cbn; intuition lia.

Lemma strip_target_feature : forall f,
  strip_flag f (lit "target-feature=") (lit "target_feature=") = Some (key_value "target_feature" f).
Proof. intros f. apply (strip_flag_spec (lit "target") (lit "feature") f); [ascii | ascii | key_tac..]. Qed.
Lemma strip_target_cpu : forall f,
  strip_flag f (lit "target-cpu=") (lit "target_cpu=") = Some (key_value "target_cpu" f).
Proof. intros f. apply (strip_flag_spec (lit "target") (lit "cpu") f); [ascii | ascii | key_tac..]. Qed.
Lemma strip_allow_features : forall f,
  strip_flag f (lit "allow-features=") (lit "allow_features=") = Some (key_value "allow_features" f).
Proof. intros f. apply (strip_flag_spec (lit "allow") (lit "features") f); [ascii | ascii | key_tac..]. Qed.

(** ** What the events amount to *)
Definition fbytes (p : bool * str) : bool * list Z := (fst p, as_bytes (snd p)).
Definition after (es : list event) (st : rustflags) : rustflags :=
  {| target_feature := target_feature st ++ map fbytes (features es);
     target_cpu := match cpu es with Some c => Some c | None => target_cpu st end;
     allow_features := match allowed es with Some c => Some (true, c) | None => allow_features st end |}.

Lemma last_of_cons : forall A (x : A) l, last_of (x :: l) = match last_of l with Some y => Some y | None => Some x end.
Proof.
  intros A x l. revert x. induction l as [|y l IH]; intros x; [reflexivity|].
  change (last_of (x :: y :: l)) with (last_of (y :: l)). rewrite (IH y). destruct (last_of l); reflexivity.
Qed.
Lemma last_of_app : forall A (l m : list A), last_of (l ++ m) = match last_of m with Some x => Some x | None => last_of l end.
Proof.
  induction l as [|x l IH]; intros m; [simpl; destruct (last_of m); reflexivity|].
  rewrite <- app_comm_cons, !last_of_cons, IH. destruct (last_of m); reflexivity.
Qed.
Lemma values_app : forall n k a b, values n k (a ++ b) = values n k a ++ values n k b.
Proof. induction a as [|e a IH]; intros b; simpl; [reflexivity|]. destruct (is_option n k e); rewrite IH; reflexivity. Qed.
Lemma after_app : forall a b st, after (a ++ b) st = after b (after a st).
Proof.
  intros a b st. unfold after, features, cpu, allowed. rewrite !values_app, flat_map_app, map_app, !last_of_app. simpl.
  rewrite app_assoc. f_equal; destruct (last_of _); reflexivity.
Qed.

Lemma after_values : forall es st, values "C" "target_feature" es = [] -> values "C" "target_cpu" es = [] ->
  values "Z" "allow_features" es = [] -> after es st = st.
Proof.
  intros es [f c a] A B C. unfold after, features, cpu, allowed. rewrite A, B, C. simpl. rewrite app_nil_r. reflexivity.
Qed.
Lemma after_free : forall s st, after [Free s] st = st.
Proof. intros. apply after_values; reflexivity. Qed.
Lemma after_given : forall ns st, after (map Given ns) st = st.
Proof.
  intros. assert (V : forall n k, values n k (map Given ns) = []) by (intros n k; induction ns; simpl; auto).
  apply after_values; apply V.
Qed.
Lemma after_other : forall n v st, n <> "C"%string -> n <> "Z"%string -> after [Value n v] st = st.
Proof.
  intros n v st A B. apply String.eqb_neq in A, B.
  apply after_values; cbn [values is_option]; rewrite ?A, ?B; reflexivity.
Qed.

Lemma push_spec : forall v acc,
  push_features v acc = acc ++ map fbytes (flat_map feature (split_on (Z.eqb 44) v)).
Proof.
  intros v acc. unfold push_features. generalize (split_on (Z.eqb 44) v) as l. intros l. revert acc.
  induction l as [|s l IH]; intros acc; simpl; [rewrite app_nil_r; reflexivity|].
  rewrite IH, map_app, app_assoc. f_equal. clear.
  destruct s as [|c t]; [simpl; rewrite app_nil_r; reflexivity|].
  destruct (Z.ltb_spec c 128) as [A|A].
  - rewrite bytes_cons by exact A. simpl. destruct (c =? 43); [reflexivity|]. destruct (c =? 45); [reflexivity|].
    simpl. rewrite app_nil_r. reflexivity.
  - unfold as_bytes. simpl. destruct (utf8_first c) as (b & r & E & F). rewrite E. simpl.
    replace (c =? 43) with false by lia. replace (c =? 45) with false by lia.
    assert (B : 128 <= b). { destruct (Z.ltb_spec b 128) as [L|L]; [|exact L]. destruct (F L) as (-> & _ & _). exact A. }
    replace (b =? 43) with false by lia. replace (b =? 45) with false by lia. simpl. rewrite app_nil_r. reflexivity.
Qed.

Lemma key_once : forall v w, key_value "target_feature" v = Some w -> key_value "target_cpu" v = None.
Proof.
  intros v w. unfold key_value. destruct (split_eq v) as [k [x|]]; [|discriminate].
  destruct (str_eqb _ (lit "target_feature")) eqn:E; [|discriminate]. intros _.
  apply str_eqb_eq in E. rewrite E. reflexivity.
Qed.

Lemma codegen_after : forall v st, codegen v st = Some (after [Value "C" v] st).
Proof.
  intros v [f c a]. unfold codegen. rewrite strip_target_feature, strip_target_cpu.
  unfold after, features, cpu, allowed. simpl.
  destruct (key_value "target_feature" v) as [w|] eqn:F.
  - rewrite (key_once v w F). simpl. rewrite push_spec, app_nil_r. reflexivity.
  - simpl. rewrite app_nil_r. destruct (key_value "target_cpu" v); reflexivity.
Qed.
Lemma unstable_after : forall v st, unstable v st = Some (after [Value "Z" v] st).
Proof.
  intros v [f c a]. unfold unstable. rewrite strip_allow_features. unfold after, features, cpu, allowed. simpl.
  rewrite app_nil_r. destruct (key_value "allow_features" v); reflexivity.
Qed.

(** ** Agreement with rustc *)
Lemma find_opt_in : forall s n v, find_opt s = Some (n, v) -> exists m, In (m, (n, v)) entries /\ s = lit m.
Proof.
  intros s n v H. unfold find_opt in H. destruct (find _ entries) as [[m [n' v']]|] eqn:E; [|discriminate].
  simpl in H. injection H as -> ->. apply find_some in E as [I E]. simpl in E. apply str_eqb_eq in E.
  exists m. split; assumption.
Qed.

(** The short options, one by one. *)
Lemma short_opt : forall c n v, find_opt [c] = Some (n, v) ->
  v = false /\ (gov c /\ n <> "h"%string /\ n <> "V"%string \/ n = "h"%string \/ n = "V"%string) \/
  v = true /\ (c = 67 /\ n = "C"%string \/ c = 90 /\ n = "Z"%string \/
               n <> "C"%string /\ n <> "Z"%string /\ short_with_value c = true /\ c <> 67 /\ c <> 90 /\ ~ gov c /\ ascii c).
Proof.
  intros c n v H. apply find_opt_in in H as (m & I & E).
  cbn in I. repeat (destruct I as [I|I]; [injection I as <- <- <-; cbn in E; try discriminate E; injection E as ->|]);
    try destruct I; unfold gov, ascii.
  all: first [ left; split; [reflexivity|]; first [ left; split; [lia | split; discriminate] | right; left; reflexivity | right; right; reflexivity ]
             | right; split; [reflexivity|];
               first [ left; split; reflexivity | right; left; split; reflexivity
                     | right; right; split; [discriminate|]; split; [discriminate|]; split; [reflexivity|]; lia ] ].
Qed.

(** A group of short options, as the build script sees it: flags, then nothing or the option with a value. *)
Lemma cluster_spec : forall t fs v, cluster t = Some (fs, v) -> ~ In "h"%string fs -> ~ In "V"%string fs ->
  exists q u, t = q ++ u /\ Forall gov q /\
    match v with
    | None => u = []
    | Some (n, w) => exists c, u = c :: w /\ find_opt [c] = Some (n, true)
    end.
Proof.
  induction t as [|c t IH]; intros fs v H NH NV; simpl in H.
  - injection H as <- <-. exists [], []. repeat split; constructor.
  - destruct (find_opt [c]) as [[n b]|] eqn:F; [|discriminate]. destruct b.
    + injection H as <- <-. exists [], (c :: t). split; [reflexivity|]. split; [constructor|]. exists c. split; [reflexivity | exact F].
    + destruct (cluster t) as [[fs' v']|] eqn:E; [|discriminate]. injection H as <- <-.
      destruct (IH fs' v' eq_refl) as (q & u & -> & G & M).
      { intros X; apply NH; right; exact X. } { intros X; apply NV; right; exact X. }
      exists (c :: q), u. split; [reflexivity|]. split; [|exact M]. constructor; [|exact G].
      destruct (short_opt c n false F) as [(_ & [(C & _)|[-> | ->]])|(D & _)].
      * exact C.
      * destruct NH; left; reflexivity.
      * destruct NV; left; reflexivity.
      * discriminate.
Qed.

(** The build script's start of a group is what [cluster_spec] says it is. *)
Lemma gov_unique : forall q u q' u', q ++ u = q' ++ u' -> Forall gov q -> Forall gov q' ->
  (forall c w, u = c :: w -> ~ gov c) -> (forall c w, u' = c :: w -> ~ gov c) -> q = q' /\ u = u'.
Proof.
  induction q as [|x q IH]; intros u [|y q'] u' E G G' N N'; simpl in E.
  - auto.
  - subst u. inversion_clear G'. destruct (N y (q' ++ u') eq_refl). assumption.
  - subst u'. inversion_clear G. destruct (N' x (q ++ u) eq_refl). assumption.
  - injection E as -> E. inversion_clear G. inversion_clear G'. destruct (IH u q' u') as [-> ->]; auto.
Qed.

Lemma byte0_iff : forall s b, ascii b -> byte_is s 0 b = true <-> exists t, s = b :: t.
Proof.
  intros s b A. split; [apply byte_0; exact A|]. intros (t & ->). unfold byte_is. rewrite bytes_cons by exact A.
  simpl. apply Z.eqb_refl.
Qed.
Lemma byte0_false : forall c t b, ascii b -> c <> b -> byte_is (c :: t) 0 b = false.
Proof.
  intros c t b A N. destruct (byte_is (c :: t) 0 b) eqn:E; [|reflexivity].
  apply byte0_iff in E as (t' & E); [|exact A]. injection E as -> ->. destruct N; reflexivity.
Qed.

Lemma cz_after : forall b f st, b = 67 \/ b = 90 ->
  cz b f st = Some (after [Value (if b =? 90 then "Z" else "C") f] st).
Proof. intros b f st [-> | ->]; [apply codegen_after | apply unstable_after]. Qed.

(** One long flag [--u]. *)
Definition long_flag (u : str) (rest : list str) (st : rustflags) : option rustflags :=
  match u with
  | [] => parse_flags rest st
  | b :: w =>
      if (b =? 67) || (b =? 90) then
        match w with
        | [] => match rest with [] => Some st | f :: rest' => parse_flags rest' (after [Value (if b =? 90 then "Z" else "C") f] st) end
        | c :: v => if c =? 61 then parse_flags rest (after [Value (if b =? 90 then "Z" else "C") v] st) else parse_flags rest st
        end
      else if short_with_value b && match w with [] => true | _ => false end then
        match rest with [] => parse_flags rest st | _ :: rest' => parse_flags rest' st end
      else if starts_with u (lit "codegen") then
        match skipn 7 u with
        | [] => match rest with [] => Some st | f :: rest' => parse_flags rest' (after [Value "C" f] st) end
        | c :: v => if c =? 61 then parse_flags rest (after [Value "C" v] st) else parse_flags rest st
        end
      else if contains u 61 then parse_flags rest st
      else if existsb (str_eqb u) long_with_value then
        match rest with [] => parse_flags rest st | _ :: rest' => parse_flags rest' st end
      else parse_flags rest st
  end.

Lemma long_flag_spec : forall b w rest st, 0 <= b < 128 ->
  parse_flags ((45 :: 45 :: b :: w) :: rest) st = long_flag (b :: w) rest st.
Proof.
  intros b w rest st HB. assert (AB : ascii b) by (unfold ascii; lia).
  assert (A2 : Forall ascii [45; 45]) by ascii.
  assert (A3 : Forall ascii [45; 45; b]) by (repeat constructor; unfold ascii; lia).
  cbn [parse_flags]. assert (B0 : byte_is (45 :: 45 :: b :: w) 0 45 = true) by (apply byte0_iff; [unfold ascii; lia | eexists; reflexivity]).
  rewrite B0. cbn [negb].
  assert (S0 : start_of (45 :: 45 :: b :: w) = (2%nat, true)).
  { unfold start_of. assert (B1 : byte_is (45 :: 45 :: b :: w) 1 45 = true) by reflexivity. rewrite B1. reflexivity. }
  rewrite S0. cbv beta iota.
  pose proof (bytes_nth_app [45; 45] (b :: w) 0 A2) as N2. cbn [app length Nat.add] in N2. rewrite N2.
  rewrite bytes_cons by exact AB. cbn [nth_error].
  pose proof (len_app [45; 45; b] w A3) as L3. cbn [app length Nat.add] in L3. rewrite L3.
  unfold long_flag.
  destruct ((b =? 67) || (b =? 90)) eqn:CZ.
  - assert (CB : b = 67 \/ b = 90) by lia.
    destruct w as [|c v].
    + cbn [len as_bytes flat_map length Nat.add Nat.eqb]. destruct rest as [|f rest']; [reflexivity|].
      rewrite cz_after by exact CB. reflexivity.
    + assert (NL : Nat.eqb (S (S (S (len (c :: v))))) 3 = false).
      { apply Nat.eqb_neq. intros E. assert (X : len (c :: v) = O) by lia. apply len_0 in X. discriminate. }
      rewrite NL.
      pose proof (byte_after [45; 45; b] (c :: v) 0 61 A3) as B3. cbn [app length Nat.add] in B3. cbn [Nat.add] in B3. rewrite B3.
      destruct (Z.eqb_spec c 61) as [-> |NC].
      * assert (B4 : byte_is (61 :: v) 0 61 = true) by (apply byte0_iff; [unfold ascii; lia | eexists; reflexivity]).
        rewrite B4. cbn [negb Nat.add].
        pose proof (slice_app [45; 45; b; 61] v) as SL. cbn [app length Nat.add] in SL.
        rewrite SL by (repeat constructor; unfold ascii; lia).
        rewrite cz_after by exact CB. reflexivity.
      * rewrite byte0_false by (unfold ascii; lia). reflexivity.
  - assert (LW : Nat.eqb (S (S (S (len w)))) (2 + 1) = match w with [] => true | _ => false end).
    { destruct w as [|c v]; [reflexivity|]. apply Nat.eqb_neq. intros X.
      assert (Y : len (c :: v) = O) by lia. apply len_0 in Y. discriminate. }
    rewrite LW. destruct (short_with_value b && match w with [] => true | _ :: _ => false end); [reflexivity|].
    replace (negb ((0 <=? b) && (b <? 128)) || negb true) with false by (destruct (Z.leb_spec 0 b), (Z.ltb_spec b 128); simpl; lia).
    pose proof (slice_app [45; 45] (b :: w) A2) as SL. cbn [app length Nat.add] in SL. rewrite SL.
    destruct (strip_prefix_total (b :: w) (lit "codegen")) as ([f|] & SP & EQ); [ascii| |]; rewrite SP; clear SP.
    + rewrite EQ. assert (SW : starts_with (lit "codegen" ++ f) (lit "codegen") = true) by (apply starts_with_iff; eexists; reflexivity).
      rewrite SW. assert (SK : skipn 7 (lit "codegen" ++ f) = f) by reflexivity. rewrite SK.
      destruct (strip_prefix_total f (lit "=")) as ([v|] & SP & EQ'); [ascii| |]; rewrite SP; clear SP.
      * rewrite EQ'. cbn [lit list_ascii_of_string map app]. rewrite codegen_after. reflexivity.
      * destruct f as [|c f'].
        -- destruct rest as [|v rest']; [reflexivity|]. rewrite codegen_after. reflexivity.
        -- destruct (Z.eqb_spec c 61) as [-> |_]; [destruct (EQ' f' eq_refl) | reflexivity].
    + destruct (starts_with (b :: w) (lit "codegen")) eqn:SW; [|reflexivity].
      apply starts_with_iff in SW as (t & E). destruct (EQ t E).
Qed.

(** Every long option of rustc. *)
Lemma long_step : forall m n v i rest st, In (m, (n, v)) entries -> (v = false -> i = None) -> (v = true -> i = None -> rest <> []) ->
  parse_flags ((45 :: 45 :: lit m ++ match i with Some w => 61 :: w | None => [] end) :: rest) st =
  match v, i with
  | true, Some w => parse_flags rest (after [Value n w] st)
  | true, None => match rest with [] => None | w :: rest' => parse_flags rest' (after [Value n w] st) end
  | false, _ => parse_flags rest st
  end.
Proof.
  intros m n v i rest st I H1 H2.
  assert (AO : forall w, n <> "C"%string -> n <> "Z"%string -> after [Value n w] st = st) by (intros; apply after_other; assumption).
  cbn in I.
  repeat (destruct I as [I|I]; [injection I as <- <- <- |]); try destruct I.
  all: first [ rewrite (H1 eq_refl) in *; cbn [lit list_ascii_of_string map app];
               rewrite long_flag_spec by (cbn; lia); reflexivity
             | destruct i as [w|]; [| destruct rest as [|w rest']; [destruct (H2 eq_refl eq_refl eq_refl)|]];
               cbn [lit list_ascii_of_string map app]; rewrite long_flag_spec by (cbn; lia);
               try rewrite (AO w) by discriminate; reflexivity ].
Qed.

(** One group of short flags. *)
Lemma short_none : forall q rest st, Forall gov q -> parse_flags ((45 :: q) :: rest) st = parse_flags rest st.
Proof.
  intros q rest st G.
  assert (AQ : Forall ascii (45 :: q)) by (constructor; [unfold ascii; lia | apply gov_ascii; exact G]).
  cbn [parse_flags].
  assert (B0 : byte_is (45 :: q) 0 45 = true) by (apply byte0_iff; [unfold ascii; lia | eexists; reflexivity]).
  rewrite B0. cbn [negb].
  destruct (start_spec q) as [(u & -> & _)|(q' & u & E & G' & -> & N & _)].
  { inversion_clear G. unfold gov in *. lia. }
  assert (X : q' = q /\ u = []).
  { apply (gov_unique q' u q []); [rewrite app_nil_r; auto | exact G' | exact G | exact N | discriminate]. }
  destruct X as [-> ->]. cbv beta iota.
  pose proof (bytes_nth_app (45 :: q) [] 0 AQ) as NT. rewrite app_nil_r, Nat.add_0_r in NT. rewrite NT. reflexivity.
Qed.

Lemma short_value : forall q c n w rest st, Forall gov q -> find_opt [c] = Some (n, true) -> (w = [] -> rest <> []) ->
  parse_flags ((45 :: q ++ c :: w) :: rest) st =
  match w, rest with
  | [], [] => None
  | [], v :: rest' => parse_flags rest' (after [Value n v] st)
  | _, _ => parse_flags rest (after [Value n w] st)
  end.
Proof.
  intros q c n w rest st G F NE.
  assert (AQ : Forall ascii (45 :: q)) by (constructor; [unfold ascii; lia | apply gov_ascii; exact G]).
  assert (NG : ascii c /\ ~ gov c /\ c <> 45).
  { destruct (short_opt c n true F) as [(D & _)|(_ & [(-> & _)|[(-> & _)|(_ & _ & SV & _ & _ & NG & A)]])];
      [discriminate | unfold gov, ascii; lia | unfold gov, ascii; lia|].
    repeat split; [exact A | exact NG | intros ->; discriminate]. }
  destruct NG as (AC & NG & N45).
  assert (AQC : Forall ascii ((45 :: q) ++ [c])) by (apply Forall_app; split; [exact AQ | repeat constructor; exact AC]).
  assert (LQC : length ((45 :: q) ++ [c]) = S (length (45 :: q))) by (rewrite app_length; simpl; lia).
  assert (RE : 45 :: q ++ c :: w = ((45 :: q) ++ [c]) ++ w) by (rewrite <- app_assoc; reflexivity).
  cbn [parse_flags].
  assert (B0 : byte_is (45 :: q ++ c :: w) 0 45 = true) by (apply byte0_iff; [unfold ascii; lia | eexists; reflexivity]).
  rewrite B0. cbn [negb].
  destruct (start_spec (q ++ c :: w)) as [(u & E & _)|(q' & u & E & G' & ST & N & _)].
  { destruct q as [|x q]; [injection E as -> _; destruct N45; reflexivity|]. injection E as -> _.
    inversion_clear G. unfold gov in *. lia. }
  assert (X : q' = q /\ u = c :: w).
  { apply (gov_unique q' u q (c :: w)); [auto | exact G' | exact G | exact N |].
    intros c' w' Y. injection Y as <- <-. exact NG. }
  destruct X as [-> ->]. rewrite ST. cbv beta iota.
  assert (NT : nth_error (as_bytes (45 :: q ++ c :: w)) (length (45 :: q)) = Some c).
  { pose proof (bytes_nth_app (45 :: q) (c :: w) 0 AQ) as NT. rewrite Nat.add_0_r in NT.
    change ((45 :: q) ++ c :: w) with (45 :: q ++ c :: w) in NT. rewrite NT, bytes_cons by exact AC. reflexivity. }
  rewrite NT. rewrite RE.
  assert (LW : forall k, k = S (length (45 :: q)) -> Nat.eqb (len (((45 :: q) ++ [c]) ++ w)) k = match w with [] => true | _ => false end).
  { intros k ->. rewrite len_app, LQC by exact AQC. destruct w as [|x w].
    - change (len []) with O. rewrite Nat.add_0_r. apply Nat.eqb_refl.
    - apply Nat.eqb_neq. intros Y. assert (Z0 : len (x :: w) = O) by lia. apply len_0 in Z0. discriminate. }
  destruct (short_opt c n true F) as [(D & _)|(_ & CASES)]; [discriminate|].
  destruct ((c =? 67) || (c =? 90)) eqn:CZ.
  - assert (CB : c = 67 \/ c = 90) by lia.
    assert (NM : (if c =? 90 then "Z"%string else "C"%string) = n).
    { destruct CASES as [(-> & ->)|[(-> & ->)|(_ & _ & _ & A & B & _)]]; [reflexivity | reflexivity | lia]. }
    rewrite (LW _ eq_refl). destruct w as [|x w'].
    + destruct rest as [|v rest']; [destruct (NE eq_refl eq_refl)|]. rewrite cz_after, NM by exact CB. reflexivity.
    + rewrite <- LQC, slice_app by exact AQC. rewrite cz_after, NM by exact CB. reflexivity.
  - destruct CASES as [(-> & ->)|[(-> & ->)|(A & B & SV & _)]]; [discriminate | discriminate|].
    rewrite SV. rewrite (LW (Nat.add (length (45 :: q)) 1)) by lia. cbn [andb].
    destruct w as [|x w'].
    + destruct rest as [|v rest']; [destruct (NE eq_refl eq_refl)|]. rewrite after_other by assumption. reflexivity.
    + cbn [negb]. rewrite orb_true_r. rewrite after_other by assumption. reflexivity.
Qed.

Lemma parse_agrees : forall n args st es, (length args <= n)%nat ->
  getopts args = Some es -> compiles es -> parse_flags args st = Some (after es st).
Proof.
  induction n as [|n IH]; intros args st es L H C.
  { destruct args; [|simpl in L; lia]. injection H as <-. simpl. f_equal. symmetry. apply after_values; reflexivity. }
  destruct args as [|arg rest].
  { injection H as <-. simpl. f_equal. symmetry. apply after_values; reflexivity. }
  assert (R : forall e st', getopts rest = Some e -> compiles e -> parse_flags rest st' = Some (after e st'))
    by (intros; apply IH; [simpl in L; lia | assumption | assumption]).
  assert (R2 : forall v rest' e st', rest = v :: rest' -> getopts rest' = Some e -> compiles e -> parse_flags rest' st' = Some (after e st'))
    by (intros v rest' e st' -> ? ?; apply IH; [simpl in L; lia | assumption | assumption]).
  assert (SUB : forall a b, compiles (a ++ b) -> compiles b).
  { intros a b (A1 & A2 & A3). repeat split; intros X; [apply A1 | apply A2 | apply A3]; apply in_or_app; right; exact X. }
  assert (FREE : forall e, option_map (cons (Free arg)) (getopts rest) = Some e -> compiles e ->
                 parse_flags (arg :: rest) st = parse_flags rest st -> parse_flags (arg :: rest) st = Some (after e st)).
  { intros e He Ce ->. destruct (getopts rest) as [e'|] eqn:G; [|discriminate]. injection He as <-.
    rewrite (R e' st eq_refl) by (apply (SUB [Free arg]); exact Ce). f_equal. }
  assert (NODASH : forall c t, arg = c :: t -> c <> 45 -> parse_flags (arg :: rest) st = parse_flags rest st).
  { intros c t -> NC. cbn [parse_flags]. rewrite byte0_false by (unfold ascii; lia). reflexivity. }
  cbn [getopts] in H.
  destruct arg as [|c tail].
  { apply FREE; [exact H | exact C | reflexivity]. }
  destruct tail as [|d u].
  { apply FREE; [exact H | exact C |]. destruct (Z.eq_dec c 45) as [-> |NC]; [|exact (NODASH c [] eq_refl NC)].
    exact (short_none [] rest st (Forall_nil _)). }
  destruct (Z.eqb_spec c 45) as [-> |NC]; cbn [negb] in H.
  2: { apply FREE; [exact H | exact C | exact (NODASH c (d :: u) eq_refl NC)]. }
  destruct (Z.eqb_spec d 45) as [-> |ND].
  - destruct u as [|u0 u']; [injection H as <-; destruct C as (_ & _ & C); destruct C; left; reflexivity|].
    remember (u0 :: u') as u eqn:EU. clear EU u0 u'.
    pose proof (split_eq_spec u) as SE. destruct (split_eq u) as [name i] eqn:ES.
    assert (EU : u = name ++ match i with Some w => 61 :: w | None => [] end)
      by (destruct i; destruct SE as [-> _]; [reflexivity | rewrite app_nil_r; reflexivity]).
    destruct (find_opt name) as [[nm v]|] eqn:FO; [|discriminate].
    apply find_opt_in in FO as (m & IN & ->).
    assert (H1 : v = false -> i = None) by (intros ->; destruct i; [discriminate | reflexivity]).
    assert (H2 : v = true -> i = None -> rest <> []) by (intros -> -> ->; discriminate).
    rewrite EU. etransitivity; [exact (long_step m nm v i rest st IN H1 H2)|].
    destruct v, i as [w|].
    + destruct (getopts rest) as [e|]; [|discriminate]. injection H as <-.
      rewrite (R e _ eq_refl) by (apply (SUB [Value nm w]); exact C). f_equal. symmetry. apply (after_app [Value nm w]).
    + destruct rest as [|w rest']; [discriminate|]. destruct (getopts rest') as [e|] eqn:G; [|discriminate]. injection H as <-.
      rewrite (R2 w rest' e _ eq_refl G) by (apply (SUB [Value nm w]); exact C). f_equal. symmetry. apply (after_app [Value nm w]).
    + discriminate.
    + destruct (getopts rest) as [e|]; [|discriminate]. injection H as <-.
      rewrite (R e _ eq_refl) by (apply (SUB [Given nm]); exact C). f_equal.
  - destruct (cluster (d :: u)) as [[fs v]|] eqn:CL; [|discriminate].
    assert (NF : forall es', es = map Given fs ++ es' -> ~ In "h"%string fs /\ ~ In "V"%string fs).
    { intros es' ->. destruct C as (C1 & C2 & _).
      split; intros X; [apply C1 | apply C2]; apply in_or_app; left; apply in_map; exact X. }
    destruct v as [[nm w]|].
    + assert (NE : w = [] -> rest <> []) by (intros -> ->; discriminate).
      assert (EE : exists es', es = map Given fs ++ es').
      { destruct w; [destruct rest as [|v rest']; [discriminate|]; destruct (getopts rest') | destruct (getopts rest)];
          try discriminate; injection H as <-; eexists; reflexivity. }
      destruct EE as (es' & EE). destruct (NF es' EE) as [NH NV].
      destruct (cluster_spec _ _ _ CL NH NV) as (q & x & EQ & G & c & -> & FO).
      rewrite EQ. etransitivity; [exact (short_value q c nm w rest st G FO NE)|].
      destruct w as [|w0 w'].
      * destruct rest as [|v rest']; [discriminate|]. destruct (getopts rest') as [e|] eqn:GR; [|discriminate]. injection H as <-.
        rewrite (R2 v rest' e _ eq_refl GR) by (apply (SUB [Value nm v]); apply (SUB (map Given fs)); exact C).
        f_equal. rewrite after_app, after_given. symmetry. apply (after_app [Value nm v]).
      * destruct (getopts rest) as [e|]; [|discriminate]. injection H as <-.
        rewrite (R e _ eq_refl) by (apply (SUB [Value nm (w0 :: w')]); apply (SUB (map Given fs)); exact C).
        f_equal. rewrite after_app, after_given. symmetry. apply (after_app [Value nm (w0 :: w')]).
    + destruct (getopts rest) as [e|] eqn:GR; [|discriminate]. injection H as <-. destruct (NF e eq_refl) as [NH NV].
      destruct (cluster_spec _ _ _ CL NH NV) as (q & x & EQ & G & ->). rewrite app_nil_r in EQ. rewrite EQ.
      etransitivity; [exact (short_none q rest st G)|]. rewrite (R e st eq_refl) by (apply (SUB (map Given fs)); exact C).
      rewrite after_app, after_given. reflexivity.
Qed.

(** ** The encoded form *)
Lemma split_encode : forall args, args <> [] -> Forall (fun a => ~ In 31 a) args ->
  split_on (Z.eqb 31) (encode args) = args.
Proof.
  assert (P : forall a, ~ In 31 a -> forall c, In c a -> (31 =? c) = false).
  { intros a NA c I. apply Z.eqb_neq. intros <-. exact (NA I). }
  induction args as [|a rest IH]; intros NE F; [destruct NE; reflexivity|].
  inversion_clear F as [|? ? FA FR]. destruct rest as [|b rest'].
  - simpl. apply split_none. apply P. exact FA.
  - change (encode (a :: b :: rest')) with (a ++ 31 :: encode (b :: rest')).
    rewrite split_app by (apply P; exact FA).
    change (split_on (Z.eqb 31) (31 :: encode (b :: rest'))) with ([] :: split_on (Z.eqb 31) (encode (b :: rest'))).
    rewrite IH by (discriminate || exact FR). rewrite app_nil_r. reflexivity.
Qed.

Lemma new_agrees : forall args env es, Forall (fun a => ~ In 31 a) args ->
  getopts args = Some es -> compiles es ->
  new (encode args) env = Some (after es {| target_feature := []; target_cpu := None;
                                            allow_features := option_map (fun f => (false, f)) env |}).
Proof.
  intros args env es F G C. unfold new. destruct args as [|a rest].
  - injection G as <-. simpl. f_equal.
  - rewrite split_encode by (discriminate || exact F). eapply parse_agrees; [reflexivity | exact G | exact C].
Qed.

(** ** Lists of names *)
Lemma split_decomp : forall sep s, exists h, (forall x, In x h -> sep x = false) /\
  (s = h /\ split_on sep s = [h] \/ exists c t, s = h ++ c :: t /\ sep c = true /\ split_on sep s = h :: split_on sep t).
Proof.
  intros sep s. induction s as [|c s (h & N & D)].
  - exists []. split; [intros x [] | left; split; reflexivity].
  - cbn [split_on]. destruct (sep c) eqn:SC.
    + exists []. split; [intros x []|]. right. exists c, s. auto.
    + exists (c :: h). split; [intros x [<-|X]; auto|].
      destruct D as [(-> & ->)|(d & t & -> & SD & ->)]; [left; split; reflexivity|].
      right. exists d, t. auto.
Qed.

Lemma app_sep : forall (sep : Z -> bool) h c t b x y, (forall z, In z h -> sep z = false) -> sep x = true ->
  h ++ c :: t = b ++ x :: y -> (b = h /\ c = x /\ t = y) \/ exists b', b = h ++ c :: b' /\ t = b' ++ x :: y.
Proof.
  induction h as [|z h IH]; intros c t b x y N X E.
  - destruct b as [|w b]; simpl in E; injection E as -> ->; [left; auto | right; exists b; auto].
  - destruct b as [|w b]; simpl in E; injection E as -> E.
    + rewrite (N x (or_introl eq_refl)) in X. discriminate.
    + destruct (IH c t b x y) as [(-> & -> & ->)|(b' & -> & ->)]; [intros; apply N; right; assumption | exact X | exact E | left; auto | right; exists b'; auto].
Qed.

Lemma split_listed : forall sep s name, In name (split_on sep s) <-> listed sep s name.
Proof.
  intros sep s name. remember (length s) as n eqn:L. assert (LE : (length s <= n)%nat) by lia. clear L.
  revert s LE. induction n as [|n IH]; intros s LE.
  all: destruct (split_decomp sep s) as (h & N & [(-> & ->)|(c & t & -> & SC & ->)]).
  all: try (rewrite app_length in LE; simpl in LE; lia).
  1, 2: split;
    [ intros [<-|[]]; exists [], []; rewrite app_nil_r; repeat split; auto
    | intros (b & a & E & NN & B & A);
      assert (b = []) as -> by
        (destruct B as [B|(b' & x & -> & X)]; [exact B|]; rewrite (N x) in X; [discriminate|];
         rewrite E, <- app_assoc; apply in_or_app; right; left; reflexivity);
      simpl in E; assert (a = []) as -> by
        (destruct A as [A|(x & a' & -> & X)]; [exact A|]; rewrite (N x) in X; [discriminate|];
         rewrite E; apply in_or_app; right; left; reflexivity);
      left; rewrite E, app_nil_r; reflexivity ].
  split.
  - intros [<-|I].
    + exists [], (c :: t). repeat split; auto. right. exists c, t. auto.
    + apply IH in I; [|rewrite app_length in LE; simpl in LE; lia].
      destruct I as (b & a & -> & NN & B & A). exists (h ++ c :: b), a. rewrite <- app_assoc. repeat split; auto. right.
      destruct B as [-> |(b' & x & -> & X)]; [exists h, c; auto|].
      exists (h ++ c :: b'), x. rewrite <- app_assoc. auto.
  - intros (b & a & E & NN & B & A). destruct B as [-> |(b' & x & -> & X)].
    + left. simpl in E. destruct A as [-> |(y & a' & -> & Y)].
      * rewrite app_nil_r in E. subst name. rewrite (NN c) in SC; [discriminate|]. apply in_or_app; right; left; reflexivity.
      * destruct (app_sep sep h c t name y a' N Y E) as [(-> & _)|(b' & -> & _)]; [reflexivity|].
        rewrite (NN c) in SC; [discriminate|]. apply in_or_app; right; left; reflexivity.
    + rewrite <- app_assoc in E. simpl in E. right. apply IH; [rewrite app_length in LE; simpl in LE; lia|].
      destruct (app_sep sep h c t b' x (name ++ a) N X E) as [(-> & -> & ->)|(b'' & -> & ->)].
      * exists [], a. repeat split; auto.
      * exists (b'' ++ [x]), a. rewrite <- app_assoc. repeat split; auto. right. exists b'', x. auto.
Qed.

Lemma existsb_listed : forall sep s name, existsb (fun f => str_eqb f name) (split_on sep s) = true <-> listed sep s name.
Proof.
  intros sep s name. rewrite <- split_listed, existsb_exists. split.
  - intros (x & I & E). apply str_eqb_eq in E as ->. exact I.
  - intros I. exists name. split; [exact I | apply str_eqb_refl].
Qed.
