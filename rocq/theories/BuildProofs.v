(** * The build script prints what the specification says *)
From Coq Require Import ZArith String List Bool Lia.
From Verif Require Import StrModel StrFacts VersionModel VersionSpec VersionProofs RustflagsModel RustflagsSpec RustflagsProofs
  BuildModel BuildSpec BuildFacts.
Import ListNotations.
Local Open Scope string_scope.
Local Open Scope list_scope.
Local Open Scope Z_scope.

(** ** The loops over the features *)
Ltac compute_lists g f :=
  unfold bit; cbn [fst snd];
  let a := eval vm_compute in (above g f) in let b := eval vm_compute in (below g f) in
  change (above g f) with a; change (below g f) with b; unfold mem, one_of, is; cbn [existsb].
Ltac each_name n :=
  repeat match goal with
         | |- context [str_eqb n (lit ?x)] =>
             let E := fresh "E" in destruct (str_eqb n (lit x)) eqn:E;
             [apply str_eqb_eq in E; subst n; clear; vm_compute; repeat match goal with b : bool |- _ => destruct b end; reflexivity |]
         end; clear; cbn; repeat match goal with b : bool |- _ => destruct b end; reflexivity.

Ltac step_bit step g f :=
  intros s [e n]; try destruct s; unfold step; compute_lists g f; each_name n.

Lemma x86_64_bit : forall s f, step_x86_64 s f = bit [] "cmpxchg16b" s f.
Proof. step_bit step_x86_64 (@nil (string * string)) "cmpxchg16b". Qed.
Lemma aarch64_lse : forall s f, lse (step_aarch64 true s f) = bit aarch64_graph "lse" (lse s) f.
Proof. step_bit step_aarch64 aarch64_graph "lse". Qed.
Lemma aarch64_lse2 : forall s f, lse2 (step_aarch64 true s f) = bit aarch64_graph "lse2" (lse2 s) f.
Proof. step_bit step_aarch64 aarch64_graph "lse2". Qed.
Lemma aarch64_lse128 : forall s f, lse128 (step_aarch64 true s f) = bit aarch64_graph "lse128" (lse128 s) f.
Proof. step_bit step_aarch64 aarch64_graph "lse128". Qed.
Lemma aarch64_rcpc3 : forall s f, rcpc3 (step_aarch64 true s f) = bit aarch64_graph "rcpc3" (rcpc3 s) f.
Proof. step_bit step_aarch64 aarch64_graph "rcpc3". Qed.
Lemma aarch64_lsfe : forall u s f, lsfe (step_aarch64 u s f) = bit aarch64_graph "lsfe" (lsfe s) f.
Proof. intros u. step_bit step_aarch64 aarch64_graph "lsfe". Qed.
Lemma arm_v6 : forall s f, v6 (step_arm s f) = bit arm_graph "v6" (v6 s) f.
Proof. step_bit step_arm arm_graph "v6". Qed.
Lemma arm_v7 : forall s f, v7 (step_arm s f) = bit arm_graph "v7" (v7 s) f.
Proof. step_bit step_arm arm_graph "v7". Qed.
Lemma arm_mclass_bit : forall s f, mclass (step_arm s f) = bit arm_graph "mclass" (mclass s) f.
Proof. step_bit step_arm arm_graph "mclass". Qed.

Definition riscv_edges (zb : bool) : list (string * string) :=
  ("zacas", "zaamo") :: ("a", "zaamo") :: ("rva23u64", "a") :: if zb then [("zabha", "zaamo")] else [].
Lemma riscv_zacas : forall zb za c s f, zacas (step_riscv za c s f) = bit (riscv_edges zb) "zacas" (zacas s) f.
Proof.
  intros [] za c; [step_bit step_riscv (riscv_edges true) "zacas" | step_bit step_riscv (riscv_edges false) "zacas"].
Qed.
Lemma riscv_zaamo : forall zb s f, zaamo (step_riscv true zb s f) = bit (riscv_edges zb) "zaamo" (zaamo s) f.
Proof.
  intros []; [step_bit step_riscv (riscv_edges true) "zaamo" | step_bit step_riscv (riscv_edges false) "zaamo"].
Qed.
Lemma riscv_zabha : forall s f, zabha (step_riscv true true s f) = bit (riscv_edges true) "zabha" (zabha s) f.
Proof. step_bit step_riscv (riscv_edges true) "zabha". Qed.
Lemma powerpc_bit : forall s f, step_powerpc s f = bit [] "quadword-atomics" s f.
Proof. step_bit step_powerpc (@nil (string * string)) "quadword-atomics". Qed.
Lemma s390x_fast : forall s f, fast_serialization (step_s390x s f) = bit [] "fast-serialization" (fast_serialization s) f.
Proof. step_bit step_s390x (@nil (string * string)) "fast-serialization". Qed.
Lemma s390x_cond : forall s f, load_store_on_cond (step_s390x s f) = bit [] "load-store-on-cond" (load_store_on_cond s) f.
Proof. step_bit step_s390x (@nil (string * string)) "load-store-on-cond". Qed.
Lemma s390x_distinct : forall s f, distinct_ops (step_s390x s f) = bit [] "distinct-ops" (distinct_ops s) f.
Proof. step_bit step_s390x (@nil (string * string)) "distinct-ops". Qed.
Lemma s390x_misc : forall s f, misc_ext_3 (step_s390x s f) = bit [] "miscellaneous-extensions-3" (misc_ext_3 s) f.
Proof. step_bit step_s390x (@nil (string * string)) "miscellaneous-extensions-3". Qed.
Lemma avr_bit : forall s f, step_avr s f = bit [] "rmw" s f.
Proof. step_bit step_avr (@nil (string * string)) "rmw". Qed.

(** ** Arm targets *)
Lemma lit_ascii : forall s, forallb (fun c => c <? 128) (lit s) = true -> Forall ascii (lit s).
Proof. intros. apply ascii_b. assumption. Qed.

Definition arm_parse (t : str) : option (str * str) :=
  match match strip_prefix t (lit "arm") with Some None => strip_prefix t (lit "thumb") | r => r end with
  | Some (Some x) =>
      match strip_prefix x (lit "eb") with
      | Some eb => let i := splitn 2 46 (hd [] (split_on (Z.eqb 45) (match eb with Some s => s | None => x end))) in
                   Some (hd [] i, hd [] (tl i))
      | None => None
      end
  | _ => None
  end.
Lemma parse_of_target : forall t sub suf deny, arm_parse t = Some (sub, suf) -> arm_of_target t deny = arm_subarch t sub suf deny.
Proof.
  intros t sub suf deny. unfold arm_parse, arm_of_target.
  destruct (match strip_prefix t (lit "arm") with Some None => strip_prefix t (lit "thumb") | r => r end) as [[x|]|]; try discriminate.
  destruct (strip_prefix x (lit "eb")) as [eb|]; [|discriminate]. intros [= <- <-]. reflexivity.
Qed.

Lemma triple_parse : forall t sub suf, arm_triple t sub suf -> arm_parse t = Some (sub, suf).
Proof.
  intros t sub suf (p & e & s & rest & E & P & EB & N1 & N2 & N3 & S & R).
  assert (PP : match strip_prefix t (lit "arm") with Some None => strip_prefix t (lit "thumb") | r => r end
               = Some (Some (e ++ sub ++ s ++ rest))).
  { rewrite E. destruct P as [-> | ->].
    - rewrite strip_prefix_some by (apply lit_ascii; reflexivity). reflexivity.
    - rewrite strip_prefix_none by (intros x X; discriminate X). apply strip_prefix_some. apply lit_ascii. reflexivity. }
  unfold arm_parse. rewrite PP.
  assert (EE : exists r, strip_prefix (e ++ sub ++ s ++ rest) (lit "eb") = Some r /\
     match r with Some s => s | None => e ++ sub ++ s ++ rest end = sub ++ s ++ rest).
  { destruct EB as [-> | [-> F]]; eexists; split.
    - apply strip_prefix_some. apply lit_ascii. reflexivity.
    - reflexivity.
    - apply strip_prefix_none. exact F.
    - reflexivity. }
  destruct EE as (r & -> & ->).
  assert (SP : hd [] (split_on (Z.eqb 45) (sub ++ s ++ rest)) = sub ++ s).
  { assert (Q : forall c, In c (sub ++ s) -> (45 =? c) = false).
    { intros c I. apply Z.eqb_neq. intros <-. apply in_app_or in I as [I|I]; contradiction. }
    rewrite app_assoc. destruct R as [-> | (x & ->)].
    - rewrite app_nil_r, split_none by exact Q. reflexivity.
    - rewrite split_app by exact Q. simpl. rewrite app_nil_r. reflexivity. }
  rewrite SP. destruct S as [[-> ->] | ->].
  - rewrite app_nil_r, splitn_none by assumption. reflexivity.
  - rewrite splitn_app by assumption. reflexivity.
Qed.

Lemma triple_exists : forall t p r, t = p ++ r -> p = lit "arm" \/ p = lit "thumb" -> exists sub suf, arm_triple t sub suf.
Proof.
  intros t p r E P.
  assert (EB : exists e r', r = e ++ r' /\ (e = lit "eb" \/ e = [] /\ forall x, r' <> lit "eb" ++ x)).
  { destruct (strip_prefix_total r (lit "eb")) as (x & _ & X); [apply lit_ascii; reflexivity|].
    destruct x as [x|]; [exists (lit "eb"), x; auto | exists [], r; auto]. }
  destruct EB as (e & r' & -> & EB).
  assert (D : exists a rest, r' = a ++ rest /\ ~ In 45 a /\ (rest = [] \/ exists x, rest = 45 :: x)).
  { destruct (first_or_none 45 r') as [N|(a & b & -> & N)]; [exists r', []; rewrite app_nil_r; auto | exists a, (45 :: b); eauto]. }
  destruct D as (a & rest & -> & N & R).
  assert (D : exists sub s suf, a = sub ++ s /\ ~ In 46 sub /\ (s = [] /\ suf = [] \/ s = 46 :: suf)).
  { destruct (first_or_none 46 a) as [M|(x & b & -> & M)]; [exists a, [], []; rewrite app_nil_r; auto | exists x, (46 :: b), b; auto]. }
  destruct D as (sub & s & suf & -> & M & S).
  exists sub, suf, p, e, s, rest. rewrite <- app_assoc in E, EB.
  repeat (split; [solve [assumption | intros X; apply N; apply in_or_app; auto]|]). exact R.
Qed.

Lemma triple_prefix : forall t sub suf, arm_triple t sub suf -> exists p r, t = p ++ r /\ (p = lit "arm" \/ p = lit "thumb").
Proof. intros t sub suf (p & e & s & rest & E & P & _). exists p, (e ++ sub ++ s ++ rest). auto. Qed.

Lemma exception_sub : forall t x sub suf, In (t, x) arm_exceptions -> arm_triple (lit t) sub suf -> sub = [] /\ suf = [].
Proof.
  intros t x sub suf I T. apply triple_parse in T.
  simpl in I. destruct I as [[= <- <-]|[[= <- <-]|[]]]; vm_compute in T; injection T as <- <-; auto.
Qed.
Lemma not_exception : forall t, (forall s x, In (s, x) arm_exceptions -> t <> lit s) ->
  is t "arm-linux-androideabi" = false /\ is t "armeb-unknown-linux-gnueabi" = false.
Proof.
  intros t H. split.
  - apply not_true_iff_false. rewrite is_iff. eapply H. left. reflexivity.
  - apply not_true_iff_false. rewrite is_iff. eapply H. right. left. reflexivity.
Qed.

Lemma subarch_known : forall t sub suf deny n m, arm_triple t sub suf -> arm_version t sub n m ->
  arm_subarch t sub suf deny =
    Some {| mclass := m; v6 := 6 <=? n; v7 := (7 <=? n) && (negb ((n =? 8) && m) || is suf "main") |}.
Proof.
  intros t sub suf deny n m T [(x & I & ->)|(N & s & I & ->)].
  - destruct (exception_sub _ _ _ _ I T) as [-> ->].
    simpl in I. destruct I as [[= <- <- <-]|[[= <- <- <-]|[]]]; reflexivity.
  - apply not_exception in N as [N1 N2]. unfold arm_subarch. rewrite N1, N2. clear - I.
    simpl in I. repeat (destruct I as [[= <- <- <-]|I]; [vm_compute; try reflexivity;
      match goal with |- context [if ?b then true else false] => destruct b | _ => idtac end; reflexivity|]). destruct I.
Qed.

Lemma subarch_unknown : forall t sub suf deny, (forall n m, ~ arm_version t sub n m) ->
  arm_subarch t sub suf deny = if deny then None else Some {| mclass := false; v6 := false; v7 := false |}.
Proof.
  intros t sub suf deny H.
  assert (N : forall s x, In (s, x) arm_exceptions -> t <> lit s).
  { intros s [n m] I ->. apply (H n m). left. exists s. auto. }
  pose proof (not_exception t N) as [N1 N2].
  assert (F : forall s, In s (map fst arm_names) -> sub <> lit s).
  { intros s I ->. apply in_map_iff in I as ((s' & n & m) & E & I). simpl in E. subst s'. apply (H n m). right. split; [exact N|].
    exists s. auto. }
  assert (G : forall l, (forall s, In s l -> In s (map fst arm_names)) -> one_of sub l = false).
  { intros l L. apply not_true_iff_false. rewrite one_of_iff, in_map_iff. intros (s & E & I). apply (F s (L s I)). auto. }
  unfold arm_subarch. rewrite N1, N2, !G.
  - assert (E : is sub "" = false) by (apply not_true_iff_false; rewrite is_iff; apply F; simpl; auto).
    rewrite E. destruct deny; reflexivity.
  - intros s I. simpl in *. intuition.
  - intros s I. simpl in *. intuition.
  - intros s I. simpl in *. intuition.
Qed.

Lemma version_dec : forall t sub, (exists n m, arm_version t sub n m) \/ (forall n m, ~ arm_version t sub n m).
Proof.
  intros t sub.
  destruct (existsb (fun e => is t (fst e)) arm_exceptions) eqn:E.
  - left. apply existsb_exists in E as ((s & n & m) & I & Q). apply is_iff in Q. exists n, m. left. exists s. auto.
  - assert (N : forall s x, In (s, x) arm_exceptions -> t <> lit s).
    { intros s x I Q. apply not_true_iff_false in E. apply E. apply existsb_exists. exists (s, x). split; [exact I|]. apply is_iff. exact Q. }
    destruct (existsb (fun e => is sub (fst e)) arm_names) eqn:E2.
    + left. apply existsb_exists in E2 as ((s & n & m) & I & Q). apply is_iff in Q. exists n, m. right. split; [exact N|]. exists s. auto.
    + right. intros n m [(s & I & Q)|(_ & s & I & Q)]; [exact (N _ _ I Q)|].
      apply not_true_iff_false in E2. apply E2. apply existsb_exists. exists (s, (n, m)). split; [exact I|]. apply is_iff. exact Q.
Qed.

Definition arm_prefixed (t : str) : Prop := exists r, t = lit "arm" ++ r \/ t = lit "thumb" ++ r.
Lemma prefixed_dec : forall t, arm_prefixed t \/ ~ arm_prefixed t.
Proof.
  intros t. unfold arm_prefixed.
  destruct (strip_prefix_total t (lit "arm")) as (a & _ & A); [apply lit_ascii; reflexivity|].
  destruct (strip_prefix_total t (lit "thumb")) as (b & _ & B); [apply lit_ascii; reflexivity|].
  destruct a as [a|]; [eauto|]. destruct b as [b|]; [eauto|]. right. intros (r & [E|E]); [eapply A | eapply B]; eauto.
Qed.

(** What [arm_of_target] returns *)
Lemma arm_of_target_spec : forall t deny,
  match arm_of_target t deny with
  | Some s => (v6 s = true <-> arm_default t (lit "v6")) /\ (v7 s = true <-> arm_default t (lit "v7")) /\
              (mclass s = true <-> arm_default t (lit "mclass"))
  | None => deny = true /\ arm_prefixed t /\ ~ arm_recognised t
  end.
Proof.
  intros t deny. destruct (prefixed_dec t) as [(r & P)|P].
  - assert (X : exists p, t = p ++ r /\ (p = lit "arm" \/ p = lit "thumb")) by (destruct P as [-> | ->]; eauto).
    destruct X as (p & E & PP). destruct (triple_exists t p r E PP) as (sub & suf & T).
    pose proof (triple_parse _ _ _ T) as TP. rewrite (parse_of_target t sub suf deny TP).
    assert (U : forall sub' suf', arm_triple t sub' suf' -> sub' = sub /\ suf' = suf).
    { intros sub' suf' T'. apply triple_parse in T'. rewrite TP in T'. injection T' as -> ->. auto. }
    destruct (version_dec t sub) as [(n & m & V)|N].
    + rewrite (subarch_known _ _ _ deny _ _ T V). cbn [v6 v7 mclass].
      assert (UV : forall n' m', arm_version t sub n' m' -> (6 <=? n') = (6 <=? n) /\ m' = m /\
         (7 <=? n') && (negb ((n' =? 8) && m') || is suf "main") = (7 <=? n) && (negb ((n =? 8) && m) || is suf "main")).
      { intros n' m' V'. pose proof (subarch_known _ _ _ deny _ _ T V) as A. rewrite (subarch_known _ _ _ deny _ _ T V') in A.
        injection A as -> A B. auto. }
      assert (V7 : forall n m, (7 <=? n) && (negb ((n =? 8) && m) || is suf "main") = true <->
                               7 <= n /\ (n = 8 -> m = true -> suf = lit "main")).
      { intros k b. rewrite andb_true_iff, orb_true_iff, negb_true_iff, andb_false_iff, is_iff, Z.leb_le, Z.eqb_neq.
        split.
        - intros (A & [[B|B]|B]); (split; [exact A|]); intros; [contradiction | congruence | exact B].
        - intros (A & B). split; [exact A|]. destruct b; [|auto]. destruct (Z.eq_dec k 8); auto. }
      split; [|split].
      * rewrite Z.leb_le. split.
        -- intros L. exists sub, suf, n, m. auto.
        -- intros (sub' & suf' & n' & m' & T' & V' & D). apply U in T' as [-> ->]. apply UV in V' as (Q & _).
           destruct D as [(_ & D)|[(D & _)|(D & _)]]; try discriminate D. lia.
      * rewrite V7. split.
        -- intros L. exists sub, suf, n, m. auto 6.
        -- intros (sub' & suf' & n' & m' & T' & V' & D). apply U in T' as [-> ->]. apply UV in V' as (_ & _ & Q).
           apply V7. rewrite <- Q. apply V7. destruct D as [(D & _)|[(_ & D)|(D & _)]]; try discriminate D. exact D.
      * split.
        -- intros L. exists sub, suf, n, m. auto 6.
        -- intros (sub' & suf' & n' & m' & T' & V' & D). apply U in T' as [-> ->]. apply UV in V' as (_ & -> & _).
           destruct D as [(D & _)|[(D & _)|(_ & D)]]; try discriminate D. exact D.
    + rewrite (subarch_unknown _ _ _ deny N).
      assert (NR : ~ arm_recognised t).
      { intros (sub' & suf' & n' & m' & T' & V'). apply U in T' as [-> ->]. exact (N _ _ V'). }
      destruct deny.
      * split; [reflexivity|]. split; [exists r; exact P | exact NR].
      * cbn [v6 v7 mclass]. split; [|split]; (split; [discriminate|]); intros (sub' & suf' & n' & m' & T' & V' & _);
          destruct NR; exists sub', suf', n', m'; auto.
  - assert (E : arm_of_target t deny = Some {| mclass := false; v6 := false; v7 := false |}).
    { unfold arm_of_target.
      rewrite (strip_prefix_none t (lit "arm")) by (intros x X; apply P; exists x; auto).
      rewrite (strip_prefix_none t (lit "thumb")) by (intros x X; apply P; exists x; auto). reflexivity. }
    rewrite E. cbn [v6 v7 mclass].
    split; [|split]; (split; [discriminate|]); intros (sub' & suf' & n' & m' & T' & V' & _);
      destruct P; apply triple_prefix in T' as (p & r & T' & [-> | ->]); exists r; auto.
Qed.

(** ** Suffixes *)
Lemma utf8_len : forall c, (1 <= length (utf8 c))%nat.
Proof. intros c. destruct (utf8_first c) as (b & r & -> & _). simpl. lia. Qed.
Lemma len_cons : forall c s, len (c :: s) = (length (utf8 c) + len s)%nat.
Proof. intros. unfold len, as_bytes. simpl. apply app_length. Qed.
Lemma slice_to_app : forall a b, slice_to (a ++ b) (len a) = Some a.
Proof.
  induction a as [|c a IH]; intros b; [destruct b; reflexivity|].
  rewrite len_cons. pose proof (utf8_len c) as L. destruct (length (utf8 c) + len a)%nat as [|n] eqn:E; [lia|].
  cbn [app slice_to]. rewrite <- E. assert (Q : (length (utf8 c) <=? length (utf8 c) + len a)%nat = true) by (apply Nat.leb_le; lia).
  rewrite Q. replace (length (utf8 c) + len a - length (utf8 c))%nat with (len a) by lia. rewrite IH. reflexivity.
Qed.
Lemma ends_with_iff : forall s pat, ends_with s pat = true <-> exists t, s = t ++ pat.
Proof.
  intros. unfold ends_with. rewrite starts_with_iff. split; intros (t & E).
  - exists (rev t). rewrite <- (rev_involutive s), E, rev_app_distr, rev_involutive. reflexivity.
  - exists (rev t). rewrite E, rev_app_distr. reflexivity.
Qed.
Lemma len_app_any : forall a b, len (a ++ b) = (len a + len b)%nat.
Proof. intros. unfold len, as_bytes. rewrite flat_map_app. apply app_length. Qed.
Lemma strip_suffix_spec : forall s pat, exists r, strip_suffix s pat = Some r /\
  match r with Some t => s = t ++ pat | None => forall t, s <> t ++ pat end.
Proof.
  intros s pat. unfold strip_suffix. destruct (ends_with s pat) eqn:E.
  - apply ends_with_iff in E as (t & ->). rewrite len_app_any. replace (len t + len pat - len pat)%nat with (len t) by lia.
    rewrite slice_to_app. exists (Some t). auto.
  - exists None. split; [reflexivity|]. intros t ->. apply not_true_iff_false in E. apply E. apply ends_with_iff. eauto.
Qed.

(** ** PowerPC and z/Architecture CPUs *)
Lemma u32_iff : forall s n, parse_uint u32_max s = Some n <-> u32 s n.
Proof. exact (parse_uint_spec u32_max). Qed.
Lemma u32_not_x : forall a n, ~ u32 (a ++ lit "x") n.
Proof.
  intros a n H. destruct (number_chars _ _ _ 120 H) as [X|X]; try lia. apply in_or_app. right. left. reflexivity.
Qed.
Lemma powerpc_spec : forall i,
  match powerpc_default i with
  | Some q => q = true <-> powerpc_default_on i
  | None => target_cpu (flags i) = None /\ target_endian i = None
  end.
Proof.
  intros i. unfold powerpc_default, powerpc_default_on. destruct (target_cpu (flags i)) as [cpu|].
  - destruct (strip_prefix_total cpu (lit "pwr")) as (r & -> & R); [apply lit_ascii; reflexivity|]. destruct r as [d|].
    + destruct (strip_suffix_spec d (lit "x")) as (r & -> & X). subst cpu.
      transitivity (exists d' x n, d = d' ++ x /\ (x = [] \/ x = lit "x") /\ u32 d' n /\ 8 <= n).
      2:{ split.
          - intros (d' & x & n & -> & A & B & C). right. right. exists d', x, n. auto.
          - intros [A|[A|(d' & x & n & A & B & C)]]; try discriminate A. apply app_inv_head in A. exists d', x, n. auto. }
      set (e := match r with Some s => s | None => d end).
      assert (H : (exists d' x n, d = d' ++ x /\ (x = [] \/ x = lit "x") /\ u32 d' n /\ 8 <= n) <-> exists n, u32 e n /\ 8 <= n).
      { destruct r as [t|]; subst e.
        - split.
          + intros (d' & x & n & A & [-> | ->] & B & C).
            * rewrite app_nil_r in A. subst d'. rewrite X in B. destruct (u32_not_x _ _ B).
            * rewrite X in A. apply app_inv_tail in A as <-. eauto.
          + intros (n & B & C). exists t, (lit "x"), n. auto.
        - split.
          + intros (d' & x & n & A & [-> | ->] & B & C).
            * rewrite app_nil_r in A. subst d'. eauto.
            * destruct (X _ A).
          + intros (n & B & C). exists d, [], n. rewrite app_nil_r. auto. }
      rewrite H. destruct (parse_uint u32_max e) as [n|] eqn:P.
      * rewrite Z.leb_le. apply u32_iff in P. split; [eauto|]. intros (k & A & B). rewrite (number_fun _ _ _ _ P A). exact B.
      * split; [discriminate|]. intros (k & A & _). apply u32_iff in A. congruence.
    + rewrite one_of_iff. simpl. split.
      * intros [A|[A|[A|[A|[A|[A|[]]]]]]]; auto; exfalso.
        -- exact (R (lit "10") (eq_sym A)).
        -- exact (R (lit "11") (eq_sym A)).
        -- exact (R (lit "8") (eq_sym A)).
        -- exact (R (lit "9") (eq_sym A)).
      * intros [A|[A|(d & x & n & A & _)]]; [auto | auto|]. destruct (R _ A).
  - destruct (target_endian i) as [e|]; [|auto]. rewrite is_iff. split; congruence.
Qed.

Lemma s390x_spec : forall i, exists a9 a13, s390x_cpu (target_cpu (flags i)) = Some (a9, a13) /\
  (forall f, In f (map lit ["fast-serialization"; "load-store-on-cond"; "distinct-ops"]) -> (s390x_default i f <-> a9 = true)) /\
  (s390x_default i (lit "miscellaneous-extensions-3") <-> a13 = true).
Proof.
  intros i. unfold s390x_cpu, s390x_default. destruct (target_cpu (flags i)) as [cpu|].
  2:{ exists false, false. split; [reflexivity|].
      split; [intros f _|]; (split; [intros (c & n & A & _); discriminate A | discriminate]). }
  assert (K : exists a9 a13, (match strip_prefix cpu (lit "arch") with
      | None => None
      | Some (Some v) => Some (match parse_uint u32_max v with Some n => (9 <=? n, 13 <=? n) | None => (false, false) end)
      | Some None =>
          Some (if one_of cpu ["z196"; "zEC12"; "z13"; "z14"] then (true, false)
                else if one_of cpu ["z15"; "z16"; "z17"] then (true, true) else (false, false))
      end) = Some (a9, a13) /\ ((exists n, z_level cpu n /\ 9 <= n) <-> a9 = true) /\ ((exists n, z_level cpu n /\ 13 <= n) <-> a13 = true)).
  { destruct (strip_prefix_total cpu (lit "arch")) as (r & -> & R); [apply lit_ascii; reflexivity|]. destruct r as [d|].
    - assert (Z : forall n, z_level cpu n <-> u32 d n).
      { intros n. unfold z_level. subst cpu. split.
        - intros [(d' & A & B)|(s & I & A)]; [apply app_inv_head in A as <-; exact B|].
          exfalso. simpl in I. repeat (destruct I as [[= <- <-]|I]; [discriminate A|]). destruct I.
        - intros A. left. exists d. auto. }
      destruct (parse_uint u32_max d) as [n|] eqn:P.
      + apply u32_iff in P. exists (9 <=? n), (13 <=? n). split; [reflexivity|]. rewrite !Z.leb_le.
        split; (split; [intros (k & A & B); apply Z in A; rewrite (number_fun _ _ _ _ P A); exact B | intros L; exists n; split; [apply Z|]; assumption]).
      + exists false, false. split; [reflexivity|].
        split; (split; [intros (k & A & B); apply Z in A; apply u32_iff in A; congruence | discriminate]).
    - assert (Z : forall n, z_level cpu n <-> exists s, In (s, n) z_names /\ cpu = lit s).
      { intros n. unfold z_level. split; [intros [(d & A & _)|A]; [destruct (R _ A) | exact A] | auto]. }
      clear R. destruct (one_of cpu ["z196"; "zEC12"; "z13"; "z14"]) eqn:E1; [|destruct (one_of cpu ["z15"; "z16"; "z17"]) eqn:E2].
      + exists true, false. split; [reflexivity|]. apply one_of_iff in E1. split; split; try reflexivity; intros H; try discriminate H.
        * simpl in E1. destruct E1 as [A|[A|[A|[A|[]]]]]; [exists 9 | exists 10 | exists 11 | exists 12]; (split; [|lia]); apply Z;
            eexists; (split; [|symmetry; exact A]); simpl; auto 10.
        * destruct H as (n & A & L). apply Z in A as (s & I & Q). subst cpu. simpl in E1, I.
          repeat (destruct I as [[= <- <-]|I]; [try lia; repeat (destruct E1 as [E1|E1]; [discriminate E1|]); destruct E1|]). destruct I.
      + exists true, true. split; [reflexivity|]. apply one_of_iff in E2. split; split; try reflexivity; intros H;
          simpl in E2; destruct E2 as [A|[A|[A|[]]]]; [exists 13 | exists 14 | exists 15 | exists 13 | exists 14 | exists 15]; (split; [|lia]); apply Z;
            eexists; (split; [|symmetry; exact A]); simpl; auto 10.
      + exists false, false. split; [reflexivity|].
        assert (X : ~ exists n, z_level cpu n /\ 9 <= n).
        { intros (n & A & L). apply Z in A as (s & I & Q). subst cpu. clear Z. simpl in I.
          repeat (destruct I as [[= <- <-]|I]; [try lia; try (vm_compute in E1; discriminate E1); try (vm_compute in E2; discriminate E2)|]). destruct I. }
        split; (split; [|discriminate]); intros (n & A & L); destruct X; exists n; (split; [exact A | lia]). }
  destruct K as (a9 & a13 & -> & K9 & K13). exists a9, a13. split; [reflexivity|]. split.
  - intros f I. rewrite <- K9. split.
    + intros (c & n & [= <-] & Z & [(_ & L)|(-> & L)]); exists n; (split; [exact Z | lia]).
    + intros (n & Z & L). exists cpu, n. auto.
  - rewrite <- K13. split.
    + intros (c & n & [= <-] & Z & [(I & L)|(_ & L)]); [|eauto]. exfalso. simpl in I.
      repeat (destruct I as [I|I]; [discriminate I|]). destruct I.
    + intros (n & Z & L). exists cpu, n. auto.
Qed.

(** ** Custom Linux targets *)
Local Notation dashes := (split_on (Z.eqb 45)).
Lemma dashes_sep : forall a x, ~ In 45 a -> dashes (a ++ 45 :: x) = a :: dashes x.
Proof.
  intros a x N. rewrite split_app; [|intros c I; apply Z.eqb_neq; intros <-; contradiction].
  simpl. rewrite app_nil_r. reflexivity.
Qed.
Lemma dashes_none : forall a, ~ In 45 a -> dashes a = [a].
Proof. intros a N. apply split_none. intros c I. apply Z.eqb_neq. intros <-. contradiction. Qed.
Lemma dashes_in : forall t p, In p (dashes t) -> ~ In 45 p.
Proof.
  induction t as [|c t IH]; intros p; cbn [split_on].
  - intros [<-|[]] X. exact X.
  - destruct (Z.eqb_spec 45 c) as [<-|NE].
    + intros [<-|I]; [intros [] | exact (IH p I)].
    + destruct (dashes t) as [|h r] eqn:E; [destruct (split_nonempty _ _ E)|].
      intros [<-|I]; [|apply IH; right; exact I]. intros [X|X]; [congruence|]. exact (IH h (or_introl eq_refl) X).
Qed.
Lemma join_cons : forall a r, r <> [] -> join (a :: r) = a ++ 45 :: join r.
Proof. intros a [|b r] H; [congruence | reflexivity]. Qed.
Lemma join_dashes : forall t, join (dashes t) = t.
Proof.
  induction t as [|c t IH]; [reflexivity|]. cbn [split_on]. destruct (Z.eqb_spec 45 c) as [<-|NE].
  - etransitivity; [apply join_cons; apply split_nonempty|]. simpl. f_equal. exact IH.
  - destruct (dashes t) as [|h r] eqn:E; [destruct (split_nonempty _ _ E)|].
    destruct r as [|h' r]; [simpl in *; congruence|]. rewrite join_cons in * by discriminate. simpl. f_equal. exact IH.
Qed.
Lemma linux_dash : ~ In 45 (lit "linux").
Proof. vm_compute. intuition discriminate. Qed.
Lemma dashes_linux : forall arch vendor rest, ~ In 45 arch -> ~ In 45 vendor -> rest = [] \/ (exists r, rest = 45 :: r) ->
  exists r, dashes (arch ++ 45 :: vendor ++ 45 :: lit "linux" ++ rest) = arch :: vendor :: lit "linux" :: r /\
    join (lit "linux" :: r) = lit "linux" ++ rest.
Proof.
  intros arch vendor rest A V R. rewrite !dashes_sep by assumption. destruct R as [-> |(r & ->)].
  - rewrite app_nil_r, dashes_none by exact linux_dash. exists []. split; reflexivity.
  - rewrite dashes_sep by exact linux_dash. exists (dashes r). split; [reflexivity|].
    rewrite join_cons by apply split_nonempty. rewrite join_dashes. reflexivity.
Qed.
Lemma standard_target_iff : forall t b, standard_target t b <-> b = convert_custom_linux_target t.
Proof.
  assert (D : forall t, (exists arch vendor rest, t = arch ++ 45 :: vendor ++ 45 :: lit "linux" ++ rest /\
                ~ In 45 arch /\ ~ In 45 vendor /\ (rest = [] \/ exists r, rest = 45 :: r)) \/
              (convert_custom_linux_target t = t /\ forall arch vendor rest, t = arch ++ 45 :: vendor ++ 45 :: lit "linux" ++ rest ->
                ~ In 45 arch -> ~ In 45 vendor -> rest <> [] /\ forall r, rest <> 45 :: r)).
  { intros t. pose proof (join_dashes t) as J. pose proof (dashes_in t) as N.
    assert (P : (exists a b r, dashes t = a :: b :: lit "linux" :: r) \/ (forall a b r, dashes t <> a :: b :: lit "linux" :: r)).
    { destruct (dashes t) as [|a [|b [|c r]]]; try (right; intros; discriminate).
      destruct (is c "linux") eqn:E; [apply is_iff in E as ->; left; eauto|].
      right. intros a' b' r' X. injection X as _ _ X _. apply not_true_iff_false in E. apply E, is_iff. exact X. }
    destruct P as [(a & b & r & P)|P].
    - left. rewrite P in J, N. rewrite !join_cons in J by discriminate. exists a, b.
      assert (A : ~ In 45 a) by (apply N; simpl; auto). assert (B : ~ In 45 b) by (apply N; simpl; auto).
      destruct r as [|x r].
      + exists []. rewrite app_nil_r. simpl in J. split; [symmetry; exact J | auto].
      + exists (45 :: join (x :: r)). rewrite join_cons in J by discriminate. split; [symmetry; exact J | eauto].
    - right. split.
      + unfold convert_custom_linux_target. destruct (dashes t) as [|a [|b [|c r]]]; try exact J.
        destruct (is c "linux") eqn:E; [|exact J]. apply is_iff in E as ->. destruct (P a b r). reflexivity.
      + intros arch vendor rest E A V.
        assert (X : ~ (rest = [] \/ exists r, rest = 45 :: r)).
        { intros R. destruct (dashes_linux arch vendor rest A V R) as (r & Q & _). rewrite <- E in Q. exact (P _ _ _ Q). }
        split; [intros -> ; apply X; auto | intros r -> ; apply X; eauto]. }
  assert (C : forall arch vendor rest, ~ In 45 arch -> ~ In 45 vendor -> rest = [] \/ (exists r, rest = 45 :: r) ->
     convert_custom_linux_target (arch ++ 45 :: vendor ++ 45 :: lit "linux" ++ rest) = arch ++ 45 :: lit "unknown" ++ 45 :: lit "linux" ++ rest).
  { intros arch vendor rest A V R. destruct (dashes_linux arch vendor rest A V R) as (r & Q & J).
    unfold convert_custom_linux_target. rewrite Q. change (is (lit "linux") "linux") with true. cbv iota.
    rewrite !join_cons by discriminate. rewrite J. reflexivity. }
  intros t b. split.
  - intros [(arch & vendor & rest & -> & -> & A & V & R)|(<- & H)].
    + symmetry. apply C; assumption.
    + destruct (D t) as [(arch & vendor & rest & E & A & V & R)|(E & _)]; [|congruence].
      destruct (H arch vendor rest E A V) as [H1 H2]. destruct R as [R|(r & R)]; [contradiction | destruct (H2 r R)].
  - intros ->. destruct (D t) as [(arch & vendor & rest & E & A & V & R)|(E & H)].
    + left. exists arch, vendor, rest. split; [exact E|]. split; [rewrite E; apply C; assumption | auto].
    + right. split; [congruence | exact H].
Qed.

Lemma contains_iff : forall s pat, contains_str s pat = true <-> exists a b, s = a ++ pat ++ b.
Proof.
  induction s as [|c s IH]; intros pat; cbn [contains_str]; rewrite orb_true_iff, starts_with_iff.
  - split.
    + intros [(t & E)|E]; [|discriminate]. exists [], t. exact E.
    + intros (a & b & E). left. destruct a; [|discriminate]. exists b. exact E.
  - rewrite IH. split.
    + intros [(t & E)|(a & b & E)]; [exists [], t; exact E | exists (c :: a), b; simpl; congruence].
    + intros ([|x a] & b & E); [left; exists b; exact E|]. right. exists a, b. injection E as _ E. exact E.
Qed.
