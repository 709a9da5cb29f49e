(** * Proofs about OsModel.v *)
From Coq Require Import String Ascii ZArith List Bool Lia.
From Verif Require Import OsSpec DetectModel DetectProofs OsModel.
Import ListNotations.
Open Scope Z_scope.

(** ** Bytes *)
Lemma enc_le_len : forall n v, length (enc_le n v) = n.
Proof. induction n; intros v; cbn [enc_le length]; [reflexivity | now rewrite IHn]. Qed.
Lemma enc_len : forall big n v, length (enc big n v) = n.
Proof. intros [] n v; unfold enc; [rewrite rev_length|]; apply enc_le_len. Qed.
Lemma num_enc_le : forall n v, num_le (enc_le n v) = v mod 256 ^ Z.of_nat n.
Proof.
  induction n; intros v; cbn [enc_le num_le].
  - now rewrite Z.mod_1_r.
  - rewrite IHn, Nat2Z.inj_succ, Z.pow_succ_r by lia.
    rewrite Z.rem_mul_r; [reflexivity | lia | apply Z.pow_pos_nonneg; lia].
Qed.
Lemma num_enc : forall big n v, num big (enc big n v) = v mod 256 ^ Z.of_nat n.
Proof. intros [] n v; unfold num, enc; rewrite ?rev_involutive; apply num_enc_le. Qed.
Lemma num_enc_small : forall big n v, 0 <= v < 256 ^ Z.of_nat n -> num big (enc big n v) = v.
Proof. intros big n v H. rewrite num_enc. now apply Z.mod_small. Qed.
Lemma enc_zero : forall big n, enc big n 0 = repeat 0 n.
Proof.
  intros big n. assert (E : enc_le n 0 = repeat 0 n) by (induction n; cbn; [reflexivity | now rewrite IHn]).
  unfold enc. destruct big; rewrite E; [|reflexivity].
  clear E. induction n; [reflexivity|]. cbn. rewrite IHn. clear IHn. induction n; cbn; [reflexivity | now rewrite IHn].
Qed.
Lemma num_zero : forall big n, num big (repeat 0 n) = 0.
Proof. intros big n. rewrite <- (enc_zero big), num_enc. apply Z.mod_0_l. pose proof (Z.pow_pos_nonneg 256 (Z.of_nat n)). lia. Qed.
Lemma firstn_all_eq : forall (l m : list Z) n, length l = n -> firstn n l = m -> l = m.
Proof. intros l m n H E. rewrite <- E, <- H. symmetry. apply firstn_all. Qed.
Lemma sub_app1 : forall o n a b, (o + n <= length a)%nat -> sub o n (a ++ b) = sub o n a.
Proof.
  intros o n a b H. unfold sub. rewrite skipn_app, firstn_app, skipn_length.
  replace (n - (length a - o))%nat with 0%nat by lia. now rewrite firstn_O, app_nil_r.
Qed.
Lemma sub_app2 : forall o n a b, (length a <= o)%nat -> sub o n (a ++ b) = sub (o - length a) n b.
Proof.
  intros o n a b H. unfold sub. rewrite skipn_app. rewrite (skipn_all2 a) by lia. reflexivity.
Qed.
Lemma sub_all : forall n a, length a = n -> sub 0 n a = a.
Proof. intros n a <-. unfold sub. cbn [skipn]. apply firstn_all. Qed.
Lemma sub_firstn : forall o n m l, (o + n <= m)%nat -> sub o n l = sub o n (firstn m l).
Proof.
  intros o n m l H. destruct (Nat.le_gt_cases (length l) m) as [L|L].
  - now rewrite firstn_all2 by lia.
  - rewrite <- (firstn_skipn m l) at 1. apply sub_app1. rewrite firstn_length. lia.
Qed.

(** ** Strings *)
Lemma starts_with_app : forall p s r, slice_starts_with p (s ++ 0 :: r) = true -> ~ In 0 p -> starts_with p s.
Proof.
  induction p as [|x p IH]; intros s r H N; [now exists s|].
  destruct s as [|y s]; cbn [app slice_starts_with] in H.
  - apply andb_prop in H. destruct H as [E _]. apply Z.eqb_eq in E. subst x. elim N. now left.
  - apply andb_prop in H. destruct H as [E H]. apply Z.eqb_eq in E. subst y.
    destruct (IH s r H) as [q ->]; [intros Q; apply N; now right|]. now exists q.
Qed.
Lemma starts_with_slice : forall p s r, starts_with p s -> slice_starts_with p (s ++ r) = true.
Proof.
  induction p as [|x p IH]; intros s r [q ->]; [reflexivity|].
  cbn [app slice_starts_with]. rewrite Z.eqb_refl. cbn [andb]. apply IH. now exists q.
Qed.
Lemma starts_with_iff : forall p s b, ~ In 0 p -> firstn (S (length s)) b = s ++ [0] ->
  (slice_starts_with p b = true <-> starts_with p s).
Proof.
  intros p s b N F. rewrite <- (firstn_skipn (S (length s)) b), F, <- app_assoc. cbn [app]. split.
  - intros H. exact (starts_with_app _ _ _ H N).
  - intros H. now apply starts_with_slice.
Qed.
Lemma c_ok : forall s, ~ In 0 (chars s) -> is_c_string (c s).
Proof. intros s H. exists (chars s). auto. Qed.
Ltac nozero := cbn; intuition lia.

(** ** Executions *)
Section Runs.
  Variable debug : bool.
  Variable os : os_call -> answer -> Prop.
  Lemma runs_done : forall i tr r, runs debug os (Done i) tr r -> tr = [] /\ r = Returned i.
  Proof. intros i tr r H. inversion H; auto. Qed.
  Lemma runs_call : forall c k tr r, runs debug os (Call c k) tr r ->
    exists a tr', os c a /\ tr = c :: tr' /\ runs debug os (k a) tr' r.
  Proof. intros c k tr r H. inversion H; subst. eauto. Qed.
  Lemma runs_assert : forall b k tr r, runs debug os (DebugAssert b k) tr r ->
    runs debug os k tr r \/ (b = false /\ debug = true /\ tr = [] /\ r = Panicked).
  Proof. intros b k tr r H. inversion H; subst; auto. Qed.
  Lemma runs_assert_true : forall b k tr r, b = true -> runs debug os (DebugAssert b k) tr r -> runs debug os k tr r.
  Proof. intros b k tr r -> H. destruct (runs_assert _ _ _ _ H) as [|(Q & _)]; [assumption | discriminate]. Qed.

  (** Every call of a program is fine if it is so whatever is answered. *)
  Fixpoint all_calls (P : os_call -> Prop) (p : prog) : Prop :=
    match p with
    | Done _ => True
    | Call c k => P c /\ forall a, all_calls P (k a)
    | DebugAssert _ k => all_calls P k
    end.
  Lemma all_calls_runs : forall P p tr r, all_calls P p -> runs debug os p tr r -> Forall P tr.
  Proof.
    intros P p tr r A R. induction R; cbn in A; auto.
    destruct A as [A B]. constructor; auto.
  Qed.
  (** The same for the results. *)
  Lemma runs_total : forall p, (forall c, exists a, os c a) -> debug = false -> exists tr i, runs debug os p tr (Returned i).
  Proof.
    intros p T D. induction p as [i|c k IH|b k IH].
    - exists [], i. constructor.
    - destruct (T c) as [a A]. destruct (IH a) as (tr & i & R). exists (c :: tr), i. econstructor; eauto.
    - destruct IH as (tr & i & R). exists tr, i. constructor; [congruence | assumption].
  Qed.
End Runs.

(** ** The calls *)
Lemma ac_linux_getauxval : forall l a t k,
  (forall v, all_calls call_ok (k v)) -> all_calls call_ok (linux_getauxval l a t k).
Proof.
  intros l a t k K. unfold linux_getauxval. destruct l; cbn [all_calls].
  - split; [split; [exact Logic.I | discriminate] | intros; apply K].
  - split; [split; [exact Logic.I | apply c_ok; nozero]|]. intros x. destruct (Z.eqb_spec (a_ret x) 0); [apply K|].
    cbn [all_calls]. split; [split; [exact Logic.I | congruence] | intros; apply K].
Qed.
Lemma ac_bsd_getauxval : forall b l n t k,
  (forall v, all_calls call_ok (k v)) -> all_calls call_ok (bsd_getauxval b l n t k).
Proof.
  intros b l n t k K. unfold bsd_getauxval. destruct l; cbn [all_calls].
  - split; [split; [cbn; rewrite enc_len; lia | discriminate] | intros; apply K].
  - split; [split; [exact Logic.I | apply c_ok; nozero]|]. intros x. destruct (Z.eqb_spec (a_ret x) 0); [apply K|].
    cbn [all_calls]. split; [split; [cbn; rewrite enc_len; lia | congruence] | intros; apply K].
Qed.
Lemma ac_auxv_aarch64 : forall g h1 h2 an u i,
  (forall t k, (forall v, all_calls call_ok (k v)) -> all_calls call_ok (g t k)) ->
  all_calls call_ok (auxv_aarch64 g h1 h2 an u i).
Proof.
  intros g h1 h2 an u i G. unfold auxv_aarch64. apply G. intros v.
  assert (R : forall j, all_calls call_ok (if u then g h2 (fun hwcap2 => Done (set_if (has hwcap2 (Z.shiftl 1 47)) F_lse128 (set_if (has hwcap2 (Z.shiftl 1 46)) F_rcpc3 j))) else Done j)).
  { intros j. destruct u; [apply G; intros; exact Logic.I | exact Logic.I]. }
  cbv zeta. destruct (has v _); [|apply R]. destruct an; [|apply R].
  unfold exynos_check. cbn [all_calls]. split.
  - split; [cbn; lia | apply c_ok; nozero].
  - intros x. destruct (_ && _); [exact Logic.I | apply R].
Qed.
Lemma ac_auxv_power : forall g h1 h2 i,
  (forall t k, (forall v, all_calls call_ok (k v)) -> all_calls call_ok (g t k)) ->
  all_calls call_ok (auxv_power g h1 h2 i).
Proof.
  intros g h1 h2 i G. unfold auxv_power. apply G. intros v. destruct (has v _); [exact Logic.I|]. apply G. intros; exact Logic.I.
Qed.
Lemma ac_sysctl64 : forall b m k, (forall v, all_calls call_ok (k v)) -> all_calls call_ok (openbsd_sysctl64 b m k).
Proof.
  intros b m k K. unfold openbsd_sysctl64. cbn [all_calls]. split.
  - split; [cbn; rewrite enc_len; lia | auto].
  - intros x. destruct (_ =? _); cbn [all_calls]; apply K.
Qed.
Lemma ac_sysctl32 : forall s k, ~ In 0 (chars s) -> (forall v, all_calls call_ok (k v)) -> all_calls call_ok (apple_sysctlbyname32 (c s) k).
Proof.
  intros s k N K. unfold apple_sysctlbyname32. cbn [all_calls]. split.
  - split; [cbn; lia |]. split; [now apply c_ok | auto].
  - intros x. destruct (negb _); cbn [all_calls]; apply K.
Qed.
Lemma ac_program : forall p, all_calls call_ok (program p).
Proof.
  destruct p; unfold program; cbv zeta.
  - apply ac_auxv_aarch64. intros. now apply ac_linux_getauxval.
  - apply ac_auxv_aarch64. intros. now apply ac_bsd_getauxval.
  - apply ac_auxv_power. intros. now apply ac_linux_getauxval.
  - apply ac_auxv_power. intros. now apply ac_bsd_getauxval.
  - unfold netbsd_aarch64, netbsd_sysctl_cpu_id. cbn [all_calls]. split.
    + split; [cbn; lia|]. split; [apply c_ok; nozero | auto].
    + intros a. destruct (negb _); exact Logic.I.
  - unfold openbsd_aarch64. repeat (apply ac_sysctl64; intros). exact Logic.I.
  - unfold apple_aarch64. apply ac_sysctl32; [nozero|]. intros v. destruct (negb _); [|apply ac_sysctl32; [nozero|]; intros w];
      (apply ac_sysctl32; [nozero|]; intros; exact Logic.I).
  - cbn [illumos_aarch64 all_calls]. split; [split; [cbn; lia | exact Logic.I] | intros; exact Logic.I].
  - unfold fuchsia_aarch64. cbn [all_calls]. split; [split; [cbn [buffer_of]; rewrite enc_len; lia | exact Logic.I] | intros; exact Logic.I].
  - cbn; repeat (intros || split); exact Logic.I.
  - cbn; repeat (intros || split); exact Logic.I.
  - unfold riscv_linux, riscv_syscall5. destruct asm; cbn [all_calls].
    + split; [split; [cbn [buffer_of]; unfold hwprobe_pair; rewrite !app_length, !enc_len; cbn; lia | reflexivity]|].
      intros a. destruct (_ && _); exact Logic.I.
    + split; [split; [cbn [buffer_of]; unfold hwprobe_pair; rewrite !app_length, !enc_len; cbn; lia | exact Logic.I]|].
      intros a. destruct (_ && _); exact Logic.I.
  - unfold x86_64. destruct (__cpuid cpuid 1 r) as [[[[? ?] ecx] ?] ?].
    destruct sse, (cpu_test ecx 26), (cpu_test ecx 27); cbn [all_calls]; repeat split; exact Logic.I.
Qed.

(** ** The auxiliary vector *)
Lemma linux_getauxval_run : forall debug w linked a32 t k tr r,
  lw_rtld_default w = rtld_default_linux a32 ->
  runs debug (linux_doc w) (linux_getauxval linked a32 t k) tr r ->
  exists tr', runs debug (linux_doc w) (k (linux_aux w linked t)) tr' r.
Proof.
  intros debug w linked a32 t k tr r D H. unfold linux_getauxval in H. unfold linux_aux. destruct linked; cbn [orb].
  - apply runs_call in H. destruct H as (a & tr' & [_ A] & -> & H). cbn in A. rewrite <- A by auto. eauto.
  - apply runs_call in H. destruct H as (a & tr' & [_ A] & -> & H). cbn iota beta in A.
    rewrite A in H by (symmetry; exact D). change (c "getauxval") with (c_string "getauxval") in H.
    destruct (lw_symbol w (c_string "getauxval") =? 0); cbn [negb]; [eauto|].
    apply runs_call in H. destruct H as (a' & tr'' & [_ A'] & -> & H). cbn iota beta in A'. rewrite <- A' by auto. eauto.
Qed.
Lemma bsd_getauxval_run : forall debug big w linked t k tr r,
  bw_rtld_default w = rtld_default_bsd 64 -> bsd_ok 8 w ->
  runs debug (bsd_doc big 8 w) (bsd_getauxval big linked 8 t k) tr r ->
  exists tr', runs debug (bsd_doc big 8 w) (k (bsd_aux w linked t)) tr' r.
Proof.
  intros debug big w linked t k tr r D OKW H. unfold bsd_getauxval in H. unfold bsd_aux.
  assert (CALL : forall f tr0, (f = Linked \/ f = Ptr (bw_symbol w (c_string "elf_aux_info"))) ->
    runs debug (bsd_doc big 8 w) (Call (Elf_aux_info f t (enc big 8 0) (Z.of_nat 8)) (fun a =>
      DebugAssert ((a_ret a =? 0) || (num big (a_buf a) =? 0)) (k (num big (a_buf a))))) tr0 r ->
    exists tr', runs debug (bsd_doc big 8 w) (k (match bw_auxv w t with Some v => v | None => 0 end)) tr' r).
  { intros f tr0 F R. apply runs_call in R. destruct R as (a & tr' & [M A] & -> & R). cbn iota beta in A. specialize (A F).
    unfold memory_safe in M. cbn [buffer_of] in M. destruct M as (L & _). rewrite enc_len in L.
    assert (V : num big (a_buf a) = match bw_auxv w t with Some v => v | None => 0 end /\
                (a_ret a = 0 \/ num big (a_buf a) = 0)).
    { destruct (bw_auxv w t) as [v|] eqn:E.
      - rewrite Z.eqb_refl in A. destruct A as [A1 A2]. apply (firstn_all_eq _ _ 8) in A2; [|exact L].
        rewrite A2, num_enc_small; [auto|]. specialize (OKW t v E). revert OKW.
        change (2 ^ (8 * Z.of_nat 8)) with (256 ^ Z.of_nat 8). auto.
      - destruct A as [_ A]. rewrite A, enc_zero, num_zero. auto. }
    destruct V as [V W]. rewrite V in R, W. apply runs_assert_true in R; [eauto|].
    apply orb_true_iff. rewrite !Z.eqb_eq. exact W. }
  destruct linked; cbn [orb].
  - apply (CALL Linked tr); auto.
  - apply runs_call in H. destruct H as (a & tr' & [_ A] & -> & H). cbn iota beta in A.
    rewrite A in H by (symmetry; exact D). change (c "elf_aux_info") with (c_string "elf_aux_info") in H.
    destruct (bw_symbol w (c_string "elf_aux_info") =? 0); cbn [negb]; [eauto|].
    apply (CALL (Ptr (bw_symbol w (c_string "elf_aux_info"))) tr'); auto.
Qed.

(** [_detect] over any [getauxval] that yields [aux]. *)
Definition yields debug os (g : Z -> (Z -> prog) -> prog) (aux : Z -> Z) : Prop :=
  forall t k tr r, runs debug os (g t k) tr r -> exists tr', runs debug os (k (aux t)) tr' r.
Lemma power_run : forall debug os g aux h1 h2 i tr r, yields debug os g aux ->
  runs debug os (auxv_power g h1 h2 i) tr r -> r = Returned (auxv_power_detect (aux h1) (aux h2) i).
Proof.
  intros debug os g aux h1 h2 i tr r Y H. apply Y in H. destruct H as (tr1 & H). unfold auxv_power_detect.
  unfold has at 1 in H. destruct (negb (Z.land (aux h1) 32768 =? 0)).
  - now apply runs_done in H.
  - apply Y in H. destruct H as (tr2 & H). now apply runs_done in H.
Qed.
(** [ex]: what [exynos_check] says. *)
Lemma aarch64_run : forall debug os g aux h1 h2 android ex u i tr r, yields debug os g aux ->
  (android = true -> forall k tr r, runs debug os (exynos_check k) tr r -> exists tr', runs debug os (k ex) tr' r) ->
  runs debug os (auxv_aarch64 g h1 h2 android u i) tr r ->
  r = Returned (auxv_aarch64_detect (android && ex) (aux h1) (if u then Some (aux h2) else None) i).
Proof.
  intros debug os g aux h1 h2 android ex u i tr r Y X H. apply Y in H. destruct H as (tr1 & H). cbv zeta in H.
  unfold auxv_aarch64_detect.
  assert (REST : forall j tr0, runs debug os (let info := set_if (has (aux h1) (Z.shiftl 1 25)) F_lse2 j in
      if u then g h2 (fun hwcap2 => Done (set_if (has hwcap2 (Z.shiftl 1 47)) F_lse128 (set_if (has hwcap2 (Z.shiftl 1 46)) F_rcpc3 info)))
      else Done info) tr0 r ->
    r = Returned (let info := set_if (has (aux h1) (Z.shiftl 1 25)) F_lse2 j in
      match (if u then Some (aux h2) else None) with
      | Some h => set_if (has h (Z.shiftl 1 47)) F_lse128 (set_if (has h (Z.shiftl 1 46)) F_rcpc3 info)
      | None => info end)).
  { intros j tr0 R. cbv zeta in *. destruct u.
    - apply Y in R. destruct R as (tr2 & R). now apply runs_done in R.
    - now apply runs_done in R. }
  fold (has (aux h1) (Z.shiftl 1 8)). destruct (has (aux h1) (Z.shiftl 1 8)).
  - destruct android; cbn [andb].
    + apply X in H; [|reflexivity]. destruct H as (tr2 & H). destruct ex; [now apply runs_done in H|].
      apply REST in H. rewrite H. destruct u; reflexivity.
    + apply REST in H. rewrite H. destruct u; reflexivity.
  - apply REST in H. rewrite H. destruct u; reflexivity.
Qed.
Definition is_exynos (w : linux_world) : bool :=
  match lw_ro_arch w with Some s => slice_starts_with (chars "exynos9810") (s ++ [0]) | None => false end.
Lemma slice_firstn : forall p b n, slice_starts_with p (firstn n b) = true -> slice_starts_with p b = true.
Proof.
  induction p as [|x p IH]; intros b n H; [reflexivity|]. destruct n; [destruct b; discriminate H|].
  destruct b as [|y b]; [discriminate H|]. cbn in *. apply andb_prop in H. destruct H as [-> H]. cbn. eauto.
Qed.
Lemma exynos_run : forall debug w k tr r, linux_ok w ->
  runs debug (linux_doc w) (exynos_check k) tr r -> exists tr', runs debug (linux_doc w) (k (is_exynos w)) tr' r.
Proof.
  intros debug w k tr r OKW H. apply runs_call in H. destruct H as (a & tr' & [_ A] & -> & H).
  cbn iota beta in A. specialize (A eq_refl). unfold is_exynos, linux_ok in *.
  assert (NZ : ~ In 0 (chars "exynos9810")) by nozero.
  destruct (lw_ro_arch w) as [s|]; [destruct A as [A B]|]; rewrite A in H.
  - destruct s as [|x s]; [cbn in H |- *; eauto|].
    replace (0 <? Z.of_nat (length (x :: s))) with true in H by (symmetry; apply Z.ltb_lt; cbn [length]; lia). cbn [andb] in H.
    replace (slice_starts_with (chars "exynos9810") ((x :: s) ++ [0])) with (slice_starts_with (chars "exynos9810") (a_buf a)); [eauto|].
    apply eq_true_iff_eq. rewrite (starts_with_iff _ (x :: s) _ NZ B).
    rewrite (starts_with_iff _ (x :: s) ((x :: s) ++ [0]) NZ); [reflexivity|].
    apply firstn_all2. rewrite app_length. cbn [length]. lia.
  - cbn in H. eauto.
Qed.
Lemma is_exynos_iff : forall w, is_exynos w = true <-> exists s, lw_ro_arch w = Some s /\ starts_with (chars "exynos9810") s.
Proof.
  intros w. unfold is_exynos. assert (NZ : ~ In 0 (chars "exynos9810")) by nozero.
  destruct (lw_ro_arch w) as [s|]; [|split; [discriminate | intros (s & Q & _); discriminate]].
  rewrite (starts_with_iff _ s (s ++ [0]) NZ) by (apply firstn_all2; rewrite app_length; cbn [length]; lia).
  split; [eauto | intros (s' & Q & W); now injection Q as ->].
Qed.

(** ** The sysctls *)
Lemma netbsd_run : forall debug big v i tr r,
  runs debug (sysctlbyname_doc v) (netbsd_aarch64 big i) tr r ->
  match v (c_string "machdep.cpu0.cpu_id") with
  | Some img => Z.of_nat (length img) <= 136 -> (80 <= length img)%nat ->
      r = Returned (aa64reg_detect (num big (sub 40 8 img)) (num big (sub 48 8 img)) (num big (sub 72 8 img)) i)
  | None => r = Returned (aa64reg_detect 0 0 0 i)
  end /\
  (forall img, v (c_string "machdep.cpu0.cpu_id") = Some img -> 136 < Z.of_nat (length img) -> r = Returned (aa64reg_detect 0 0 0 i)).
Proof.
  intros debug big v i tr r H. unfold netbsd_aarch64, netbsd_sysctl_cpu_id in H.
  change (c "machdep.cpu0.cpu_id") with (c_string "machdep.cpu0.cpu_id") in H.
  change (size_of cpu_id_fields) with 136%nat in H.
  apply runs_call in H. destruct H as (a & tr' & [M A] & -> & H). cbn iota beta in A.
  unfold sysctl_read in A. change (Z.of_nat 136) with 136 in *.
  destruct (v (c_string "machdep.cpu0.cpu_id")) as [img|].
  - split.
    + intros L1 L2. replace (Z.of_nat (length img) <=? 136) with true in A by (symmetry; apply Z.leb_le; lia).
      destruct A as (A & B & _). rewrite A in H. cbn [Z.eqb negb] in H. apply runs_done in H. destruct H as [_ ->].
      unfold field64. change (offset_of cpu_id_fields 0 "ac_aa64isar0") with 40%nat.
      change (offset_of cpu_id_fields 0 "ac_aa64isar1") with 48%nat. change (offset_of cpu_id_fields 0 "ac_aa64mmfr2") with 72%nat.
      rewrite (sub_firstn 40 8 (length img)), (sub_firstn 48 8 (length img)), (sub_firstn 72 8 (length img)) by lia.
      now rewrite B.
    + intros img' Q L. injection Q as <-. replace (Z.of_nat (length img) <=? 136) with false in A by (symmetry; apply Z.leb_gt; lia).
      rewrite A in H. cbn [Z.eqb negb] in H. now apply runs_done in H.
  - split; [|intros img Q; discriminate]. rewrite A in H. cbn [Z.eqb negb] in H. now apply runs_done in H.
Qed.
(** The registers in the structure. *)
Lemma netbsd_regs : forall big n10 x, (forall f, In f [nb_isar0 x; nb_isar1 x; nb_mmfr2 x] -> 0 <= f < 2 ^ 64) ->
  let img := netbsd_struct big n10 x in
  length img = (if n10 then 136 else 120)%nat /\
  num big (sub 40 8 img) = nb_isar0 x /\ num big (sub 48 8 img) = nb_isar1 x /\ num big (sub 72 8 img) = nb_mmfr2 x.
Proof.
  intros big n10 x R img. unfold img, netbsd_struct. cbn [map concat].
  assert (P : forall v, In v [nb_isar0 x; nb_isar1 x; nb_mmfr2 x] -> num big (enc big 8 v) = v).
  { intros v V. apply num_enc_small. change (256 ^ Z.of_nat 8) with (2 ^ 64). auto. }
  split; [rewrite !app_length, ?enc_len; destruct n10; cbn [length]; rewrite ?app_length, ?enc_len; reflexivity|].
  rewrite <- !app_assoc.
  refine (conj _ (conj _ _)).
  all: repeat (rewrite sub_app2 by (rewrite enc_len; lia); rewrite enc_len; cbn [Nat.sub]).
  all: rewrite sub_app1 by (rewrite enc_len; lia); rewrite sub_all by apply enc_len; apply P; cbn [In]; auto.
Qed.

Lemma sysctl64_run : forall debug big v mib k tr r,
  (forall img, v mib = Some img -> length img = 8%nat) ->
  runs debug (sysctl_doc v) (openbsd_sysctl64 big mib k) tr r ->
  exists tr', runs debug (sysctl_doc v) (k (option_map (num big) (v mib))) tr' r.
Proof.
  intros debug big v mib k tr r W H. apply runs_call in H. destruct H as (a & tr' & [M A] & -> & H).
  cbn iota beta in A. specialize (A eq_refl). unfold memory_safe in M. cbn [buffer_of] in M. destruct M as (L & _). rewrite enc_len in L.
  unfold sysctl_read in A. destruct (v mib) as [img|]; cbn [option_map].
  - specialize (W img eq_refl). rewrite W in A. cbn [Z.of_nat Z.leb] in A.
    change (Z.of_nat 8 <=? 8) with true in A. destruct A as (A & B & C). rewrite A in H. cbn [Z.eqb] in H.
    apply runs_assert_true in H; [|now rewrite C]. apply (firstn_all_eq _ _ 8 L) in B. rewrite B in H. eauto.
  - rewrite A in H. cbn in H. eauto.
Qed.
Lemma sysctl32_run : forall debug v name k tr r,
  (forall img, v name = Some img -> length img = 4%nat) ->
  runs debug (sysctlbyname_doc v) (apple_sysctlbyname32 name k) tr r ->
  exists tr', runs debug (sysctlbyname_doc v) (k (option_map (num false) (v name))) tr' r.
Proof.
  intros debug v name k tr r W H. apply runs_call in H. destruct H as (a & tr' & [M A] & -> & H).
  cbn iota beta in A. unfold memory_safe in M. cbn [buffer_of] in M. destruct M as (L & _). rewrite enc_len in L.
  unfold sysctl_read in A. destruct (v name) as [img|]; cbn [option_map].
  - specialize (W img eq_refl). rewrite W in A. change (Z.of_nat 4 <=? 4) with true in A. destruct A as (A & B & C).
    rewrite A in H. cbn [Z.eqb negb] in H. apply runs_assert_true in H; [|now rewrite C].
    apply (firstn_all_eq _ _ 4 L) in B. rewrite B in H. eauto.
  - rewrite A in H. cbn in H. eauto.
Qed.

(** ** The others *)
Lemma illumos_run : forall debug big words i tr r, Forall (fun v => 0 <= v < 2 ^ 32) words ->
  runs debug (illumos_doc big words) (illumos_aarch64 big i) tr r ->
  r = Returned (illumos_detect (nth 0 words 0) (nth 1 words 0) i).
Proof.
  intros debug big words i tr r W H. apply runs_call in H. destruct H as (a & tr' & [_ A] & -> & H).
  cbn iota beta in A. destruct A as [_ A]. cbv zeta in A. apply runs_done in H. destruct H as [_ ->].
  assert (P : forall v, 0 <= v < 2 ^ 32 -> num big (enc big 4 v) = v).
  { intros v V. apply num_enc_small. exact V. }
  assert (E : num big (sub 0 4 (a_buf a)) = nth 0 words 0 /\ num big (sub 4 4 (a_buf a)) = nth 1 words 0).
  { rewrite A. clear A. change (Z.to_nat 2) with 2%nat.
    destruct words as [|v1 [|v2 rest]]; cbn [firstn map concat length nth app Nat.mul Nat.add].
    - exact (conj (num_zero big 4) (num_zero big 4)).
    - inversion W; subst. rewrite app_nil_r. split.
      + rewrite sub_app1, sub_all by (rewrite ?enc_len; lia || reflexivity). auto.
      + rewrite sub_app2 by (rewrite enc_len; lia). rewrite enc_len. exact (num_zero big 4).
    - inversion W; subst. inversion H2; subst. rewrite !app_nil_r, <- ?app_assoc. split.
      + rewrite sub_app1, sub_all by (rewrite ?enc_len; lia || reflexivity). auto.
      + rewrite sub_app2 by (rewrite enc_len; lia). rewrite enc_len. change (4 - 4)%nat with 0%nat.
        rewrite sub_all by (rewrite ?enc_len; lia || reflexivity). auto. }
  destruct E as [-> ->]. reflexivity.
Qed.
Lemma fuchsia_run : forall debug big f i tr r, (forall v, f = Some v -> 0 <= v < 2 ^ 32) ->
  runs debug (fuchsia_doc big f) (fuchsia_aarch64 big i) tr r ->
  r = Returned (match f with Some v => fuchsia_detect 0 v i | None => fuchsia_detect 1 0 i end).
Proof.
  intros debug big f i tr r W H. apply runs_call in H. destruct H as (a & tr' & [M A] & -> & H).
  cbn iota beta in A. unfold memory_safe in M. cbn [buffer_of] in M. destruct M as (L & _). rewrite enc_len in L.
  apply runs_done in H. destruct H as [_ ->]. destruct f as [v|].
  - destruct A as [A B]. rewrite A. cbn [Z.eqb negb]. apply (firstn_all_eq _ _ 4 L) in B.
    rewrite B, num_enc_small; [reflexivity | exact (W v eq_refl)].
  - apply Z.eqb_neq in A. rewrite A. reflexivity.
Qed.
Lemma windows_run : forall debug present i tr r,
  runs debug (windows_doc present) (windows_aarch64 i) tr r ->
  r = Returned (windows_detect (fun f => if present f then 1 else 0) i).
Proof.
  intros debug present i tr r H. apply runs_call in H. destruct H as (a & tr' & A & -> & H).
  apply runs_call in H. destruct H as (b & tr'' & B & -> & H). apply runs_done in H. destruct H as [_ ->]. cbn in A, B.
  unfold windows_detect.
  assert (P : forall x, (a_ret x <> 0 <-> present 34 = true) -> negb (a_ret x =? 0) = negb ((if present 34 then 1 else 0) =? 0)).
  { intros x X. destruct (Z.eqb_spec (a_ret x) 0), (present 34); cbn; intuition congruence. }
  assert (Q : forall x, (a_ret x <> 0 <-> present 62 = true) -> negb (a_ret x =? 0) = negb ((if present 62 then 1 else 0) =? 0)).
  { intros x X. destruct (Z.eqb_spec (a_ret x) 0), (present 62); cbn; intuition congruence. }
  now rewrite (P a A), (Q b B).
Qed.
Lemma aix_run : forall debug impl i tr r, runs debug (aix_doc impl) (aix_power i) tr r -> r = Returned (aix_detect impl i).
Proof.
  intros debug impl i tr r H. apply runs_call in H. destruct H as (a & tr' & A & -> & H). cbn in A. rewrite A in H. now apply runs_done in H.
Qed.
Lemma signed_enc : forall big v, - 2 ^ 63 <= v < 2 ^ 63 -> signed 8 (num big (enc big 8 v)) = v.
Proof.
  intros big v H. rewrite num_enc. change (256 ^ Z.of_nat 8) with (2 ^ 64). unfold signed.
  change (8 * 8 - 1) with 63. change (8 * 8) with 64. change (2 ^ 64) with (2 * 2 ^ 63) in *.
  assert (T : 0 < 2 ^ 63) by reflexivity. set (q := 2 ^ 63) in *. clearbody q.
  destruct (Z.lt_ge_cases v 0) as [N|N].
  - rewrite <- (Z.mod_unique v (2 * q) (-1) (v + 2 * q)) by lia. destruct (Z.ltb_spec (v + 2 * q) q); lia.
  - rewrite Z.mod_small by lia. destruct (Z.ltb_spec v q); lia.
Qed.
Lemma riscv_run : forall debug big kernel asm p i tr r,
  (forall known k v, kernel = Some known -> known k = Some v -> 0 <= v < 2 ^ 64) ->
  runs debug (riscv_doc big kernel) (riscv_linux big asm p i) tr r ->
  r = Returned (match kernel with
    | Some known => riscv_detect true (if known 3 then 3 else -1) (match known 3 with Some v => v | None => 0 end)
                                      (if known 4 then 4 else -1) (match known 4 with Some v => v | None => 0 end) i
    | None => riscv_detect false 0 0 0 0 i
    end).
Proof.
  intros debug big kernel asm p i tr r W H. unfold riscv_linux in H. cbv zeta in H.
  set (out := hwprobe_pair big 3 0 ++ hwprobe_pair big 4 0) in *.
  assert (L : length out = 32%nat) by (unfold out, hwprobe_pair; rewrite !app_length, !enc_len; reflexivity).
  set (K := fun a => if (a_ret a =? 0) && negb (pair_key big (a_buf a) 0 =? -1) && has (pair_value big (a_buf a) 0) (Z.shiftl 1 0) && negb (pair_key big (a_buf a) 1 =? -1)
       then Done (set_if (has (pair_value big (a_buf a) 1) (Z.shiftl 1 34)) F_zacas i) else Done i) in H.
  assert (A : exists a tr', length (a_buf a) = 32%nat /\ hwprobe_done big kernel 2 out a /\ runs debug (riscv_doc big kernel) (K a) tr' r).
  { unfold riscv_syscall5 in H. destruct asm; apply runs_call in H; destruct H as (a & tr' & [M A] & -> & H); exists a, tr';
      unfold memory_safe in M; cbn [buffer_of] in M; destruct M as (M & _); rewrite M.
    - split; [exact L|]. split; [apply (A 2); reflexivity | exact H].
    - split; [exact L|]. split; [exact A | exact H]. }
  clear H. destruct A as (a & tr' & LA & A & H). unfold K in H. clear K. unfold hwprobe_done in A. destruct kernel as [known|].
  - destruct A as [A B]. change (Z.to_nat 2) with 2%nat in B. apply (firstn_all_eq _ _ 32 LA) in B.
    unfold hwprobe_pairs in B. cbn [seq map concat Nat.mul] in B. rewrite app_nil_r in B.
    assert (K0 : signed 8 (num big (sub 0 8 out)) = 3).
    { unfold out, hwprobe_pair. rewrite <- !app_assoc. rewrite sub_app1, sub_all by (rewrite ?enc_len; lia || reflexivity). apply signed_enc. lia. }
    assert (K1 : signed 8 (num big (sub 16 8 out)) = 4).
    { unfold out, hwprobe_pair. rewrite <- !app_assoc. do 2 (rewrite sub_app2, enc_len by (rewrite enc_len; lia)). cbn [Nat.sub].
      rewrite sub_app1, sub_all by (rewrite ?enc_len; lia || reflexivity). apply signed_enc. lia. }
    change (8 + (8 + 0))%nat with 16%nat in B. change (16 * 1)%nat with 16%nat in B. change (16 * 0)%nat with 0%nat in B.
    cbv zeta in B. cbn [Nat.add] in B. rewrite K0, K1 in B.
    assert (E : exists k0 v0 k1 v1, a_buf a = enc big 8 k0 ++ enc big 8 v0 ++ enc big 8 k1 ++ enc big 8 v1 /\
       k0 = (if known 3 then 3 else -1) /\ v0 = match known 3 with Some v => v | None => 0 end /\
       k1 = (if known 4 then 4 else -1) /\ v1 = match known 4 with Some v => v | None => 0 end).
    { rewrite B. destruct (known 3), (known 4); rewrite <- !app_assoc; repeat eexists. }
    destruct E as (k0 & v0 & k1 & v1 & E & E1 & E2 & E3 & E4). rewrite <- E1, <- E2, <- E3, <- E4.
    assert (R0 : 0 <= v0 < 2 ^ 64) by (subst v0; destruct (known 3) eqn:Q; [exact (W known 3 _ eq_refl Q) | lia]).
    assert (R1 : 0 <= v1 < 2 ^ 64) by (subst v1; destruct (known 4) eqn:Q; [exact (W known 4 _ eq_refl Q) | lia]).
    assert (F : pair_key big (a_buf a) 0 = k0 /\ pair_value big (a_buf a) 0 = v0 /\ pair_key big (a_buf a) 1 = k1 /\ pair_value big (a_buf a) 1 = v1).
    { unfold pair_key, pair_value.
      change (size_of hwprobe_fields * 0 + offset_of hwprobe_fields 0 "key")%nat with 0%nat.
      change (size_of hwprobe_fields * 0 + offset_of hwprobe_fields 0 "value")%nat with 8%nat.
      change (size_of hwprobe_fields * 1 + offset_of hwprobe_fields 0 "key")%nat with 16%nat.
      change (size_of hwprobe_fields * 1 + offset_of hwprobe_fields 0 "value")%nat with 24%nat.
      rewrite E. refine (conj _ (conj _ (conj _ _))).
      all: repeat (rewrite sub_app2, enc_len by (rewrite enc_len; lia)); cbn [Nat.sub].
      all: try rewrite sub_app1 by (rewrite enc_len; lia).
      all: rewrite sub_all by apply enc_len.
      - apply signed_enc. subst k0. destruct (known 3); lia.
      - apply num_enc_small. exact R0.
      - apply signed_enc. subst k1. destruct (known 4); lia.
      - apply num_enc_small. exact R1. }
    destruct F as (F1 & F2 & F3 & F4). rewrite A, F1, F2, F3, F4 in H. cbn [Z.eqb andb] in H.
    unfold riscv_detect. fold (has v0 (Z.shiftl 1 0)). fold (has v1 (Z.shiftl 1 34)). cbn [andb].
    destruct (negb (k0 =? -1) && has v0 (Z.shiftl 1 0) && negb (k1 =? -1)); now apply runs_done in H.
  - replace (a_ret a =? 0) with false in H by (symmetry; apply Z.eqb_neq; lia). cbn [andb] in H. now apply runs_done in H.
Qed.

(** ** cpuid *)
Lemma cpuid_spec : forall cpuid leaf r, 0 <= leaf < 2 ^ 32 ->
  (forall l s, let '(a, b, c, d) := cpuid l s in 0 <= a < 2 ^ 32 /\ 0 <= b < 2 ^ 32 /\ 0 <= c < 2 ^ 32 /\ 0 <= d < 2 ^ 32) ->
  fst (__cpuid cpuid leaf r) = cpuid leaf 0 /\
  (forall x, x <> RAX -> x <> R8 -> x <> RCX -> x <> RDX -> snd (__cpuid cpuid leaf r) x = r x).
Proof.
  intros cpuid leaf r L W. unfold __cpuid, cpuid_block, cpuid_instr, cpuid_entry, upd. cbn [reg_eqb fst snd].
  rewrite (Z.mod_small leaf) by assumption. change (0 mod 2 ^ 32) with 0.
  specialize (W leaf 0). destruct (cpuid leaf 0) as [[[a b] c] d]. destruct W as (Wa & Wb & Wc & Wd).
  cbn [reg_eqb]. rewrite !Z.mod_small by assumption. split; [reflexivity|].
  intros x A B C D. destruct x; cbn [reg_eqb]; congruence.
Qed.
Lemma x86_run : forall debug sse cpuid r0 xcr0 i tr r,
  (forall l s, let '(a, b, c, d) := cpuid l s in 0 <= a < 2 ^ 32 /\ 0 <= b < 2 ^ 32 /\ 0 <= c < 2 ^ 32 /\ 0 <= d < 2 ^ 32) ->
  runs debug (x86_doc xcr0) (x86_64 sse cpuid r0 i) tr r ->
  let ecx := snd (fst (cpuid 1 0)) in
  r = Returned (x86_detect sse ecx xcr0 i) /\
  (tr <> [] -> Z.testbit ecx 26 = true /\ Z.testbit ecx 27 = true).
Proof.
  intros debug sse cpuid r0 xcr0 i tr r W H ecx. unfold x86_64 in H.
  destruct (cpuid_spec cpuid 1 r0) as [E _]; [lia | exact W|].
  destruct (__cpuid cpuid 1 r0) as [q r1]. cbn [fst] in E. subst q. unfold ecx in *. clear ecx.
  destruct (cpuid 1 0) as [[[a b] e] d]. cbn [fst snd]. unfold x86_detect.
  destruct sse; [|apply runs_done in H; destruct H as [-> ->]; split; [reflexivity | congruence]].
  destruct (cpu_test e 26) eqn:T1; [|apply runs_done in H; destruct H as [-> ->]; split; [reflexivity | congruence]].
  destruct (cpu_test e 27) eqn:T2; [|apply runs_done in H; destruct H as [-> ->]; split; [reflexivity | congruence]].
  rewrite cpu_test_spec in T1, T2 by lia.
  apply runs_call in H. destruct H as (x & tr' & A & -> & H). cbn in A. rewrite A in H. apply runs_done in H. destruct H as [_ ->].
  split; [reflexivity | auto].
Qed.

(** ** Nothing known *)
Definition silent (os : os_call -> answer -> Prop) : Prop := forall c a, os c a -> memory_safe c a /\ failed c a.
Lemma fail_linux : forall debug os l a t k tr r, silent os ->
  runs debug os (linux_getauxval l a t k) tr r -> exists tr', runs debug os (k 0) tr' r.
Proof.
  intros debug os l a t k tr r S H. unfold linux_getauxval in H. destruct l; apply runs_call in H; destruct H as (x & tr' & A & -> & H);
    destruct (S _ _ A) as [_ F]; cbn in F; rewrite F in H; eauto.
Qed.
Lemma fail_bsd : forall debug os big l n t k tr r, silent os ->
  runs debug os (bsd_getauxval big l n t k) tr r -> exists tr', runs debug os (k 0) tr' r.
Proof.
  intros debug os big l n t k tr r S H. unfold bsd_getauxval in H. destruct l; apply runs_call in H; destruct H as (x & tr' & A & -> & H);
    destruct (S _ _ A) as [_ F]; cbn in F.
  - destruct F as [_ F]. rewrite F, enc_zero, num_zero in H. apply runs_assert_true in H; [eauto | apply orb_true_r].
  - rewrite F in H. cbn in H. eauto.
Qed.
Lemma fail_sysctl64 : forall debug os big m k tr r, silent os ->
  runs debug os (openbsd_sysctl64 big m k) tr r -> exists tr', runs debug os (k None) tr' r.
Proof.
  intros debug os big m k tr r S H. apply runs_call in H. destruct H as (x & tr' & A & -> & H).
  destruct (S _ _ A) as [_ F]. cbn in F. rewrite F in H. cbn in H. eauto.
Qed.
Lemma fail_sysctl32 : forall debug os m k tr r, silent os ->
  runs debug os (apple_sysctlbyname32 m k) tr r -> exists tr', runs debug os (k None) tr' r.
Proof.
  intros debug os m k tr r S H. apply runs_call in H. destruct H as (x & tr' & A & -> & H).
  destruct (S _ _ A) as [_ F]. cbn in F. apply Z.eqb_neq in F. rewrite F in H. cbn in H. eauto.
Qed.
Lemma program_silent : forall p debug os tr r, silent os -> (forall s f g, p <> X86_64 s f g) ->
  runs debug os (program p) tr r -> r = Returned 1.
Proof.
  intros p debug os tr r S NX H. destruct p; unfold program in H; cbv zeta in H; change (cpu_set 0 Init) with 1 in H.
  - apply (aarch64_run debug os _ (fun _ => 0) 16 26 android false) in H; [rewrite H; now destruct android, lp64 | |].
    + intros t k tr0 r0 R. eapply fail_linux; eauto.
    + intros _ k tr0 r0 R. apply runs_call in R. destruct R as (x & tr' & A & -> & R). destruct (S _ _ A) as [_ F]. cbn in F. rewrite F in R. eauto.
  - apply (aarch64_run debug os _ (fun _ => 0) 25 26 false false) in H; [rewrite H; now destruct openbsd | |].
    + intros t k tr0 r0 R. eapply fail_bsd; eauto.
    + discriminate.
  - apply (power_run debug os _ (fun _ => 0)) in H; [rewrite H; reflexivity|]. intros t k tr0 r0 R. eapply fail_linux; eauto.
  - apply (power_run debug os _ (fun _ => 0)) in H; [rewrite H; reflexivity|]. intros t k tr0 r0 R. eapply fail_bsd; eauto.
  - apply runs_call in H. destruct H as (x & tr' & A & -> & H). destruct (S _ _ A) as [_ F]. cbn in F. apply Z.eqb_neq in F. rewrite F in H.
    cbn [negb] in H. apply runs_done in H. destruct H as [_ ->]. reflexivity.
  - unfold openbsd_aarch64 in H. do 3 (apply fail_sysctl64 in H; [|exact S]; destruct H as (? & H)).
    apply runs_done in H. destruct H as [_ ->]. reflexivity.
  - unfold apple_aarch64 in H. cbv zeta in H. apply fail_sysctl32 in H; [|exact S]. destruct H as (? & H). cbn [unwrap_or Z.eqb negb] in H.
    apply fail_sysctl32 in H; [|exact S]. destruct H as (? & H). cbn [unwrap_or Z.eqb negb set_if] in H.
    apply fail_sysctl32 in H; [|exact S]. destruct H as (? & H). apply runs_done in H. destruct H as [_ ->]. reflexivity.
  - apply runs_call in H. destruct H as (x & tr' & A & -> & H). destruct (S _ _ A) as [_ F]. cbn iota beta delta [failed] in F. rewrite F in H.
    apply runs_done in H. destruct H as [_ ->]. destruct big; reflexivity.
  - apply runs_call in H. destruct H as (x & tr' & A & -> & H). destruct (S _ _ A) as [_ F]. cbn in F. apply Z.eqb_neq in F. rewrite F in H.
    apply runs_done in H. destruct H as [_ ->]. reflexivity.
  - apply runs_call in H. destruct H as (x & tr' & A & -> & H). destruct (S _ _ A) as [_ F]. cbn in F. rewrite F in H.
    apply runs_call in H. destruct H as (y & tr'' & B & -> & H). destruct (S _ _ B) as [_ G]. cbn in G. rewrite G in H.
    apply runs_done in H. destruct H as [_ ->]. reflexivity.
  - apply runs_call in H. destruct H as (x & tr' & A & -> & H). destruct (S _ _ A) as [_ F]. cbn iota beta delta [failed] in F. rewrite F in H.
    apply runs_done in H. destruct H as [_ ->]. reflexivity.
  - unfold riscv_linux, riscv_syscall5 in H. cbv zeta in H. destruct asm; apply runs_call in H; destruct H as (x & tr' & A & -> & H);
      destruct (S _ _ A) as [_ F]; cbn iota beta delta [failed] in F; apply Z.eqb_neq in F; rewrite F in H; cbn [andb] in H;
      apply runs_done in H; destruct H as [_ ->]; reflexivity.
  - elim (NX sse cpuid r0 eq_refl).
Qed.
