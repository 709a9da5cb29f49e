(** * Property C27 (and the run-time half of C28): feature detection and [ifunc!] dispatch *)
From Coq Require Import ZArith List Bool Lia.
From Verif Require Import Spec OrderingModel DispatchModel DetectModel DetectProofs.
Import ListNotations.
Open Scope Z_scope.

(** Runs of the dispatch machine: any number of calls, racing, each load returning any value ever written. *)
Definition dispatch_run {site fn env} sel (det : env -> Z -> Z) detect_false use_cas (eqb : site -> site -> bool) ls :=
  drun site fn sel env det detect_false use_cas eqb (dinit site fn env) ls.
(** The detection functions never clear a flag. *)
Definition keeps_init {env} (det : env -> Z -> Z) : Prop := forall e, Z.testbit (det e 1) 0 = true.
(** What one platform answer is worth. *)
Definition answer {env} (det : env -> Z -> Z) (detect_false : bool) (e : env) : Z := if detect_false then 1 else det e 1.

Lemma outcome_answer : forall env (det : env -> Z -> Z) df e, outcome env det df e = answer det df e.
Proof. reflexivity. Qed.
Lemma keeps_nonzero : forall env (det : env -> Z -> Z) df, keeps_init det -> forall e, outcome env det df e <> 0.
Proof.
  intros env det df K e. rewrite outcome_answer. unfold answer. destruct df; [discriminate|].
  intros E. specialize (K e). rewrite E in K. discriminate.
Qed.

(** The answer [e] was given to some [_detect] of this execution. *)
Definition was_given {site env} (e : env) (ls : list (dlabel site env)) : Prop := exists id, In (StepEnv _ _ id e) ls.

(** ** C27, detection affects lock-freeness (compare-exchange): one answer of the platform, the same for ever
    and for everybody, determines every function executed and every result of [detect()]. *)
Theorem C27_one_answer : forall site fn env sel (det : env -> Z -> Z) df (eqb : site -> site -> bool) ls s ev,
  (forall a b, eqb a b = true -> a = b) -> keeps_init det ->
  dispatch_run (fn := fn) sel det df true eqb ls = Some (s, ev) ->
  ev = [] \/ exists e, was_given e ls /\
                       (forall id x f, In (Executed _ _ id x f) ev -> f = sel x (answer det df e)) /\
                       (forall id i, In (Detected _ _ id i) ev -> i = answer det df e /\ cpu_test i Init = true).
Proof.
  intros site fn env sel det df eqb ls s ev HE K H.
  destruct (run_single site fn sel env det df true eqb HE (keeps_nonzero env det df K) ls s ev eq_refl H) as [|(e & S & A & B)]; [auto|].
  right. exists e. split.
  - destruct (samples_labels site fn sel env det df true eqb ls _ s ev e H S) as [[]|G]. exact G.
  - split; [exact A|]. intros id i Hin. rewrite (B id i Hin). split; [reflexivity|].
    rewrite outcome_answer, cpu_test_spec by (unfold Init; lia). unfold answer. destruct df; [reflexivity | apply K].
Qed.
(** ** C27, otherwise (plain store): every function executed is one selected by an actual, complete answer of
    the platform -- never by a partial or uninitialised one. *)
Theorem C27_always_an_answer : forall site fn env sel (det : env -> Z -> Z) df uc (eqb : site -> site -> bool) ls s ev,
  (forall a b, eqb a b = true -> a = b) -> keeps_init det ->
  dispatch_run (fn := fn) sel det df uc eqb ls = Some (s, ev) ->
  (forall id x f, In (Executed _ _ id x f) ev -> exists e, was_given e ls /\ f = sel x (answer det df e)) /\
  (forall id i, In (Detected _ _ id i) ev -> exists e, was_given e ls /\ i = answer det df e /\ cpu_test i Init = true).
Proof.
  intros site fn env sel det df uc eqb ls s ev HE K H.
  destruct (run_sampled site fn sel env det df uc eqb HE (keeps_nonzero env det df K) ls s ev H) as [A B].
  assert (W : forall e, In e (d_samples _ _ _ s) -> was_given e ls).
  { intros e S. destruct (samples_labels site fn sel env det df uc eqb ls _ s ev e H S) as [[]|G]. exact G. }
  split.
  - intros id x f Hin. destruct (A id x f Hin) as (e & He & ->). exists e. auto.
  - intros id i Hin. destruct (B id i Hin) as (e & He & ->). exists e. split; [auto|]. split; [reflexivity|].
    rewrite outcome_answer, cpu_test_spec by (unfold Init; lia). unfold answer. destruct df; [reflexivity | apply K].
Qed.
(** On a machine whose answers do not vary, every call executes the implementation selected for this machine. *)
Theorem C27_constant_platform : forall site fn env sel (det : env -> Z -> Z) df uc (eqb : site -> site -> bool) ls s ev e0,
  (forall a b, eqb a b = true -> a = b) -> keeps_init det ->
  (forall e, was_given e ls -> e = e0) ->
  dispatch_run (fn := fn) sel det df uc eqb ls = Some (s, ev) ->
  (forall id x f, In (Executed _ _ id x f) ev -> f = sel x (answer det df e0)) /\
  (forall id i, In (Detected _ _ id i) ev -> i = answer det df e0).
Proof.
  intros site fn env sel det df uc eqb ls s ev e0 HE K C H.
  destruct (C27_always_an_answer site fn env sel det df uc eqb ls s ev HE K H) as [A B]. split.
  - intros id x f Hin. destruct (A id x f Hin) as (e & We & ->). now rewrite (C e We).
  - intros id i Hin. destruct (B id i Hin) as (e & We & -> & _). now rewrite (C e We).
Qed.
(** Nobody waits: in every reachable state each unfinished call can step, each of its own steps brings it
    closer to its end (at most six), and nobody else's step affects it. *)
Theorem C27_wait_free : forall site fn env sel (det : env -> Z -> Z) df uc (eqb : site -> site -> bool) ls s ev (e : env) id,
  dispatch_run (fn := fn) sel det df uc eqb ls = Some (s, ev) ->
  (todo site fn (d_call _ _ _ s id) <= 6)%nat /\
  ((0 < todo site fn (d_call _ _ _ s id))%nat ->
   exists l s' ev', label_id site env l = id /\ dstep site fn sel env det df uc eqb s l = Some (s', ev')) /\
  (forall l s' ev', dstep site fn sel env det df uc eqb s l = Some (s', ev') ->
    (label_id site env l <> id -> d_call _ _ _ s' id = d_call _ _ _ s id) /\
    (label_id site env l = id -> (exists k, l = Start _ _ id k) \/
       (todo site fn (d_call _ _ _ s' id) < todo site fn (d_call _ _ _ s id))%nat)).
Proof.
  intros site fn env sel det df uc eqb ls s ev e id H. split; [|split].
  - destruct (d_call _ _ _ s id); cbn; lia.
  - intros T. apply (step_enabled site fn sel env det df uc eqb s id e T).
    eapply run_nonempty; [|exact H]. split; [discriminate | intros; discriminate].
  - intros l s' ev' Hs. destruct (step_measure site fn sel env det df uc eqb s l s' ev' Hs) as [A B]. split.
    + intros N. apply A. congruence.
    + intros <-. destruct B as [(i & k & ->)|B]; [left; exists k; reflexivity | auto].
Qed.

(** ** The flags say what the platform answered *)
Lemma bit_1 : forall k, 0 <= k -> Z.testbit 1 k = (k =? 0).
Proof.
  intros k Hk. destruct (Z.eqb_spec k 0) as [->|N]; [reflexivity|]. change 1 with (Z.ones 1). apply Z.ones_spec_high. lia.
Qed.
Ltac unflag := unfold Init, F_lse, F_lse2, F_rcpc3, F_lse128, F_quadword_atomics, F_zacas, F_avx, F_cmpxchg16b in *.
Ltac bits := repeat first [rewrite set_if_spec by lia | rewrite cpu_set_spec by lia]; rewrite ?bit_1 by lia.
Lemma field_spec : forall x hi lo, 0 <= lo <= hi -> extract x hi lo = (x / 2 ^ lo) mod 2 ^ (hi - lo + 1).
Proof.
  intros x hi lo H. unfold extract. rewrite Z.shiftl_1_l, Z.sub_1_r, <- Z.ones_equiv, Z.land_ones, Z.shiftr_div_pow2 by lia. reflexivity.
Qed.
Lemma xcr0_spec : forall x, (Z.land x 6 =? 6) = Z.testbit x 1 && Z.testbit x 2.
Proof.
  intros x. assert (E : Z.land x 6 = Z.land (x mod 8) 6).
  { apply Z.bits_inj'. intros k Hk. rewrite !Z.land_spec. change 8 with (2 ^ 3). destruct (Z.lt_ge_cases k 3).
    - rewrite Z.mod_pow2_bits_low by lia. reflexivity.
    - rewrite Z.mod_pow2_bits_high by lia. change 6 with (Z.ones 2 * 2 ^ 1). rewrite Z.mul_pow2_bits, Z.ones_spec_high by lia.
      now rewrite andb_false_r. }
  rewrite E. assert (H : 0 <= x mod 8 < 8) by (apply Z.mod_pos_bound; lia).
  assert (T1 : Z.testbit x 1 = Z.testbit (x mod 8) 1) by (change 8 with (2 ^ 3); rewrite Z.mod_pow2_bits_low by lia; reflexivity).
  assert (T2 : Z.testbit x 2 = Z.testbit (x mod 8) 2) by (change 8 with (2 ^ 3); rewrite Z.mod_pow2_bits_low by lia; reflexivity).
  rewrite T1, T2. clear E T1 T2.
  assert (Q : x mod 8 = 0 \/ x mod 8 = 1 \/ x mod 8 = 2 \/ x mod 8 = 3 \/ x mod 8 = 4 \/ x mod 8 = 5 \/ x mod 8 = 6 \/ x mod 8 = 7) by lia.
  destruct Q as [->|[->|[->|[->|[->|[->|[->| ->]]]]]]]; reflexivity.
Qed.
(** Every bit of the result, for bits that stand for something and those that do not. *)
Lemma x86_bits : forall sse ecx xcr0 k, 0 <= k ->
  Z.testbit (x86_detect sse ecx xcr0 1) k = (k =? 0) || Z.testbit ecx 13 && (k =? 2) ||
    (sse && Z.testbit ecx 26 && Z.testbit ecx 27 && Z.testbit ecx 28 && Z.testbit xcr0 1 && Z.testbit xcr0 2) && (k =? 1).
Proof.
  intros sse ecx xcr0 k Hk. unfold x86_detect. rewrite xcr0_spec, !cpu_test_spec by lia. unflag.
  destruct sse; [destruct (Z.testbit ecx 26); [destruct (Z.testbit ecx 27)|]|]; bits;
    destruct (Z.testbit ecx 13), (Z.testbit ecx 28), (Z.testbit xcr0 1), (Z.testbit xcr0 2), (k =? 0), (k =? 1), (k =? 2); reflexivity.
Qed.
Theorem C27_x86_flags : forall sse ecx xcr0,
  let info := x86_detect sse ecx xcr0 1 in
  cpu_test info Init = true /\
  cpu_test info F_cmpxchg16b = Z.testbit ecx 13 /\
  cpu_test info F_avx = sse && Z.testbit ecx 26 && Z.testbit ecx 27 && Z.testbit ecx 28 && Z.testbit xcr0 1 && Z.testbit xcr0 2.
Proof.
  intros sse ecx xcr0 info. unfold info. unflag. rewrite !cpu_test_spec, !x86_bits by lia. cbn [Z.eqb Pos.eqb].
  rewrite ?andb_false_r, ?andb_true_r, ?orb_false_r. auto.
Qed.

(** aarch64 id registers (also NetBSD/OpenBSD, where failure yields zeros and hence no feature). *)
Lemma aa64reg_bits : forall isar0 isar1 mmfr2 k, 0 <= k ->
  Z.testbit (aa64reg_detect isar0 isar1 mmfr2 1) k = (k =? 0)
    || (2 <=? (isar0 / 2 ^ 20) mod 16) && (k =? 1) || (3 <=? (isar0 / 2 ^ 20) mod 16) && (k =? 6)
    || (3 <=? (isar1 / 2 ^ 20) mod 16) && (k =? 5) || (1 <=? (mmfr2 / 2 ^ 32) mod 16) && (k =? 3).
Proof.
  intros isar0 isar1 mmfr2 k Hk. unfold aa64reg_detect. rewrite !field_spec by lia.
  change (23 - 20 + 1) with 4. change (35 - 32 + 1) with 4. change (2 ^ 4) with 16.
  set (a := (isar0 / 2 ^ 20) mod 16). set (b := (isar1 / 2 ^ 20) mod 16). set (c := (mmfr2 / 2 ^ 32) mod 16).
  clearbody a b c. unflag.
  destruct (Z.leb_spec 2 a), (Z.leb_spec 3 a); try lia; bits;
    destruct (3 <=? b), (1 <=? c), (k =? 0), (k =? 1), (k =? 6), (k =? 5), (k =? 3); reflexivity.
Qed.
Theorem C27_aa64reg_flags : forall isar0 isar1 mmfr2,
  let info := aa64reg_detect isar0 isar1 mmfr2 1 in
  cpu_test info Init = true /\
  (cpu_test info F_lse = true <-> 2 <= (isar0 / 2 ^ 20) mod 16) /\
  (cpu_test info F_lse128 = true <-> 3 <= (isar0 / 2 ^ 20) mod 16) /\
  (cpu_test info F_rcpc3 = true <-> 3 <= (isar1 / 2 ^ 20) mod 16) /\
  (cpu_test info F_lse2 = true <-> 1 <= (mmfr2 / 2 ^ 32) mod 16).
Proof.
  intros isar0 isar1 mmfr2 info. unfold info. unflag. rewrite !cpu_test_spec, !aa64reg_bits by lia. cbn [Z.eqb Pos.eqb].
  rewrite ?andb_false_r, ?andb_true_r, ?orb_false_r. cbn [orb]. rewrite ?orb_false_l, !Z.leb_le.
  refine (conj eq_refl (conj _ (conj _ (conj _ _)))); reflexivity.
Qed.
(** LSE128 implies LSE: the code never uses swpp without casp. *)
Theorem C27_aa64reg_consistent : forall isar0 isar1 mmfr2,
  cpu_test (aa64reg_detect isar0 isar1 mmfr2 1) F_lse128 = true -> cpu_test (aa64reg_detect isar0 isar1 mmfr2 1) F_lse = true.
Proof. intros isar0 isar1 mmfr2. destruct (C27_aa64reg_flags isar0 isar1 mmfr2) as (_ & A & B & _). rewrite A, B. lia. Qed.

Lemma auxv_bits : forall exynos hwcap hwcap2 k, 0 <= k ->
  let h2 b := match hwcap2 with Some h => Z.testbit h b | None => false end in
  let stop := Z.testbit hwcap 8 && exynos in
  Z.testbit (auxv_aarch64_detect exynos hwcap hwcap2 1) k = (k =? 0)
    || negb stop && (Z.testbit hwcap 8 && (k =? 1) || Z.testbit hwcap 25 && (k =? 3) || h2 46 && (k =? 5) || h2 47 && (k =? 6)).
Proof.
  intros exynos hwcap hwcap2 k Hk. cbv zeta. unfold auxv_aarch64_detect. cbv zeta. rewrite !land_pow2 by lia. unflag.
  destruct (Z.testbit hwcap 8), exynos, hwcap2 as [h|]; cbn [andb negb]; rewrite ?land_pow2 by lia; bits;
    try destruct (Z.testbit h 46), (Z.testbit h 47); destruct (Z.testbit hwcap 25), (k =? 0), (k =? 1), (k =? 3), (k =? 5), (k =? 6); reflexivity.
Qed.
Theorem C27_auxv_aarch64_flags : forall exynos hwcap hwcap2,
  let info := auxv_aarch64_detect exynos hwcap hwcap2 1 in
  let h2 b := match hwcap2 with Some h => Z.testbit h b | None => false end in
  cpu_test info Init = true /\
  (Z.testbit hwcap 8 && exynos = true -> cpu_test info F_lse = false /\ cpu_test info F_lse2 = false /\ cpu_test info F_rcpc3 = false /\ cpu_test info F_lse128 = false) /\
  (Z.testbit hwcap 8 && exynos = false ->
     cpu_test info F_lse = Z.testbit hwcap 8 /\ cpu_test info F_lse2 = Z.testbit hwcap 25 /\
     cpu_test info F_rcpc3 = h2 46 /\ cpu_test info F_lse128 = h2 47).
Proof.
  intros exynos hwcap hwcap2 info h2. unfold info. unflag. rewrite !cpu_test_spec, !auxv_bits by lia. cbn [Z.eqb Pos.eqb].
  fold (h2 46) (h2 47). rewrite ?andb_false_r, ?andb_true_r, ?orb_false_r. cbn [orb].
  split; [reflexivity|]. split; intros ->; cbn [negb andb]; auto.
Qed.
Theorem C27_power_flags : forall hwcap hwcap2 impl,
  cpu_test (auxv_power_detect hwcap hwcap2 1) Init = true /\ cpu_test (aix_detect impl 1) Init = true /\
  (cpu_test (auxv_power_detect hwcap hwcap2 1) F_quadword_atomics = true <->
     Z.testbit hwcap 15 = false /\ (Z.testbit hwcap2 31 = true \/ Z.testbit hwcap2 23 = true \/ Z.testbit hwcap2 18 = true)) /\
  (cpu_test (aix_detect impl 1) F_quadword_atomics = true <->
     impl <> 2 ^ 64 - 1 /\ (Z.testbit impl 16 = true \/ Z.testbit impl 17 = true \/ Z.testbit impl 18 = true)).
Proof.
  intros hwcap hwcap2 impl. unflag. rewrite !cpu_test_spec by lia.
  assert (M : forall x a b c, 0 <= a -> 0 <= b -> 0 <= c ->
    negb (Z.land x (Z.lor (Z.lor (2 ^ a) (2 ^ b)) (2 ^ c)) =? 0) = Z.testbit x a || Z.testbit x b || Z.testbit x c).
  { intros x a b c Ha Hb Hc. rewrite <- !Z.shiftl_1_l, !Z.land_lor_distr_r.
    rewrite <- (land_pow2 x a Ha), <- (land_pow2 x b Hb), <- (land_pow2 x c Hc).
    destruct (Z.eqb_spec (Z.land x (Z.shiftl 1 a)) 0) as [->|Na], (Z.eqb_spec (Z.land x (Z.shiftl 1 b)) 0) as [->|Nb],
      (Z.eqb_spec (Z.land x (Z.shiftl 1 c)) 0) as [->|Nc]; cbn [negb orb]; try reflexivity;
      apply negb_true_iff, Z.eqb_neq; rewrite !Z.lor_eq_0_iff; tauto. }
  assert (A : forall k, 0 <= k -> Z.testbit (auxv_power_detect hwcap hwcap2 1) k =
    (k =? 0) || negb (Z.testbit hwcap 15) && (Z.testbit hwcap2 31 || Z.testbit hwcap2 23 || Z.testbit hwcap2 18) && (k =? 1)).
  { intros k Hk. unfold auxv_power_detect. change 32768 with (Z.shiftl 1 15). rewrite land_pow2 by lia.
    change 2147483648 with (2 ^ 31). change 8388608 with (2 ^ 23). change 262144 with (2 ^ 18). rewrite M by lia. unflag.
    destruct (Z.testbit hwcap 15); bits; cbn [negb andb]; [now rewrite orb_false_r | reflexivity]. }
  assert (B : forall k, 0 <= k -> Z.testbit (aix_detect impl 1) k =
    (k =? 0) || negb (impl =? 2 ^ 64 - 1) && (Z.testbit impl 16 || Z.testbit impl 17 || Z.testbit impl 18) && (k =? 1)).
  { intros k Hk. unfold aix_detect. change 65536 with (2 ^ 16). change 131072 with (2 ^ 17). change 262144 with (2 ^ 18). rewrite M by lia. unflag.
    destruct (impl =? 2 ^ 64 - 1); bits; cbn [negb andb]; [now rewrite orb_false_r | reflexivity]. }
  rewrite !A, !B by lia. cbn [Z.eqb Pos.eqb orb]. rewrite !andb_true_r.
  refine (conj eq_refl (conj eq_refl (conj _ _))).
  - destruct (Z.testbit hwcap 15), (Z.testbit hwcap2 31), (Z.testbit hwcap2 23), (Z.testbit hwcap2 18); cbn; intuition congruence.
  - destruct (Z.eqb_spec impl (2 ^ 64 - 1)), (Z.testbit impl 16), (Z.testbit impl 17), (Z.testbit impl 18); cbn; intuition congruence.
Qed.
Theorem C27_riscv_flags : forall ok key0 value0 key1 value1,
  cpu_test (riscv_detect ok key0 value0 key1 value1 1) Init = true /\
  (cpu_test (riscv_detect ok key0 value0 key1 value1 1) F_zacas = true <->
   ok = true /\ key0 <> -1 /\ Z.testbit value0 0 = true /\ key1 <> -1 /\ Z.testbit value1 34 = true).
Proof.
  intros ok key0 value0 key1 value1. unfold riscv_detect. rewrite !land_pow2 by lia. unflag. rewrite !cpu_test_spec by lia.
  destruct ok, (Z.eqb_spec key0 (-1)), (Z.testbit value0 0), (Z.eqb_spec key1 (-1)), (Z.testbit value1 34); cbn; intuition congruence.
Qed.
Theorem C27_other_os_flags : forall present status features v1 v2 a b c,
  (cpu_test (windows_detect present 1) F_lse = true <-> present 34 <> 0) /\
  (cpu_test (windows_detect present 1) F_lse2 = true <-> present 62 <> 0) /\
  (cpu_test (fuchsia_detect status features 1) F_lse = true <-> status = 0 /\ Z.testbit features 8 = true) /\
  (cpu_test (illumos_detect v1 v2 1) F_lse = Z.testbit v1 15) /\ (cpu_test (illumos_detect v1 v2 1) F_lse2 = Z.testbit v2 2) /\
  (cpu_test (apple_detect a b c 1) F_lse = true <-> (exists v, (a = Some v \/ b = Some v) /\ v <> 0)) /\
  (cpu_test (apple_detect a b c 1) F_lse2 = true <-> (exists v, c = Some v /\ v <> 0)) /\
  Forall (fun i => cpu_test i Init = true) [windows_detect present 1; fuchsia_detect status features 1; illumos_detect v1 v2 1; apple_detect a b c 1].
Proof.
  intros present status features v1 v2 a b c. unfold windows_detect, fuchsia_detect, illumos_detect, apple_detect. cbv zeta.
  rewrite !land_pow2 by lia. unflag. rewrite !cpu_test_spec by lia.
  refine (conj _ (conj _ (conj _ (conj _ (conj _ (conj _ (conj _ _))))))).
  - destruct (Z.eqb_spec (present 62) 0), (Z.eqb_spec (present 34) 0); cbn; intuition congruence.
  - destruct (Z.eqb_spec (present 62) 0), (Z.eqb_spec (present 34) 0); cbn; intuition congruence.
  - destruct (Z.eqb_spec status 0); cbn [negb]; [destruct (Z.testbit features 8); cbn; intuition congruence|].
    rewrite Z.testbit_0_l. cbn. intuition congruence.
  - destruct (Z.testbit v1 15), (Z.testbit v2 2); reflexivity.
  - destruct (Z.testbit v1 15), (Z.testbit v2 2); reflexivity.
  - set (z := (match a with Some v => v | None => 0 end =? 0)). set (y := (match b with Some v => v | None => 0 end =? 0)).
    transitivity (z = false \/ y = false).
    { destruct (match c with Some v => v | None => 0 end =? 0), z, y; cbn; intuition congruence. }
    unfold z, y. rewrite !Z.eqb_neq. split.
    + intros [H|H]; [destruct a as [v|] | destruct b as [v|]]; try congruence; exists v; auto.
    + intros (v & [-> | ->] & N); auto.
  - set (x := (match c with Some v => v | None => 0 end =? 0)).
    transitivity (x = false).
    { destruct x, (match a with Some v => v | None => 0 end =? 0), (match b with Some v => v | None => 0 end =? 0); cbn; intuition congruence. }
    unfold x. rewrite Z.eqb_neq. split; [destruct c as [v|]; [eauto | congruence] | intros (v & -> & N); exact N].
  - rewrite !Forall_cons_iff. rewrite !cpu_test_spec by lia.
    repeat split; try apply Forall_nil; bits; reflexivity.
Qed.

(** ** End to end on x86_64 (C28 at run time): in one program run, whatever the races and whatever CPUID
    answered to each thread, either every access and every is_lock_free is native or none is. *)
Definition ord_eqb (a b : ordering) : bool :=
  match a, b with
  | Relaxed, Relaxed | Acquire, Acquire | Release, Release | AcqRel, AcqRel | SeqCst, SeqCst => true
  | _, _ => false
  end.
Definition wide_site_eqb (a b : wide_site) : bool :=
  match a, b with
  | SiteLoad o, SiteLoad p | SiteStore o, SiteStore p | SiteRmw o, SiteRmw p => ord_eqb o p
  | SiteCas o f, SiteCas p g => ord_eqb o p && ord_eqb f g
  | _, _ => false
  end.
Lemma wide_site_eqb_ok : forall a b, wide_site_eqb a b = true -> a = b.
Proof. intros [[]|[]|[] []|[]] [[]|[]|[] []|[]]; cbn; congruence. Qed.
Definition x86_det (sse : bool) (e : Z * Z) (info : Z) : Z := x86_detect sse (fst e) (snd e) info.
Definition x86_program ct_cx16 ct_avx ct_sse df ls :=
  dispatch_run (x86_sel ct_cx16 ct_avx ct_sse) (x86_det ct_sse) df (negb ct_cx16) wide_site_eqb ls.
(** Native (true), lock based (false); [None]: an ordering the operation panics on. *)
Definition wide_native (f : wide_fn) : option bool :=
  match f with
  | LoadStoreFn (Some i) => Some (x86_native i)
  | LoadStoreFn None => None
  | RmwFn i => Some (x86_native i)
  | CasFn Cx16Cas => Some true
  | CasFn (X86FallbackCas _) => Some false
  end.
Lemma x86_keeps : forall sse, keeps_init (x86_det sse).
Proof. intros sse [ecx xcr0]. unfold x86_det. rewrite x86_bits by lia. reflexivity. Qed.
Lemma x86_sel_native : forall cx avx sse x info b, wide_native (x86_sel cx avx sse x info) = Some b ->
  b = cx || cpu_test info F_cmpxchg16b.
Proof.
  intros cx avx sse x info b. unfold x86_sel, x86_env_of. destruct (cpu_test info F_cmpxchg16b), (cpu_test info F_avx), cx, avx, sse, x as [[]|[]|[] []|[]];
    cbn; congruence.
Qed.
Theorem C28_x86_run : forall ct_cx16 ct_avx ct_sse df ls s ev,
  x86_program ct_cx16 ct_avx ct_sse df ls = Some (s, ev) ->
  exists native : bool,
    (forall id x f b, In (Executed _ _ id x f) ev -> wide_native f = Some b -> b = native) /\
    (forall id i, In (Detected _ _ id i) ev -> x86_is_lock_free (x86_env_of ct_cx16 ct_avx ct_sse i) = native).
Proof.
  intros cx avx sse df ls s ev H. unfold x86_program in H. destruct cx eqn:C.
  - exists true. split.
    + intros id x f b Hin Hb. destruct (C27_always_an_answer _ _ _ _ _ _ _ _ _ _ _ wide_site_eqb_ok (x86_keeps sse) H) as [A _].
      destruct (A id x f Hin) as (e & _ & ->). apply x86_sel_native in Hb. exact Hb.
    + reflexivity.
  - cbn [negb] in H. destruct (C27_one_answer _ _ _ _ _ _ _ _ _ _ wide_site_eqb_ok (x86_keeps sse) H) as [->|(e & _ & A & B)].
    + exists true. split; intros; contradiction.
    + exists (cpu_test (answer (x86_det sse) df e) F_cmpxchg16b). split.
      * intros id x f b Hin Hb. rewrite (A id x f Hin) in Hb. apply x86_sel_native in Hb. exact Hb.
      * intros id i Hin. destruct (B id i Hin) as [-> _]. reflexivity.
Qed.
(** And the instructions used exist: vmovdqa only where AVX is usable, cmpxchg16b only where CPUID reports it. *)
Theorem C28_x86_supported : forall ct_cx16 ct_avx ct_sse df ls s ev (hw_cx16 hw_avx : bool),
  (forall ecx xcr0, was_given (ecx, xcr0) ls -> (Z.testbit ecx 13 = true -> hw_cx16 = true) /\
     (Z.testbit ecx 26 && Z.testbit ecx 27 && Z.testbit ecx 28 && Z.testbit xcr0 1 && Z.testbit xcr0 2 = true -> hw_avx = true)) ->
  (ct_cx16 = true -> hw_cx16 = true) -> (ct_avx = true -> hw_avx = true) ->
  x86_program ct_cx16 ct_avx ct_sse df ls = Some (s, ev) ->
  forall id x f, In (Executed _ _ id x f) ev ->
    match f with
    | LoadStoreFn (Some (Vmovdqa _)) => hw_avx = true /\ hw_cx16 = true
    | LoadStoreFn (Some Cx16) | RmwFn Cx16 | CasFn Cx16Cas => hw_cx16 = true
    | RmwFn (Vmovdqa _) => False
    | _ => True
    end.
Proof.
  intros cx avx sse df ls s ev hc ha HW Hc Ha H id x f Hin.
  destruct (C27_always_an_answer _ _ _ _ _ _ _ _ _ _ _ wide_site_eqb_ok (x86_keeps sse) H) as [A _].
  destruct (A id x f Hin) as ([ecx xcr0] & G & ->). destruct (HW ecx xcr0 G) as [W1 W2].
  set (i := answer (x86_det sse) df (ecx, xcr0)).
  assert (I1 : cpu_test i F_cmpxchg16b = true -> hc = true).
  { unfold i, answer, x86_det. destruct df; cbn [fst snd]; [discriminate|]. destruct (C27_x86_flags sse ecx xcr0) as (_ & -> & _). exact W1. }
  assert (I2 : cpu_test i F_avx = true -> ha = true).
  { unfold i, answer, x86_det. destruct df; cbn [fst snd]; [discriminate|]. destruct (C27_x86_flags sse ecx xcr0) as (_ & _ & ->).
    intros Q. apply W2. destruct sse; [exact Q | discriminate]. }
  clearbody i. unfold x86_sel, x86_env_of.
  destruct (cpu_test i F_cmpxchg16b), (cpu_test i F_avx), cx, avx, sse, x as [[]|[]|[] []|[]]; cbn; auto.
Qed.
(** The same on powerpc64 (quadword-atomics) and RISC-V (zacas). *)
Definition table_native (f : table_fn) : option bool :=
  match f with
  | TargetFn (Some t) => Some (is_native t) | TargetCasFn (Some t) => Some (is_native_cas t) | _ => None
  end.
Lemma table_sel_native : forall ct flag x info b, table_native (table_sel ct flag x info) = Some b -> b = ct || cpu_test info flag.
Proof.
  intros ct flag x info b. unfold table_sel. destruct (cpu_test info flag), ct, x as [[]|[]|[] []|[]]; cbn; congruence.
Qed.
Theorem C28_table_run : forall env (det : env -> Z -> Z) ct flag df ls s ev, keeps_init det ->
  dispatch_run (table_sel ct flag) det df (negb ct) wide_site_eqb ls = Some (s, ev) ->
  exists native : bool,
    (forall id x f b, In (Executed _ _ id x f) ev -> table_native f = Some b -> b = native) /\
    (forall id i, In (Detected _ _ id i) ev -> table_is_lock_free ct (cpu_test i flag) = native).
Proof.
  intros env det ct flag df ls s ev K H. destruct ct eqn:C.
  - exists true. split.
    + intros id x f b Hin Hb. destruct (C27_always_an_answer _ _ _ _ _ _ _ _ _ _ _ wide_site_eqb_ok K H) as [A _].
      destruct (A id x f Hin) as (e & _ & ->). apply table_sel_native in Hb. exact Hb.
    + reflexivity.
  - cbn [negb] in H. destruct (C27_one_answer _ _ _ _ _ _ _ _ _ _ wide_site_eqb_ok K H) as [->|(e & _ & A & B)].
    + exists true. split; intros; contradiction.
    + exists (cpu_test (answer det df e) flag). split.
      * intros id x f b Hin Hb. rewrite (A id x f Hin) in Hb. apply table_sel_native in Hb. exact Hb.
      * intros id i Hin. destruct (B id i Hin) as [-> _]. reflexivity.
Qed.
(** With a plain store instead of the compare-exchange this would fail: two threads that get different answers
    would use different implementations for the same variable. *)
Example C28_plain_store_would_mix : exists ls s ev,
  dispatch_run (x86_sel false false true) (x86_det true) false false wide_site_eqb ls = Some (s, ev) /\
  In (Executed _ _ 0%nat (SiteRmw SeqCst) (RmwFn Cx16)) ev /\
  In (Executed _ _ 1%nat (SiteLoad SeqCst) (LoadStoreFn (Some (X86Fallback atomic_load_seqcst)))) ev.
Proof.
  exists [Start _ _ 0%nat (ForCall _ (SiteRmw SeqCst)); Start _ _ 1%nat (ForCall _ (SiteLoad SeqCst));
          StepRead _ _ 0%nat 0%nat; StepRead _ _ 1%nat 0%nat; StepRead _ _ 0%nat 0%nat; StepRead _ _ 1%nat 0%nat;
          StepEnv _ _ 0%nat (8192, 0); StepEnv _ _ 1%nat (0, 0); Step _ _ 0%nat; Step _ _ 1%nat; Step _ _ 0%nat; Step _ _ 1%nat; Step _ _ 0%nat; Step _ _ 1%nat].
  do 2 eexists. split; [vm_compute; reflexivity|]. split; [left | right; left]; reflexivity.
Qed.
(** Non-vacuity: the same race with the compare-exchange, CPUID answering differently to the two threads: the
    loser adopts the winner's answer. *)
Example C28_race : exists s ev,
  x86_program false false true false
    [Start _ _ 0%nat (ForCall _ (SiteRmw SeqCst)); Start _ _ 1%nat (ForCall _ (SiteLoad SeqCst)); Start _ _ 2%nat (ForInfo _);
     StepRead _ _ 0%nat 0%nat; StepRead _ _ 1%nat 0%nat; StepRead _ _ 0%nat 0%nat; StepRead _ _ 1%nat 0%nat;
     StepEnv _ _ 0%nat (8192, 0); StepEnv _ _ 1%nat (0, 0); Step _ _ 0%nat; StepRead _ _ 1%nat 1%nat; Step _ _ 0%nat; Step _ _ 1%nat; Step _ _ 0%nat; Step _ _ 1%nat;
     StepRead _ _ 2%nat 1%nat] = Some (s, ev) /\
  ev = [Executed _ _ 0%nat (SiteRmw SeqCst) (RmwFn Cx16); Executed _ _ 1%nat (SiteLoad SeqCst) (LoadStoreFn (Some Cx16)); Detected _ _ 2%nat 5].
Proof. do 2 eexists. split; vm_compute; reflexivity. Qed.

Print Assumptions C27_one_answer.
Print Assumptions C27_always_an_answer.
Print Assumptions C27_constant_platform.
Print Assumptions C27_wait_free.
Print Assumptions C27_x86_flags.
Print Assumptions C27_aa64reg_flags.
Print Assumptions C27_aa64reg_consistent.
Print Assumptions C27_auxv_aarch64_flags.
Print Assumptions C27_power_flags.
Print Assumptions C27_riscv_flags.
Print Assumptions C27_other_os_flags.
Print Assumptions C28_x86_run.
Print Assumptions C28_x86_supported.
Print Assumptions C28_table_run.
