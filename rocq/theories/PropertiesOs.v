(** * C47: run-time detection against any operating system

    OsModel.v is the code from the first foreign call to the flags; OsSpec.v says what the systems document.
    [cpu_test info F_x = true] is the answer of the accessor [x()] of the detected [CpuInfo]. *)
From Coq Require Import String Ascii ZArith List Bool Lia.
From Verif Require Import DetectModel DetectProofs PropertiesDetect OsSpec OsModel OsProofs.
Import ListNotations.
Open Scope Z_scope.

(** ** Whatever the system answers, every call made is a legal one *)
Theorem C47_calls_are_legal : forall p debug (os : os_call -> answer -> Prop) tr r, runs debug os (program p) tr r -> Forall call_ok tr.
Proof. intros p debug os tr r. apply all_calls_runs, ac_program. Qed.

(** ** A system that knows nothing: no feature is assumed, and nothing panics *)
Theorem C47_silent_system : forall p debug (os : os_call -> answer -> Prop) tr r,
  (forall sse cpuid regs, p <> X86_64 sse cpuid regs) ->
  (forall c a, os c a -> memory_safe c a /\ failed c a) ->
  runs debug os (program p) tr r ->
  r = Returned 1 /\ Forall (fun f => cpu_test 1 f = false) [F_lse; F_lse2; F_rcpc3; F_lse128; F_quadword_atomics; F_zacas].
Proof.
  intros p debug os tr r NX S H. split; [exact (program_silent p debug os tr r S NX H)|]. repeat constructor.
Qed.

(** ** A system that keeps its documentation: exactly the features it reports *)
Theorem C47_linux_aarch64 : forall debug w linked android lp64 tr r, linux_ok w ->
  lw_rtld_default w = (if android && negb lp64 then 2 ^ 32 - 1 else 0) ->
  runs debug (linux_doc w) (program (LinuxAarch64 linked android lp64)) tr r ->
  let hwcap := linux_aux w linked 16 in
  let hwcap2 := linux_aux w linked 26 in
  let distrusted := Z.testbit hwcap 8 = true /\ android = true /\
                    exists s, lw_ro_arch w = Some s /\ starts_with (chars "exynos9810") s in
  exists info, r = Returned info /\ cpu_test info Init = true /\
    (cpu_test info F_lse = true <-> Z.testbit hwcap 8 = true /\ ~ distrusted) /\
    (cpu_test info F_lse2 = true <-> Z.testbit hwcap 25 = true /\ ~ distrusted) /\
    (cpu_test info F_rcpc3 = true <-> lp64 = true /\ Z.testbit hwcap2 46 = true /\ ~ distrusted) /\
    (cpu_test info F_lse128 = true <-> lp64 = true /\ Z.testbit hwcap2 47 = true /\ ~ distrusted).
Proof.
  intros debug w linked android lp64 tr r OKW D H hwcap hwcap2 distrusted.
  apply (aarch64_run debug _ _ (linux_aux w linked) 16 26 android (is_exynos w)) in H.
  - change (cpu_set 0 Init) with 1 in H. rewrite H. eexists. split; [reflexivity|]. fold hwcap hwcap2.
    pose proof (C27_auxv_aarch64_flags (android && is_exynos w) hwcap (if lp64 then Some hwcap2 else None)) as F. cbv zeta in F.
    destruct F as (F0 & F1 & F2). split; [exact F0|]. clear F0.
    assert (X : distrusted <-> Z.testbit hwcap 8 && (android && is_exynos w) = true).
    { unfold distrusted. rewrite !andb_true_iff, is_exynos_iff. tauto. }
    destruct (Z.testbit hwcap 8 && (android && is_exynos w)) eqn:E.
    + assert (Y : distrusted) by (apply X; reflexivity). clear X F2. destruct (F1 eq_refl) as (-> & -> & -> & ->). intuition discriminate.
    + assert (Y : ~ distrusted) by (rewrite X; discriminate). clear X F1. destruct (F2 eq_refl) as (-> & -> & -> & ->).
      destruct lp64; intuition congruence.
  - intros t k tr0 r0. apply linux_getauxval_run. rewrite D. reflexivity.
  - intros _ k tr0 r0. now apply exynos_run.
Qed.
Theorem C47_bsd_aarch64 : forall debug big w linked openbsd tr r, bsd_ok 8 w -> bw_rtld_default w = 2 ^ 64 - 2 ->
  runs debug (bsd_doc big 8 w) (program (BsdAarch64 big linked openbsd)) tr r ->
  let hwcap := bsd_aux w linked 25 in
  let hwcap2 := if openbsd then 0 else bsd_aux w linked 26 in
  exists info, r = Returned info /\ cpu_test info Init = true /\
    cpu_test info F_lse = Z.testbit hwcap 8 /\ cpu_test info F_lse2 = Z.testbit hwcap 25 /\
    cpu_test info F_rcpc3 = Z.testbit hwcap2 46 /\ cpu_test info F_lse128 = Z.testbit hwcap2 47.
Proof.
  intros debug big w linked openbsd tr r OKW D H hwcap hwcap2.
  apply (aarch64_run debug _ _ (bsd_aux w linked) 25 26 false false) in H.
  - change (cpu_set 0 Init) with 1 in H. rewrite H. eexists. split; [reflexivity|]. fold hwcap.
    pose proof (C27_auxv_aarch64_flags false hwcap (if negb openbsd then Some (bsd_aux w linked 26) else None)) as F. cbv zeta in F.
    rewrite andb_false_r in F. cbn [andb] in *. destruct F as (F0 & _ & F2). split; [exact F0|]. destruct (F2 eq_refl) as (-> & -> & -> & ->).
    unfold hwcap2. destruct openbsd; cbn [negb]; rewrite ?Z.bits_0; auto.
  - intros t k tr0 r0. apply bsd_getauxval_run; [exact D | exact OKW].
  - discriminate.
Qed.
Theorem C47_linux_power : forall debug w linked tr r, lw_rtld_default w = 0 ->
  runs debug (linux_doc w) (program (LinuxPower linked)) tr r ->
  let hwcap := linux_aux w linked 16 in
  let hwcap2 := linux_aux w linked 26 in
  exists info, r = Returned info /\ cpu_test info Init = true /\
    (cpu_test info F_quadword_atomics = true <->
     Z.testbit hwcap 15 = false /\ (Z.testbit hwcap2 31 = true \/ Z.testbit hwcap2 23 = true \/ Z.testbit hwcap2 18 = true)).
Proof.
  intros debug w linked tr r D H hwcap hwcap2. apply (power_run debug _ _ (linux_aux w linked) 16 26) in H.
  - change (cpu_set 0 Init) with 1 in H. rewrite H. eexists. split; [reflexivity|]. destruct (C27_power_flags hwcap hwcap2 0) as (A & _ & B & _). auto.
  - intros t k tr0 r0. apply linux_getauxval_run. exact D.
Qed.
Theorem C47_bsd_power : forall debug big w linked tr r, bsd_ok 8 w -> bw_rtld_default w = 2 ^ 64 - 2 ->
  runs debug (bsd_doc big 8 w) (program (BsdPower big linked)) tr r ->
  let hwcap := bsd_aux w linked 25 in
  let hwcap2 := bsd_aux w linked 26 in
  exists info, r = Returned info /\ cpu_test info Init = true /\
    (cpu_test info F_quadword_atomics = true <->
     Z.testbit hwcap 15 = false /\ (Z.testbit hwcap2 31 = true \/ Z.testbit hwcap2 23 = true \/ Z.testbit hwcap2 18 = true)).
Proof.
  intros debug big w linked tr r OKW D H hwcap hwcap2. apply (power_run debug _ _ (bsd_aux w linked) 25 26) in H.
  - change (cpu_set 0 Init) with 1 in H. rewrite H. eexists. split; [reflexivity|]. destruct (C27_power_flags hwcap hwcap2 0) as (A & _ & B & _). auto.
  - intros t k tr0 r0. apply bsd_getauxval_run; [exact D | exact OKW].
Qed.
Theorem C47_aix_power : forall debug impl tr r, runs debug (aix_doc impl) (program AixPower) tr r ->
  exists info, r = Returned info /\ cpu_test info Init = true /\
    (cpu_test info F_quadword_atomics = true <->
     impl <> 2 ^ 64 - 1 /\ (Z.testbit impl 16 = true \/ Z.testbit impl 17 = true \/ Z.testbit impl 18 = true)).
Proof.
  intros debug impl tr r H. apply aix_run in H. rewrite H. eexists. split; [reflexivity|].
  destruct (C27_power_flags 0 0 impl) as (_ & A & _ & B). auto.
Qed.

(** The id registers of the processor, from a kernel of NetBSD 9 or 10; no feature from a kernel without the
    variable or with one that does not fit. *)
Theorem C47_netbsd : forall debug big value tr r,
  runs debug (sysctlbyname_doc value) (program (NetbsdAarch64 big)) tr r ->
  (forall netbsd10 cpu, value (c_string "machdep.cpu0.cpu_id") = Some (netbsd_struct big netbsd10 cpu) ->
     (forall x, In x [nb_isar0 cpu; nb_isar1 cpu; nb_mmfr2 cpu] -> 0 <= x < 2 ^ 64) ->
     exists info, r = Returned info /\ cpu_test info Init = true /\
       (cpu_test info F_lse = true <-> 2 <= (nb_isar0 cpu / 2 ^ 20) mod 16) /\
       (cpu_test info F_lse128 = true <-> 3 <= (nb_isar0 cpu / 2 ^ 20) mod 16) /\
       (cpu_test info F_rcpc3 = true <-> 3 <= (nb_isar1 cpu / 2 ^ 20) mod 16) /\
       (cpu_test info F_lse2 = true <-> 1 <= (nb_mmfr2 cpu / 2 ^ 32) mod 16)) /\
  (value (c_string "machdep.cpu0.cpu_id") = None \/
   (exists img, value (c_string "machdep.cpu0.cpu_id") = Some img /\ (136 < length img)%nat) ->
   r = Returned 1).
Proof.
  intros debug big value tr r H. apply netbsd_run in H. change (cpu_set 0 Init) with 1 in H. destruct H as [A B]. split.
  - intros n10 cpu V R. rewrite V in A. destruct (netbsd_regs big n10 cpu R) as (L & E0 & E1 & E2). rewrite L in A.
    rewrite E0, E1, E2 in A. eexists. split; [apply A; destruct n10; lia|]. apply C27_aa64reg_flags.
  - intros [V|(img & V & L)]; [rewrite V in A; exact A|]. apply (B img V). lia.
Qed.
Theorem C47_openbsd : forall debug big value tr r,
  (forall mib img, value mib = Some img -> exists v, img = enc big 8 v /\ 0 <= v < 2 ^ 64) ->
  runs debug (sysctl_doc value) (program (OpenbsdAarch64 big)) tr r ->
  (* CTL_MACHDEP = 7; CPU_ID_AA64ISAR0 = 2, ISAR1 = 3, MMFR2 = 7 *)
  let reg id := match value [7; id] with Some img => num big img | None => 0 end in
  exists info, r = Returned info /\ cpu_test info Init = true /\
    (cpu_test info F_lse = true <-> 2 <= (reg 2 / 2 ^ 20) mod 16) /\
    (cpu_test info F_lse128 = true <-> 3 <= (reg 2 / 2 ^ 20) mod 16) /\
    (cpu_test info F_rcpc3 = true <-> 3 <= (reg 3 / 2 ^ 20) mod 16) /\
    (cpu_test info F_lse2 = true <-> 1 <= (reg 7 / 2 ^ 32) mod 16).
Proof.
  intros debug big value tr r W H reg.
  assert (L : forall mib img, value mib = Some img -> length img = 8%nat) by (intros mib img V; destruct (W mib img V) as (v & -> & _); apply enc_len).
  unfold program, openbsd_aarch64 in H. cbv zeta in H.
  do 3 (apply sysctl64_run in H; [|intros; eapply L; eassumption]; destruct H as (? & H)).
  apply runs_done in H. destruct H as [_ ->]. change (cpu_set 0 Init) with 1.
  assert (E : forall id, unwrap_or (option_map (num big) (value [7; id])) 0 = reg id) by (intros id; unfold reg; destruct (value [7; id]); reflexivity).
  rewrite !E. eexists. split; [reflexivity|]. apply C27_aa64reg_flags.
Qed.
Theorem C47_apple : forall debug value tr r,
  (forall name img, value name = Some img -> exists v, img = enc false 4 v /\ 0 <= v < 2 ^ 32) ->
  runs debug (sysctlbyname_doc value) (program AppleAarch64) tr r ->
  let on name := exists v, value (c_string name) = Some (enc false 4 v) /\ 0 < v < 2 ^ 32 in
  exists info, r = Returned info /\ cpu_test info Init = true /\
    (cpu_test info F_lse = true <-> on "hw.optional.arm.FEAT_LSE"%string \/ on "hw.optional.armv8_1_atomics"%string) /\
    (cpu_test info F_lse2 = true <-> on "hw.optional.arm.FEAT_LSE2"%string) /\
    cpu_test info F_rcpc3 = false /\ cpu_test info F_lse128 = false.
Proof.
  intros debug value tr r W H on.
  assert (L : forall name img, value name = Some img -> length img = 4%nat) by (intros n img V; destruct (W n img V) as (v & -> & _); apply enc_len).
  assert (NUM : forall v, 0 <= v < 2 ^ 32 -> num false (enc false 4 v) = v) by (intros; apply num_enc_small; assumption).
  assert (E : forall name, negb (unwrap_or (option_map (num false) (value (c name))) 0 =? 0) = true <-> on name).
  { intros name. unfold on. change (c_string name) with (c name). destruct (value (c name)) as [img|] eqn:V; cbn [option_map unwrap_or].
    - destruct (W _ _ V) as (v & -> & R). rewrite NUM by exact R. rewrite negb_true_iff, Z.eqb_neq. split.
      + intros N. exists v. split; [reflexivity | lia].
      + intros (v' & Q & R'). assert (v = v') by (rewrite <- (NUM v), <- (NUM v') by lia; congruence). lia.
    - split; [discriminate | intros (v & Q & _); discriminate]. }
  unfold program, apple_aarch64 in H. cbv zeta in H. change (cpu_set 0 Init) with 1 in H.
  apply sysctl32_run in H; [|intros; eapply L; eassumption]. destruct H as (? & H).
  pose proof (E "hw.optional.arm.FEAT_LSE"%string) as E1. pose proof (E "hw.optional.armv8_1_atomics"%string) as E2.
  pose proof (E "hw.optional.arm.FEAT_LSE2"%string) as E3. clear E.
  destruct (negb (unwrap_or (option_map (num false) (value (c "hw.optional.arm.FEAT_LSE"))) 0 =? 0)).
  - apply sysctl32_run in H; [|intros; eapply L; eassumption]. destruct H as (? & H). apply runs_done in H. destruct H as [_ ->].
    destruct (negb (unwrap_or (option_map (num false) (value (c "hw.optional.arm.FEAT_LSE2"))) 0 =? 0));
      eexists; (split; [reflexivity|]); cbn [set_if]; repeat split; cbn; intuition (try discriminate).
  - apply sysctl32_run in H; [|intros; eapply L; eassumption]. destruct H as (? & H).
    apply sysctl32_run in H; [|intros; eapply L; eassumption]. destruct H as (? & H). apply runs_done in H. destruct H as [_ ->].
    destruct (negb (unwrap_or (option_map (num false) (value (c "hw.optional.armv8_1_atomics"))) 0 =? 0));
    destruct (negb (unwrap_or (option_map (num false) (value (c "hw.optional.arm.FEAT_LSE2"))) 0 =? 0));
      eexists; (split; [reflexivity|]); cbn [set_if]; repeat split; cbn; intuition (try discriminate).
Qed.
Theorem C47_illumos_fuchsia_windows : forall debug tr r,
  (forall big words, Forall (fun v => 0 <= v < 2 ^ 32) words ->
     runs debug (illumos_doc big words) (program (IllumosAarch64 big)) tr r ->
     exists info, r = Returned info /\ cpu_test info Init = true /\
       cpu_test info F_lse = Z.testbit (nth 0 words 0) 15 /\ cpu_test info F_lse2 = Z.testbit (nth 1 words 0) 2) /\
  (forall big features, (forall v, features = Some v -> 0 <= v < 2 ^ 32) ->
     runs debug (fuchsia_doc big features) (program (FuchsiaAarch64 big)) tr r ->
     exists info, r = Returned info /\ cpu_test info Init = true /\
       (cpu_test info F_lse = true <-> exists v, features = Some v /\ Z.testbit v 8 = true) /\ cpu_test info F_lse2 = false) /\
  (forall present, runs debug (windows_doc present) (program WindowsAarch64) tr r ->
     exists info, r = Returned info /\ cpu_test info Init = true /\
       cpu_test info F_lse = present 34 /\ cpu_test info F_lse2 = present 62).
Proof.
  intros debug tr r. refine (conj _ (conj _ _)).
  - intros big words W H. apply (illumos_run _ _ _ _ _ _ W) in H. rewrite H. eexists. split; [reflexivity|].
    destruct (C27_other_os_flags (fun _ => 0) 0 0 (nth 0 words 0) (nth 1 words 0) None None None) as (_ & _ & _ & A & B & _ & _ & F).
    inversion F as [|? ? _ F1]; subst. inversion F1 as [|? ? _ F2]; subst. inversion F2; subst. auto.
  - intros big features W H. apply (fuchsia_run _ _ _ _ _ _ W) in H. rewrite H. eexists. split; [reflexivity|].
    destruct features as [v|].
    + destruct (C27_other_os_flags (fun _ => 0) 0 v 0 0 None None None) as (_ & _ & A & _ & _ & _ & _ & F).
      inversion F as [|? ? _ F1]; subst. inversion F1 as [|? ? F2 _]; subst. split; [exact F2|]. split.
      * rewrite A. split; [intros [_ Q]; eauto | intros (v' & Q & T); injection Q as <-; auto].
      * unfold fuchsia_detect. cbn [Z.eqb negb]. destruct (negb (Z.land v (Z.shiftl 1 8) =? 0)); reflexivity.
    + repeat split; try discriminate. intros (v & Q & _). discriminate.
  - intros present H. apply windows_run in H. rewrite H. eexists. split; [reflexivity|]. unfold windows_detect.
    destruct (present 34), (present 62); repeat split.
Qed.

(** Zacas only when the kernel reports the base behaviour IMA (key 3, bit 0) and the extension (key 4, bit 34),
    with the assembly system call and with libc's. *)
Theorem C47_riscv_linux : forall debug big asm at_ kernel tr r,
  (forall known k v, kernel = Some known -> known k = Some v -> 0 <= v < 2 ^ 64) ->
  runs debug (riscv_doc big kernel) (program (RiscvLinux big asm at_)) tr r ->
  exists info, r = Returned info /\ cpu_test info Init = true /\
    (cpu_test info F_zacas = true <->
     exists known base ext, kernel = Some known /\ known 3 = Some base /\ Z.testbit base 0 = true /\
                            known 4 = Some ext /\ Z.testbit ext 34 = true).
Proof.
  intros debug big asm at_ kernel tr r W H. apply (riscv_run _ _ _ _ _ _ _ _ W) in H. change (cpu_set 0 Init) with 1 in H. rewrite H.
  destruct kernel as [known|].
  - eexists. split; [reflexivity|].
    destruct (C27_riscv_flags true (if known 3 then 3 else -1) (match known 3 with Some v => v | None => 0 end)
                (if known 4 then 4 else -1) (match known 4 with Some v => v | None => 0 end)) as [A B].
    split; [exact A|]. rewrite B. clear A B H W. split.
    + intros (_ & K0 & V0 & K1 & V1). destruct (known 3) as [b|] eqn:E3; [|congruence]. destruct (known 4) as [e|] eqn:E4; [|congruence].
      exists known, b, e. auto.
    + intros (known' & b & e & Q & E3 & V0 & E4 & V1). injection Q as <-. rewrite E3, E4. repeat split; auto; discriminate.
  - exists 1. split; [reflexivity|]. split; [reflexivity|]. split; [discriminate | intros (known & b & e & Q & _); discriminate].
Qed.

(** x86: cpuid gets leaf 1, subleaf 0, and the block returns its four results with rbx and every register it
    does not declare untouched; XGETBV is executed only where it exists. *)
Theorem C47_cpuid_block : forall cpuid leaf regs, 0 <= leaf < 2 ^ 32 ->
  (forall l s, let '(a, b, c, d) := cpuid l s in 0 <= a < 2 ^ 32 /\ 0 <= b < 2 ^ 32 /\ 0 <= c < 2 ^ 32 /\ 0 <= d < 2 ^ 32) ->
  fst (__cpuid cpuid leaf regs) = cpuid leaf 0 /\
  (forall x, x <> RAX -> x <> R8 -> x <> RCX -> x <> RDX -> snd (__cpuid cpuid leaf regs) x = regs x).
Proof. exact cpuid_spec. Qed.
Theorem C47_x86_64 : forall debug sse cpuid regs xcr0 tr r,
  (forall l s, let '(a, b, c, d) := cpuid l s in 0 <= a < 2 ^ 32 /\ 0 <= b < 2 ^ 32 /\ 0 <= c < 2 ^ 32 /\ 0 <= d < 2 ^ 32) ->
  runs debug (x86_doc xcr0) (program (X86_64 sse cpuid regs)) tr r ->
  let '(_, _, ecx, _) := cpuid 1 0 in
  (exists info, r = Returned info /\ cpu_test info Init = true /\
     cpu_test info F_cmpxchg16b = Z.testbit ecx 13 /\
     cpu_test info F_avx = sse && Z.testbit ecx 26 && Z.testbit ecx 27 && Z.testbit ecx 28 && Z.testbit xcr0 1 && Z.testbit xcr0 2) /\
  (forall xcr, In (Xgetbv xcr) tr -> Z.testbit ecx 26 = true /\ Z.testbit ecx 27 = true).
Proof.
  intros debug sse cpuid regs xcr0 tr r W H. apply (x86_run _ _ _ _ _ _ _ _ W) in H. change (cpu_set 0 Init) with 1 in H. cbv zeta in H.
  destruct (cpuid 1 0) as [[[a b] e] d]. cbn [fst snd] in H. destruct H as [-> T]. split.
  - eexists. split; [reflexivity|]. apply C27_x86_flags.
  - intros xcr I. apply T. intros ->. destruct I.
Qed.

(** ** Concrete systems, and that a run exists *)
(** A system defined by a function of the call. *)
Fixpoint play (debug : bool) (f : os_call -> answer) (p : prog) : list os_call * result :=
  match p with
  | Done i => ([], Returned i)
  | Call c k => let '(tr, r) := play debug f (k (f c)) in (c :: tr, r)
  | DebugAssert b k => if debug && negb b then ([], Panicked) else play debug f k
  end.
Lemma play_runs : forall debug (os : os_call -> answer -> Prop) f p, (forall c, os c (f c)) ->
  runs debug os p (fst (play debug f p)) (snd (play debug f p)).
Proof.
  intros debug os f p F. induction p as [i|c k IH|b k IH]; cbn [play].
  - constructor.
  - specialize (IH (f c)). destruct (play debug f (k (f c))) as [tr r]. econstructor; eauto.
  - destruct debug, b; cbn [andb negb fst snd]; try (constructor; [congruence | exact IH]). now constructor.
Qed.
(** A phone with an Exynos 9810 whose kernel reports LSE and LSE2: nothing is believed. *)
Definition galaxy : linux_world :=
  mk_linux (fun t => if t =? 16 then Some (Z.lor 256 (Z.shiftl 1 25)) else None) (fun _ => 0) 0 (Some (chars "exynos9810")).
Definition galaxy_os (c : os_call) : answer :=
  match c with
  | Getauxval Linked 16 => mk_answer (Z.lor 256 (Z.shiftl 1 25)) [] 0
  | System_property_get _ b => mk_answer 10 (chars "exynos9810" ++ skipn 10 (0 :: tl b)) 0
  | Elf_aux_info _ _ b _ | Sysctlbyname _ b _ _ _ | Sysctl _ _ b _ _ _ | Getisax b _ | Zx_system_get_features _ b
  | Ecall _ _ b | Libc_syscall _ b _ => mk_answer 0 b 0
  | _ => mk_answer 0 [] 0
  end.
Example C47_ex_galaxy : snd (play true galaxy_os (program (LinuxAarch64 true true true))) = Returned 1 /\
  length (fst (play true galaxy_os (program (LinuxAarch64 true true true)))) = 2%nat /\ linux_ok galaxy /\
  linux_doc galaxy (Getauxval Linked 16) (galaxy_os (Getauxval Linked 16)) /\
  linux_doc galaxy (System_property_get (c "ro.arch") (repeat 0 92)) (galaxy_os (System_property_get (c "ro.arch") (repeat 0 92))).
Proof.
  refine (conj _ (conj _ (conj _ (conj _ _)))).
  - vm_compute. reflexivity.
  - vm_compute. reflexivity.
  - split; [cbn; lia | repeat constructor; lia].
  - split; [exact Logic.I|]. intros _. reflexivity.
  - split; [refine (conj _ (conj _ _)); [reflexivity | | reflexivity]; vm_compute; repeat constructor; discriminate|].
    intros _. split; reflexivity.
Qed.
(** A NetBSD 9 kernel (a shorter structure) on a processor with LSE, LRCPC3 and LSE2; a big-endian one too. *)
Definition nb_cpu : netbsd_cpu := mk_netbsd 1 2 3 4 5 (2 * 2 ^ 20) (3 * 2 ^ 20) 8 9 (2 ^ 32) 11 12 13 14 15 16 0 17 18.
Definition netbsd_os (big n10 : bool) (cc : os_call) : answer :=
  match cc with
  | Sysctlbyname _ b _ _ _ => let s := netbsd_struct big n10 nb_cpu in mk_answer 0 (s ++ skipn (length s) b) (Z.of_nat (length s))
  | _ => mk_answer 0 [] 0
  end.
Example C47_ex_netbsd :
  map (fun '(b, n) => snd (play true (netbsd_os b n) (program (NetbsdAarch64 b)))) [(false, false); (false, true); (true, false); (true, true)]
  = repeat (Returned (1 + 2 + 8 + 32)) 4.
Proof. vm_compute. reflexivity. Qed.
Example C47_ex_netbsd_doc : forall b n,
  let call := Sysctlbyname (c "machdep.cpu0.cpu_id") (repeat 0 136) 136 0 0 in
  sysctlbyname_doc (fun x => Some (netbsd_struct b n nb_cpu)) call (netbsd_os b n call).
Proof.
  intros [] []; (split; [refine (conj _ (conj _ _)); [reflexivity | vm_compute; repeat constructor; discriminate | reflexivity]|]);
    cbn iota beta; vm_compute; auto.
Qed.
(** A RISC-V kernel with IMA and Zacas; the registers of the system call are the documented ones. *)
Definition riscv_known (k : Z) : option Z := if k =? 3 then Some 1 else if k =? 4 then Some (Z.shiftl 1 34) else None.
Definition riscv_os (cc : os_call) : answer :=
  match cc with
  | Ecall _ _ b | Libc_syscall _ b _ => mk_answer 0 (hwprobe_pairs false riscv_known 2 b) 0
  | _ => mk_answer 0 [] 0
  end.
Example C47_ex_riscv :
  map (fun asm => snd (play true riscv_os (program (RiscvLinux false asm 4096)))) [true; false] = [Returned 3; Returned 3].
Proof. vm_compute. reflexivity. Qed.
(** An Apple system that only knows the old name. *)
Definition apple_os (cc : os_call) : answer :=
  match cc with
  | Sysctlbyname n b _ _ _ => if list_eq_dec Z.eq_dec n (c "hw.optional.armv8_1_atomics") then mk_answer 0 [1; 0; 0; 0] 4 else mk_answer (-1) b 0
  | _ => mk_answer 0 [] 0
  end.
Example C47_ex_apple : snd (play true apple_os (program AppleAarch64)) = Returned 3 /\
  length (fst (play true apple_os (program AppleAarch64))) = 3%nat.
Proof. vm_compute. auto. Qed.
(** FreeBSD on big-endian POWER through dlsym. *)
Definition freebsd_os (cc : os_call) : answer :=
  match cc with
  | Dlsym h s => mk_answer (if h =? 2 ^ 64 - 2 then 4096 else 0) [] 0
  | Elf_aux_info (Ptr 4096) 26 _ 8 => mk_answer 0 (enc true 8 2147483648) 0
  | Elf_aux_info _ _ b _ => mk_answer 2 b 0
  | _ => mk_answer 0 [] 0
  end.
Example C47_ex_freebsd : snd (play true freebsd_os (program (BsdPower true false))) = Returned 3.
Proof. vm_compute. reflexivity. Qed.
Example C47_ex_x86 : let cpuid := fun l s => if (l =? 1) && (s =? 0) then (0, 7, 2 ^ 13 + 2 ^ 26 + 2 ^ 27 + 2 ^ 28, 0) else (0, 0, 0, 0) in
  snd (play true (fun _ => mk_answer 7 [] 0) (program (X86_64 true cpuid (fun _ => 99)))) = Returned 7.
Proof. vm_compute. reflexivity. Qed.

Print Assumptions C47_calls_are_legal.
Print Assumptions C47_silent_system.
Print Assumptions C47_linux_aarch64.
Print Assumptions C47_bsd_aarch64.
Print Assumptions C47_linux_power.
Print Assumptions C47_bsd_power.
Print Assumptions C47_aix_power.
Print Assumptions C47_netbsd.
Print Assumptions C47_openbsd.
Print Assumptions C47_apple.
Print Assumptions C47_illumos_fuchsia_windows.
Print Assumptions C47_riscv_linux.
Print Assumptions C47_cpuid_block.
Print Assumptions C47_x86_64.
