{
 "claims": [
  {
   "property": "C01",
   "status": "proved",
   "theorems": [
    "C01_fallback_linearizable",
    "C01_fallback_final_memory",
    "C01_fallback_linearizable_below_2_63_steps"
   ],
   "note": "interleaving (sequentially consistent) machine; weak memory is C29/C30"
  },
  {
   "property": "C02",
   "status": "proved",
   "theorems": [
    "C02_fallback_wide_linearizable",
    "C02_fallback_wide_final_memory",
    "C02_fallback_wide_linearizable_below_2_62_steps"
   ],
   "note": ""
  },
  {
   "property": "C03",
   "status": "proved",
   "theorems": [
    "C03_narrow_needs_2_63_writes",
    "C03_wide_needs_2_63_minus_2_31_writes",
    "C03_narrow_bound_is_exact",
    "C03_wide_bound_is_exact"
   ],
   "note": ""
  },
  {
   "property": "C04",
   "status": "proved",
   "theorems": [
    "C04_non_writing_calls_change_nothing",
    "C04_only_writers_write"
   ],
   "note": ""
  },
  {
   "property": "C05",
   "status": "proved",
   "theorems": [
    "C05_only_own_variable_changes",
    "C05_nothing_outside_is_written",
    "C05_lock_index_in_table"
   ],
   "note": ""
  },
  {
   "property": "C06",
   "status": "proved",
   "theorems": [
    "C06_fair_some_call_returns",
    "C06_fair_all_calls_return",
    "C06_fair_holder_returns",
    "C06_holder_releases",
    "C06_holder_never_waits",
    "C06_all_pending_calls_can_complete",
    "C06_no_lock_leaked"
   ],
   "note": ""
  },
  {
   "property": "C07",
   "status": "proved",
   "theorems": [
    "C07_no_data_race"
   ],
   "note": ""
  },
  {
   "property": "C08",
   "status": "proved",
   "theorems": [
    "C08_x86_any_ordering",
    "C08_s390x_any_ordering",
    "C08_power_any_ordering",
    "C08_aarch64_any_ordering",
    "C08_riscv_any_ordering",
    "C08_kuser_any_ordering",
    "C08_intrinsics_any_ordering",
    "C08_core_any_ordering",
    "C08_types_any_ordering",
    "C08_riscv_amo_any_ordering",
    "C08_interrupt_any_ordering",
    "C08_critical_section_any_ordering",
    "C08_esp_any_ordering",
    "C08_bytes_panic_at_once",
    "C08_never_stuck",
    "C08_total",
    "C08_panics_at_once",
    "C08_only_forbidden_panics",
    "C08_load_panics_iff",
    "C08_store_panics_iff",
    "C08_compare_exchange_panics_iff",
    "C08_fence_panics_iff",
    "C08_fence_strong"
   ],
   "note": "C08_*_any_ordering: with the ordering check in front of each function body, every history of every backend, including calls with forbidden orderings, is one in which exactly the forbidden calls panic and change nothing (EntrySpec.with_panics). The fallback machine has its checks built in (PropertiesFallback). The fence theorems cover the fences that do not simply forward to core."
  },
  {
   "property": "C09",
   "status": "proved",
   "theorems": [
    "C09_upgrade_covers_both",
    "C09_upgrade_is_least"
   ],
   "note": ""
  },
  {
   "property": "C10",
   "status": "proved",
   "theorems": [
    "C10_tables_load",
    "C10_tables_store",
    "C10_tables_rmw",
    "C10_tables_cas",
    "C10_x86",
    "C10_arm",
    "C10_seqcst_stays_seqcst",
    "C10_fallback_accepts"
   ],
   "note": ""
  },
  {
   "property": "C11",
   "status": "proved",
   "theorems": [
    "C11_aarch64_atomic",
    "C11_aarch64_never_stuck",
    "C11_aarch64_total",
    "C11_intrinsics_atomic",
    "C11_intrinsics_never_stuck",
    "C11_intrinsics_total",
    "C11_riscv_atomic",
    "C11_riscv_never_stuck",
    "C11_riscv_total",
    "C11_power_atomic",
    "C11_power_never_stuck",
    "C11_power_total",
    "C11_s390x_atomic",
    "C11_s390x_never_stuck",
    "C11_s390x_total",
    "C11_x86_atomic",
    "C11_x86_never_stuck",
    "C11_x86_total"
   ],
   "note": ""
  },
  {
   "property": "C12",
   "status": "proved",
   "theorems": [
    "C12_fetch_update_atomic",
    "C12_fetch_update_never_stuck",
    "C12_fetch_update_total",
    "C12_core_ops_total"
   ],
   "note": ""
  },
  {
   "property": "C13",
   "status": "proved",
   "theorems": [
    "C13_aarch64_lock_free",
    "C13_aarch64_solo",
    "C13_front_lock_free",
    "C13_front_solo",
    "C13_interrupt_wait_free",
    "C13_intrinsics_lock_free",
    "C13_intrinsics_solo",
    "C13_x86_lock_free",
    "C13_s390x_lock_free",
    "C13_power_lock_free",
    "C13_riscv_lock_free",
    "C13_kuser_lock_free",
    "C13_core_lock_free",
    "C13_x86_solo",
    "C13_s390x_solo",
    "C13_power_solo",
    "C13_riscv_solo",
    "C13_kuser_solo",
    "C13_core_solo",
    "C13_failures_bounded",
    "C13_two_attempts",
    "C13_write_completes",
    "C13_riscv_wait_free"
   ],
   "note": ""
  },
  {
   "property": "C14",
   "status": "proved",
   "theorems": [
    "C14_kuser_atomic",
    "C14_kuser_never_stuck",
    "C14_kuser_total"
   ],
   "note": ""
  },
  {
   "property": "C15",
   "status": "proved",
   "theorems": [
    "C15_x86_rmw_value"
   ],
   "note": ""
  },
  {
   "property": "C16",
   "status": "proved",
   "theorems": [
    "C16_s390x_rmw_value",
    "C16_s390x_extract_cc"
   ],
   "note": ""
  },
  {
   "property": "C17",
   "status": "proved",
   "theorems": [
    "C17_riscv_access",
    "C17_riscv_served",
    "C17_riscv_atomic",
    "C17_riscv_frame"
   ],
   "note": "RISC-V without Zabha (src/imp/riscv.rs), the user of the sub-word masks in this model; both endiannesses and register widths"
  },
  {
   "property": "C18",
   "status": "proved",
   "theorems": [
    "C18_bool_atomic",
    "C18_bool_byte",
    "C18_bool_total",
    "C18_never_stuck"
   ],
   "note": ""
  },
  {
   "property": "C19",
   "status": "proved",
   "theorems": [
    "C19_word_bool_atomic",
    "C19_cas_meaning",
    "C19_word_bool_no_cas"
   ],
   "note": ""
  },
  {
   "property": "C20",
   "status": "proved",
   "theorems": [
    "C20_interrupt_atomic",
    "C20_interrupt_frame",
    "C20_interrupt_never_stuck"
   ],
   "note": "one core, byte-granular plain accesses, handlers nested to any depth; NMIs, FIQs without portable_atomic_disable_fiq and the critical-section feature are outside the model (see DESIGN.md)"
  },
  {
   "property": "C21",
   "status": "proved",
   "theorems": [
    "C21_status_restored",
    "C21_stays_disabled",
    "C21_riscv_other_bits"
   ],
   "note": "every architecture of src/imp/interrupt; flag bits that ordinary instructions change anyway (side_bits) are excluded"
  },
  {
   "property": "C22",
   "status": "proved",
   "theorems": [
    "C22_neg_abs_atomic",
    "C22_neg_meaning",
    "C22_abs_meaning"
   ],
   "note": "bit-level atomicity for every schedule plus meaning of the stored bits as IEEE negation/absolute value (stdlib SpecFloat)"
  },
  {
   "property": "C23",
   "status": "proved",
   "theorems": [
    "C23_unit_exists",
    "C23_sum_rounded",
    "C23_float_atomic",
    "C23_float_total",
    "C23_cas_bits"
   ],
   "note": "float arithmetic is an oracle constrained to IEEE 754 (SpecFloat) results with arbitrary NaN bits; satisfiable by Flocq (C23_unit_exists, stdlib Reals axioms)"
  },
  {
   "property": "C24",
   "status": "proved",
   "theorems": [
    "C24_bits_atomic",
    "C24_bits_determined",
    "C24_bits_total"
   ],
   "note": ""
  },
  {
   "property": "C25",
   "status": "proved",
   "theorems": [
    "C25_ptr_atomic",
    "C25_provenance"
   ],
   "note": "provenance theorem covers the pointer-typed paths only; the usize path is documented by the crate as permissive-provenance and claims none"
  },
  {
   "property": "C26",
   "status": "proved",
   "theorems": [
    "C26_no_fetch_atomic",
    "C26_no_fetch_same"
   ],
   "note": ""
  },
  {
   "property": "C27",
   "status": "proved",
   "theorems": [
    "C27_one_answer",
    "C27_always_an_answer",
    "C27_constant_platform",
    "C27_wait_free",
    "C27_x86_flags",
    "C27_aa64reg_flags",
    "C27_aa64reg_consistent",
    "C27_auxv_aarch64_flags",
    "C27_power_flags",
    "C27_riscv_flags",
    "C27_other_os_flags"
   ],
   "note": "relaxed loads may return any value ever written (superset of C11 relaxed behaviours); only the compare-exchange obeys modification order. Flag functions of every src/imp/detect platform"
  },
  {
   "property": "C28",
   "status": "proved",
   "theorems": [
    "C28_x86_run",
    "C28_x86_supported",
    "C28_table_run",
    "C28_tables_consistent",
    "C28_x86_consistent",
    "C28_x86_no_mixing",
    "C28_always_implies_is"
   ],
   "note": ""
  },
  {
   "property": "C29",
   "status": "proved",
   "theorems": [
    "C29_fallback_no_data_race",
    "C29_fallback_no_tearing"
   ],
   "note": "view-based weak-memory machine (WeakMem.v); premise never_lapped: no optimistic load overlaps a full round of the version counter (always true below 2^63, resp. 2^32, steps)"
  },
  {
   "property": "C30",
   "status": "proved",
   "theorems": [
    "C30_fallback_refines_native",
    "C30_fallback_refines_native_below_2_63_steps",
    "C30_fallback_publishes",
    "C30_fallback_no_lost_update"
   ],
   "note": "refinement: every history of the code is a history of native acquire/release atomics; publication and no-lost-update are consequences"
  },
  {
   "property": "C31",
   "status": "proved",
   "theorems": [
    "C31_intrinsics_orderings",
    "C31_power_fences",
    "C31_power_sync_between",
    "C31_s390x_fences",
    "C31_aarch64_fences",
    "C31_x86_64_fences",
    "C31_riscv_zacas_fences",
    "C31_kuser_fences",
    "C31_riscv_amo_fences",
    "C31_arm_linux_fences"
   ],
   "note": "per backend: powerpc64, s390x, aarch64, x86_64, RISC-V Zacas, RISC-V AMO, kuser cmpxchg64, pre-v6 Arm Linux; core intrinsics (intrinsics.rs): the deciding access has exactly the requested ordering; preserved program order of each architecture as in TraceSpec.v (dependencies other than branch+isync are not used; which value a branch depends on is not tracked)"
  },
  {
   "property": "C32",
   "status": "proved",
   "theorems": [
    "C32_c_str",
    "C32_c_macro",
    "C32_old_compilers_refuted",
    "C32_old_compilers_weaker"
   ],
   "note": "C32_old_compilers_refuted: on compilers before 1.46 the crate only checks non-emptiness, as its comment says"
  },
  {
   "property": "C33",
   "status": "proved",
   "theorems": [
    "C33_riscv_cas",
    "C33_riscv_load",
    "C33_aarch64_lse128",
    "C33_aarch64_ldiapp",
    "C33_aarch64_stilp",
    "C33_aarch64_lsfe"
   ],
   "note": "texts parsed and decoded with formats transcribed from the ISA manuals (EncodeSpec.v), then executed; also the A64 .inst encodings"
  },
  {
   "property": "C34",
   "status": "proved",
   "theorems": [
    "C34_bounded",
    "C34_std_total"
   ],
   "note": ""
  },
  {
   "property": "C35",
   "status": "proved",
   "theorems": [
    "C35_aarch64_exclusive_value",
    "C35_aarch64_casp_value",
    "C35_aarch64_all_bodies"
   ],
   "note": "both loop kinds, both endiannesses; end-to-end atomic histories are C11_aarch64_*"
  },
  {
   "property": "C36",
   "status": "proved",
   "theorems": [
    "C36_power_rmw_value",
    "C36_power_test_cr0_eq"
   ],
   "note": ""
  },
  {
   "property": "C37",
   "status": "proved",
   "theorems": [
    "C37_aarch64_registers",
    "C37_power_registers",
    "C37_s390x_registers",
    "C37_x86_registers"
   ],
   "note": "operand lists transcribed from the asm! blocks; physical register allocation (lateout reuse) is the compiler's and not modelled"
  },
  {
   "property": "C38",
   "status": "proved",
   "theorems": [
    "C38_fallback_seqcst_visible",
    "C38_fallback_store_buffering",
    "C38_fallback_seqcst_linearizable"
   ],
   "note": "ScFenceGuard's fences; SeqCst fences exchange views through a global view"
  },
  {
   "property": "C39",
   "status": "proved",
   "theorems": [
    "C39_critical_section_atomic",
    "C39_no_race",
    "C39_section_restored",
    "C39_no_deadlock",
    "C39_frame"
   ],
   "note": "interleaving machine with byte-granular plain accesses; the critical-section implementation is modelled by its contract (mutual exclusion, nesting per thread); its memory ordering is not modelled"
  },
  {
   "property": "C40",
   "status": "proved",
   "theorems": [
    "C40_psram_atomic",
    "C40_external_never_native",
    "C40_panics_only_there",
    "C40_external_rmw_panics"
   ],
   "note": "core's operations on internal memory are atomic steps; on external memory its read-modify-writes are undefined in the model; endianness and byte orders of plain accesses are arbitrary"
  },
  {
   "property": "C41",
   "status": "proved",
   "theorems": [
    "C41_macros_defined_once",
    "C41_macro_definitions",
    "C41_names_resolve",
    "C41_no_duplicates",
    "C41_rejects_misuse",
    "C41_no_late_errors",
    "C41_miri_cmpxchg16b_refuted",
    "C41_macros_tell_types",
    "C41_has_or_no",
    "C41_cas_macro",
    "C41_availability",
    "C41_floats",
    "C41_locks_only_with_cas",
    "C41_interrupts_only_when_allowed",
    "C41_wide_instructions_guarded",
    "C41_no_locks_without_fallback"
   ],
   "note": "item level (modules, imports, types, macros), not methods inside types; facts about rustc's targets and build.rs are listed in ConfigTargets.v; one configuration is a counterexample (C41_miri_cmpxchg16b_refuted: Miri/TSan, nightly before 1.70, cmpxchg16b target feature) and is excepted in C41_names_resolve"
  },
  {
   "property": "C42",
   "status": "proved",
   "theorems": [
    "C42_no_panic",
    "C42_agrees_with_rustc",
    "C42_values_are_not_flags",
    "C42_allowed_features"
   ],
   "note": "compared with a model of the getopts algorithm and of rustc's option table written from rustc's documentation (RustflagsSpec.v); command lines with -h, -V or -- and @argfiles are outside (the code documents the latter)"
  },
  {
   "property": "C43",
   "status": "proved",
   "theorems": [
    "C43_no_panic",
    "C43_parse",
    "C43_unreadable",
    "C43_probe",
    "C43_probe_monotone",
    "C43_unknown_date"
   ],
   "note": "rustc_version (running the compiler) is not modelled: its output is the input"
  },
  {
   "property": "C44",
   "status": "proved",
   "theorems": [
    "C44_output",
    "C44_failure",
    "C44_target_features",
    "C44_last_flag_wins",
    "C44_declared",
    "C44_latest_stable",
    "C44_unknown_compiler",
    "C44_monotone",
    "C44_feature_gates",
    "C44_config_facts"
   ],
   "note": "what rustc and LLVM support since when, and which feature implies which, is the specification's table (BuildSpec.v), taken from build.rs's comments and rustc's target_features.rs; the vN.Na version features of aarch64 are outside, as in build.rs; rerun-if and warning lines are not modelled"
  },
  {
   "property": "C45",
   "status": "proved",
   "theorems": [
    "C45_priv_linearizable",
    "C45_priv_wide_linearizable",
    "C45_priv_no_data_race",
    "C45_priv_status_restored",
    "C45_priv_holder_runs",
    "C45_priv_waits_for_running",
    "C45_priv_single_core_never_waits",
    "C45_priv_all_pending_calls_can_complete",
    "C45_deadlock_without_privileged"
   ],
   "note": "sequentially consistent memory, as in C01; NMIs excluded; a handler's own status register at entry is arbitrary; linearizability below 2^63 (2^62 for the 32-bit stamps) steps as in C01/C02; completion is possibility (existence of a schedule without new calls), fairness is not modelled"
  },
  {
   "property": "C46",
   "status": "proved",
   "theorems": [
    "C46_aarch64_any_registers",
    "C46_aarch64_never_stuck",
    "C46_aarch64_other_registers",
    "C46_power_any_registers",
    "C46_power_never_stuck",
    "C46_power_other_registers",
    "C46_s390x_any_registers",
    "C46_s390x_never_stuck",
    "C46_s390x_other_registers"
   ],
   "note": "The rules for operands are those of the Rust reference: lateout may reuse an in register, two in operands of a register class may share one when their values are equal, nothing else shares; a class operand is not placed in an explicitly named register in use. compiled asg: the assignment is fixed per (address, operation). compiled_example shows such assignments exist for every call, with sharing; *_lateout_example and power_r0_example show that placements the declarations exclude go wrong."
  },
  {
   "property": "C47",
   "status": "proved",
   "theorems": [
    "C47_calls_are_legal",
    "C47_silent_system",
    "C47_linux_aarch64",
    "C47_bsd_aarch64",
    "C47_linux_power",
    "C47_bsd_power",
    "C47_aix_power",
    "C47_netbsd",
    "C47_openbsd",
    "C47_apple",
    "C47_illumos_fuchsia_windows",
    "C47_riscv_linux",
    "C47_cpuid_block",
    "C47_x86_64"
   ],
   "note": "The documented interfaces (struct layout of NetBSD's cpu_id, hwprobe pairs, sysctl copy-out, elf_aux_info, getisax, properties, RTLD_DEFAULT, register numbers of the RISC-V system call) are specified in OsSpec.v independently of the crate. memory_safe (the system writes only inside the announced buffer) is used by the exact theorems, not by C47_calls_are_legal. The cfg(test) parts and the 32-bit Arm detection (which sets no flag outside tests) are not modelled."
  },
  {
   "property": "C48",
   "status": "proved",
   "theorems": [
    "C48_layout",
    "C48_as_ptr",
    "C48_from_ptr",
    "C48_reinterpret",
    "C48_layout_all",
    "C48_views_atomic",
    "C48_bool_valid",
    "C48_views_solo",
    "C48_bits_total",
    "C48_view_roundtrip",
    "C48_life",
    "C48_owner_defined",
    "C48_new_into_inner",
    "C48_default"
   ],
   "note": "layout rules are Rust's for repr(C, align), repr(transparent) and UnsafeCell (LayoutModel.v); alignments of primitive types are a parameter (any power of two up to the size, legal_target); core's atomics are size-aligned as documented by std. Shared phases run the front-end code of FrontModel.v at word level; provenance is not modelled"
  },
  {
   "property": "C49",
   "status": "proved",
   "theorems": [
    "C49_any_backend",
    "C49_outside",
    "C49_follows",
    "C49_continues",
    "C49_x86",
    "C49_s390x",
    "C49_power",
    "C49_aarch64",
    "C49_riscv",
    "C49_kuser",
    "C49_intrinsics",
    "C49_core",
    "C49_all_types",
    "C49_fallback",
    "C49_fallback_final",
    "C49_interrupt",
    "C49_critical_section",
    "C49_psram"
   ],
   "note": "calls made inside d closures of thread t count as calls of an extra thread (t,d), so that nested calls need not be sequential (ClientSpec.v id); the program and closures are an arbitrary coinductive program; the composition is stated as: if the backend's machine can produce the history of backend calls of the run, then ...; on the fallback under the window condition of C01/C02"
  },
  {
   "property": "C50",
   "status": "proved",
   "theorems": [
    "C50_any_backend",
    "C50_offered",
    "C50_continues",
    "C50_x86",
    "C50_s390x",
    "C50_power",
    "C50_aarch64",
    "C50_riscv_zacas",
    "C50_kuser",
    "C50_intrinsics",
    "C50_core",
    "C50_fallback",
    "C50_fallback_final",
    "C50_riscv",
    "C50_interrupt",
    "C50_critical_section",
    "C50_psram",
    "C50_with_closures"
   ],
   "note": "Generic theorem for any linearizable integer backend (C50_any_backend) and one instance per backend, whose machines include the ordering checks of the entry points (C08), so calls with forbidden orderings and their panics are covered; C50_with_closures composes with C49. The single-instruction x86 bts/btr/btc and AArch64 LSFE variants are in C15-C24 (FrontModel)."
  },
  {
   "property": "C51",
   "status": "proved",
   "theorems": [
    "C51_x86",
    "C51_x86_continues",
    "C51_x86_code",
    "C51_x86_instructions_continue",
    "C51_power",
    "C51_power_continues",
    "C51_power_code",
    "C51_power_instructions_continue",
    "C51_riscv",
    "C51_riscv_continues",
    "C51_riscv_code",
    "C51_aarch64",
    "C51_aarch64_continues",
    "C51_aarch64_code",
    "C51_aarch64_registers",
    "C51_kuser",
    "C51_kuser_continues",
    "C51_kuser_code",
    "C51_public"
   ],
   "note": "Composes C08 (entry checks), C27/C28 (dispatch), C11/C12 (native code, different variants in one run) and C01/C02 (lock) into one theorem per architecture; C51_public puts C50 on top. Hypotheses: aarch64 detection is truthful (the CPU has what it reports; C47 is about the interfaces); the lock-based side has C02's bound on how often the lock is taken during one optimistic read. The zacas loops' inner compare_exchange is made directly instead of dispatched again (same answer, C28)."
  },
  {
   "property": "C52",
   "status": "proved",
   "theorems": [
    "C52_any_backend",
    "C52_any_strong_backend",
    "C52_undisturbed",
    "C52_x86",
    "C52_s390x",
    "C52_power",
    "C52_aarch64",
    "C52_riscv_zacas",
    "C52_kuser",
    "C52_intrinsics",
    "C52_core",
    "C52_fallback",
    "C52_riscv",
    "C52_interrupt",
    "C52_critical_section",
    "C52_psram"
   ],
   "note": "By a potential argument on C50's history with both levels: every further round has seen another value than the one before, so another thread's integer operation changed the variable in between; each public operation changes it at most once (it is atomic), and a load never. C52_any_backend needs only that the backend is atomic (C01-C12 etc.), so the bound holds on top of every one of them; retries inside a backend (LL/SC, compare-and-swap loops) are C13."
  },
  {
   "property": "C53",
   "status": "proved",
   "theorems": [
    "C53_no_others",
    "C53_covered",
    "C53_atomic",
    "C53_with_closures",
    "C53_locality"
   ],
   "note": "Puts C41 (configuration), C01, C02, C08, C11, C14-C17, C20, C35, C36, C39, C40 (machines), C51 (run-time choice), C50 (public layer) and C52 (retries) together. C53_covered: which module and machine each exported type gets, in every configuration. C53_atomic: parts of the history made by different modules' machines combine (C53_locality, linearizability is local, proved for any objects). Assumed: windows_ok for the lock (C03); the x86 single-instruction bit operations on core's atomics and LSFE floats are outside this theorem (layered_code; they are in C24 and C23); variables do not overlap."
  },
  {
   "property": "C54",
   "status": "proved",
   "theorems": [
    "C54_any_backend",
    "C54_any_strong_backend",
    "C54_undisturbed",
    "C54_undisturbed_once",
    "C54_x86",
    "C54_s390x",
    "C54_power",
    "C54_aarch64",
    "C54_riscv",
    "C54_kuser",
    "C54_intrinsics",
    "C54_core",
    "C54_all_types",
    "C54_fallback",
    "C54_interrupt",
    "C54_critical_section",
    "C54_psram",
    "C54_everywhere"
   ],
   "note": "EvalSpec counts closure calls on the events of C49's client model; proved by a potential argument over the automaton that the client refines (observations do not change the value, each call changes it at most once), for any backend with iface_ok, then per backend as in C49. few_evals_strong uses that compare_exchange_weak there fails only when the value differs. Interleavings are sequentially consistent; spurious failures are not counted as new values, and are allowed without bound where the specification allows them. C54_everywhere: programs that mix the exported types of any supported configuration (as in C53)."
  },
  {
   "property": "C55",
   "status": "proved",
   "theorems": [
    "C55_everywhere",
    "C55_any_backend",
    "C55_any_strong_backend",
    "C55_somebody_finishes",
    "C55_x86",
    "C55_s390x",
    "C55_power",
    "C55_aarch64",
    "C55_riscv",
    "C55_kuser",
    "C55_intrinsics",
    "C55_core",
    "C55_all_types",
    "C55_fallback",
    "C55_interrupt",
    "C55_critical_section",
    "C55_psram"
   ],
   "note": "For the retry loop of fetch_update around each backend's operations, as in C49 and C54; the termination of a single backend operation is the matter of C06, C13 and C52, and the fallback's operations do wait for each other. On backends where compare_exchange_weak may fail spuriously only the bound on new values is claimed. Interleavings are sequentially consistent. C55_everywhere: programs that mix the exported types of any supported configuration (as in C53)."
  },
  {
   "property": "C56",
   "status": "proved",
   "theorems": [
    "C56_everywhere",
    "C56_any_backend",
    "C56_any_strong_backend",
    "C56_somebody_returns",
    "C56_x86",
    "C56_s390x",
    "C56_power",
    "C56_aarch64",
    "C56_riscv_zacas",
    "C56_kuser",
    "C56_intrinsics",
    "C56_core",
    "C56_fallback",
    "C56_riscv",
    "C56_interrupt",
    "C56_critical_section",
    "C56_psram"
   ],
   "note": "The system-wide companion of C52, on the same layered model (C50): LayerProgressSpec's counts, proved by running C52's potential argument to the middle of the operation and starting it anew there. What is bounded is the number of integer operations; that each of those ends is the matter of C06 and C13 and of the hardware. The total bound is claimed only where weak compare_exchange never fails for no reason. Interleavings are sequentially consistent."
  },
  {
   "property": "C57",
   "status": "proved",
   "theorems": [
    "C57_implemented",
    "C57_any_backend",
    "C57_everywhere",
    "C57_from",
    "C57_serialized",
    "C57_errors"
   ],
   "note": "A layer on top of C50's public operations (the generic code-around-linearizable-operations theorem of LayerProofs). The value type's own formatter, serializer and parser are arbitrary functions; what user code reached from them does meanwhile is left out, as is unwinding from them. C57_everywhere composes it with C53, so the loads run on the backends' code; From and Deserialize are LifeModel's `new` (C48)."
  }
 ]
}