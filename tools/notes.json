{
 "C01": {
  "note": "interleaving (sequentially consistent) machine; weak memory is C29/C30"
 },
 "C25": {
  "note": "provenance theorem covers the pointer-typed paths only; the usize path is documented by the crate as permissive-provenance and claims none"
 },
 "C22": {
  "note": "bit-level atomicity for every schedule plus meaning of the stored bits as IEEE negation/absolute value (stdlib SpecFloat)"
 },
 "C23": {
  "note": "float arithmetic is an oracle constrained to IEEE 754 (SpecFloat) results with arbitrary NaN bits; satisfiable by Flocq (C23_unit_exists, stdlib Reals axioms)"
 },
 "C17": {
  "note": "RISC-V without Zabha (src/imp/riscv.rs), the user of the sub-word masks in this model; both endiannesses and register widths"
 },
 "C20": {
  "note": "one core, byte-granular plain accesses, handlers nested to any depth; NMIs, FIQs without portable_atomic_disable_fiq and the critical-section feature are outside the model (see DESIGN.md)"
 },
 "C21": {
  "note": "every architecture of src/imp/interrupt; flag bits that ordinary instructions change anyway (side_bits) are excluded"
 },
 "C27": {
  "note": "relaxed loads may return any value ever written (superset of C11 relaxed behaviours); only the compare-exchange obeys modification order. Flag functions of every src/imp/detect platform"
 },
 "C32": {
  "note": "C32_old_compilers_refuted: on compilers before 1.46 the crate only checks non-emptiness, as its comment says"
 },
 "C33": {
  "note": "texts parsed and decoded with formats transcribed from the ISA manuals (EncodeSpec.v), then executed; also the A64 .inst encodings"
 },
 "C35": {
  "note": "both loop kinds, both endiannesses; end-to-end atomic histories are C11_aarch64_*"
 },
 "C37": {
  "note": "operand lists transcribed from the asm! blocks; physical register allocation (lateout reuse) is the compiler's and not modelled"
 },
 "C29": {
  "note": "view-based weak-memory machine (WeakMem.v); premise never_lapped: no optimistic load overlaps a full round of the version counter (always true below 2^63, resp. 2^32, steps)"
 },
 "C30": {
  "note": "refinement: every history of the code is a history of native acquire/release atomics; publication and no-lost-update are consequences"
 },
 "C38": {
  "note": "ScFenceGuard's fences; SeqCst fences exchange views through a global view"
 },
 "C31": {
  "note": "per backend: powerpc64, s390x, aarch64, x86_64, RISC-V Zacas, RISC-V AMO, kuser cmpxchg64, pre-v6 Arm Linux; core intrinsics (intrinsics.rs): the deciding access has exactly the requested ordering; preserved program order of each architecture as in TraceSpec.v (dependencies other than branch+isync are not used; which value a branch depends on is not tracked)"
 },
 "C39": {
  "note": "interleaving machine with byte-granular plain accesses; the critical-section implementation is modelled by its contract (mutual exclusion, nesting per thread); its memory ordering is not modelled"
 },
 "C40": {
  "note": "core's operations on internal memory are atomic steps; on external memory its read-modify-writes are undefined in the model; endianness and byte orders of plain accesses are arbitrary"
 },
 "C41": {
  "note": "item level (modules, imports, types, macros), not methods inside types; facts about rustc's targets and build.rs are listed in ConfigTargets.v; one configuration is a counterexample (C41_miri_cmpxchg16b_refuted: Miri/TSan, nightly before 1.70, cmpxchg16b target feature) and is excepted in C41_names_resolve"
 },
 "C42": {
  "note": "compared with a model of the getopts algorithm and of rustc's option table written from rustc's documentation (RustflagsSpec.v); command lines with -h, -V or -- and @argfiles are outside (the code documents the latter)"
 },
 "C43": {
  "note": "rustc_version (running the compiler) is not modelled: its output is the input"
 },
 "C44": {
  "note": "what rustc and LLVM support since when, and which feature implies which, is the specification's table (BuildSpec.v), taken from build.rs's comments and rustc's target_features.rs; the vN.Na version features of aarch64 are outside, as in build.rs; rerun-if and warning lines are not modelled"
 },
 "C45": {
  "note": "sequentially consistent memory, as in C01; NMIs excluded; a handler's own status register at entry is arbitrary; linearizability below 2^63 (2^62 for the 32-bit stamps) steps as in C01/C02; completion is possibility (existence of a schedule without new calls), fairness is not modelled"
 },
 "C08": {
  "note": "C08_*_any_ordering: with the ordering check in front of each function body, every history of every backend, including calls with forbidden orderings, is one in which exactly the forbidden calls panic and change nothing (EntrySpec.with_panics). The fallback machine has its checks built in (PropertiesFallback). The fence theorems cover the fences that do not simply forward to core."
 },
 "C46": {
  "note": "The rules for operands are those of the Rust reference: lateout may reuse an in register, two in operands of a register class may share one when their values are equal, nothing else shares; a class operand is not placed in an explicitly named register in use. compiled asg: the assignment is fixed per (address, operation). compiled_example shows such assignments exist for every call, with sharing; *_lateout_example and power_r0_example show that placements the declarations exclude go wrong."
 },
 "C47": {
  "note": "The documented interfaces (struct layout of NetBSD's cpu_id, hwprobe pairs, sysctl copy-out, elf_aux_info, getisax, properties, RTLD_DEFAULT, register numbers of the RISC-V system call) are specified in OsSpec.v independently of the crate. memory_safe (the system writes only inside the announced buffer) is used by the exact theorems, not by C47_calls_are_legal. The cfg(test) parts and the 32-bit Arm detection (which sets no flag outside tests) are not modelled."
 },
 "C48": {
  "note": "layout rules are Rust's for repr(C, align), repr(transparent) and UnsafeCell (LayoutModel.v); alignments of primitive types are a parameter (any power of two up to the size, legal_target); core's atomics are size-aligned as documented by std. Shared phases run the front-end code of FrontModel.v at word level; provenance is not modelled"
 },
 "C49": {
  "note": "calls made inside d closures of thread t count as calls of an extra thread (t,d), so that nested calls need not be sequential (ClientSpec.v id); the program and closures are an arbitrary coinductive program; the composition is stated as: if the backend's machine can produce the history of backend calls of the run, then ...; on the fallback under the window condition of C01/C02"
 },
 "C50": {
  "note": "Generic theorem for any linearizable integer backend (C50_any_backend) and one instance per backend, whose machines include the ordering checks of the entry points (C08), so calls with forbidden orderings and their panics are covered; C50_with_closures composes with C49. The single-instruction x86 bts/btr/btc and AArch64 LSFE variants are in C15-C24 (FrontModel)."
 },
 "C51": {
  "note": "Composes C08 (entry checks), C27/C28 (dispatch), C11/C12 (native code, different variants in one run) and C01/C02 (lock) into one theorem per architecture; C51_public puts C50 on top. Hypotheses: aarch64 detection is truthful (the CPU has what it reports; C47 is about the interfaces); the lock-based side has C02's bound on how often the lock is taken during one optimistic read. The zacas loops' inner compare_exchange is made directly instead of dispatched again (same answer, C28)."
 },
 "C52": {
  "note": "By a potential argument on C50's history with both levels: every further round has seen another value than the one before, so another thread's integer operation changed the variable in between; each public operation changes it at most once (it is atomic), and a load never. C52_any_backend needs only that the backend is atomic (C01-C12 etc.), so the bound holds on top of every one of them; retries inside a backend (LL/SC, compare-and-swap loops) are C13."
 },
 "C53": {
  "note": "Puts C41 (configuration), C01, C02, C08, C11, C14-C17, C20, C35, C36, C39, C40 (machines), C51 (run-time choice), C50 (public layer) and C52 (retries) together. C53_covered: which module and machine each exported type gets, in every configuration. C53_atomic: parts of the history made by different modules' machines combine (C53_locality, linearizability is local, proved for any objects). Assumed: windows_ok for the lock (C03); the x86 single-instruction bit operations on core's atomics and LSFE floats are outside this theorem (layered_code; they are in C24 and C23); variables do not overlap."
 },
 "C54": {
  "note": "EvalSpec counts closure calls on the events of C49's client model; proved by a potential argument over the automaton that the client refines (observations do not change the value, each call changes it at most once), for any backend with iface_ok, then per backend as in C49. few_evals_strong uses that compare_exchange_weak there fails only when the value differs. Interleavings are sequentially consistent; spurious failures are not counted as new values, and are allowed without bound where the specification allows them. C54_everywhere: programs that mix the exported types of any supported configuration (as in C53)."
 },
 "C55": {
  "note": "For the retry loop of fetch_update around each backend's operations, as in C49 and C54; the termination of a single backend operation is the matter of C06, C13 and C52, and the fallback's operations do wait for each other. On backends where compare_exchange_weak may fail spuriously only the bound on new values is claimed. Interleavings are sequentially consistent. C55_everywhere: programs that mix the exported types of any supported configuration (as in C53)."
 },
 "C56": {
  "note": "The system-wide companion of C52, on the same layered model (C50): LayerProgressSpec's counts, proved by running C52's potential argument to the middle of the operation and starting it anew there. What is bounded is the number of integer operations; that each of those ends is the matter of C06 and C13 and of the hardware. The total bound is claimed only where weak compare_exchange never fails for no reason. Interleavings are sequentially consistent."
 },
 "C57": {
  "note": "A layer on top of C50's public operations (the generic code-around-linearizable-operations theorem of LayerProofs). The value type's own formatter, serializer and parser are arbitrary functions; what user code reached from them does meanwhile is left out, as is unwinding from them. C57_everywhere composes it with C53, so the loads run on the backends' code; From and Deserialize are LifeModel's `new` (C48)."
 }
}