(** * Model of run-time CPU feature detection and of the [ifunc!] dispatch

    Sources: src/imp/detect/*.rs and [ifunc!] in src/utils.rs. *)
From Coq Require Import ZArith List Bool.
From Verif Require Import Spec OrderingModel DispatchModel.
Import ListNotations.
Open Scope Z_scope.

(** ** [CpuInfo] (src/imp/detect/common.rs:3-28): a u32 of flags *)
Definition cpu_set (x bit : Z) : Z := Z.lor x (Z.shiftl 1 bit).
Definition cpu_test (x bit : Z) : bool := negb (Z.land x (Z.shiftl 1 bit) =? 0).
(** [if c { info.set(flag) }] *)
Definition set_if (c : bool) (flag info : Z) : Z := if c then cpu_set info flag else info.

(** [flags!] (common.rs:73-118): [Init = 0] and then the listed flags in order, test-only ones included
    (attributes are not repeated on the enum).  aarch64: 123-194; powerpc64: 204-208; riscv: 211-219;
    x86_64: 222-229. *)
Definition Init : Z := 0.
Definition F_lse : Z := 1.
Definition F_lse2 : Z := 3.
Definition F_rcpc3 : Z := 5.
Definition F_lse128 : Z := 6.
Definition F_quadword_atomics : Z := 1.
Definition F_zacas : Z := 1.
Definition F_avx : Z := 1.
Definition F_cmpxchg16b : Z := 2.

(** ** The [_detect] functions: raw answers of the platform -> flags *)

(** x86_64.rs:54-86.  [ecx]: CPUID leaf 1; [xcr0]: only read when XSAVE and OSXSAVE are set; [sse]: cfg. *)
Definition x86_detect (sse : bool) (ecx xcr0 info : Z) : Z :=
  let info := set_if (cpu_test ecx 13) F_cmpxchg16b info in
  if sse then
    if cpu_test ecx 26 then
      if cpu_test ecx 27 then
        set_if ((Z.land xcr0 6 =? 6) && cpu_test ecx 28) F_avx info
      else info
    else info
  else info.

(** aarch64_aa64reg.rs:124-126. *)
Definition extract (x high low : Z) : Z := Z.land (Z.shiftr x low) (Z.shiftl 1 (high - low + 1) - 1).
(** aarch64_aa64reg.rs:54-122 (not test).  The registers come from [imp::aa64reg] (mrs, or sysctl with zeros
    when that fails: 138-182, 281-298, 351-362). *)
Definition aa64reg_detect (isar0 isar1 mmfr2 info : Z) : Z :=
  let atomic := extract isar0 23 20 in
  let info := if 2 <=? atomic then
                let info := cpu_set info F_lse in
                if 3 <=? atomic then cpu_set info F_lse128 else info
              else info in
  let info := set_if (3 <=? extract isar1 23 20) F_rcpc3 info in
  set_if (1 <=? extract mmfr2 35 32) F_lse2 info.

(** auxv.rs:582-630 (aarch64).  [exynos]: android and [ro.arch] starts with "exynos9810";
    [hwcap2]: [Some] except on OpenBSD and ILP32.  Constants: 517, 543, 552, 559. *)
Definition auxv_aarch64_detect (exynos : bool) (hwcap : Z) (hwcap2 : option Z) (info : Z) : Z :=
  let has x m := negb (Z.land x m =? 0) in
  let tail info :=
    let info := set_if (has hwcap (Z.shiftl 1 25)) F_lse2 info in
    match hwcap2 with
    | None => info
    | Some h => set_if (has h (Z.shiftl 1 47)) F_lse128 (set_if (has h (Z.shiftl 1 46)) F_rcpc3 info)
    end in
  if has hwcap (Z.shiftl 1 8) then
    if exynos then info else tail (cpu_set info F_lse)
  else tail info.

(** auxv.rs:725-760 (powerpc64).  Constants: 697-716. *)
Definition auxv_power_detect (hwcap hwcap2 info : Z) : Z :=
  if negb (Z.land hwcap 32768 =? 0) then info
  else set_if (negb (Z.land hwcap2 (Z.lor (Z.lor 2147483648 8388608) 262144) =? 0)) F_quadword_atomics info.

(** powerpc64_aix.rs:42-57 (constants 26-31); [impl_]: getsystemcfg(SC_IMPL). *)
Definition aix_detect (impl info : Z) : Z :=
  if impl =? 2 ^ 64 - 1 then info
  else set_if (negb (Z.land impl (Z.lor (Z.lor 65536 131072) 262144) =? 0)) F_quadword_atomics info.

(** riscv_linux.rs:127-155: the syscall's success, the keys and values it left in [out]. *)
Definition riscv_detect (ok : bool) (key0 value0 key1 value1 info : Z) : Z :=
  if ok && negb (key0 =? -1) && negb (Z.land value0 (Z.shiftl 1 0) =? 0) && negb (key1 =? -1)
  then set_if (negb (Z.land value1 (Z.shiftl 1 34) =? 0)) F_zacas info
  else info.

(** aarch64_windows.rs:48-65: IsProcessorFeaturePresent(34), (62). *)
Definition windows_detect (present : Z -> Z) (info : Z) : Z :=
  set_if (negb (present 62 =? 0)) F_lse2 (set_if (negb (present 34 =? 0)) F_lse info).
(** aarch64_fuchsia.rs:42-64: the status and the out parameter. *)
Definition fuchsia_detect (status features info : Z) : Z :=
  let features := if negb (status =? 0) then 0 else features in
  set_if (negb (Z.land features (Z.shiftl 1 8) =? 0)) F_lse info.
(** aarch64_illumos.rs:37-62. *)
Definition illumos_detect (v1 v2 info : Z) : Z :=
  set_if (negb (Z.land v2 (Z.shiftl 1 2) =? 0)) F_lse2 (set_if (negb (Z.land v1 (Z.shiftl 1 15) =? 0)) F_lse info).
(** aarch64_apple.rs:91-117: [sysctlbyname32] of the three names, [None] on error ([unwrap_or(0)]). *)
Definition apple_detect (feat_lse armv8_1 feat_lse2 : option Z) (info : Z) : Z :=
  let nz o := negb (match o with Some v => v | None => 0 end =? 0) in
  set_if (nz feat_lse2) F_lse2 (set_if (nz feat_lse || nz armv8_1) F_lse info).

(** ** [detect()] (common.rs:30-71) and [ifunc!] (src/utils.rs:56-79) as a concurrent machine

    The static [CACHE] and one static [FUNC] per call site are relaxed atomics.  The machine keeps, for each,
    the list of everything ever written to it (the initial value first), and a relaxed load may return *any*
    of these values, in any order, on any call: this includes every behaviour of C11 relaxed atomics (also
    reading old values after new ones, which coherence forbids).  Each call is an activity of its own, so
    nothing is assumed about the order of the calls of one thread.  Only the compare-exchange is required to
    succeed or fail according to the last write in modification order. *)
Section Detect.
  Variable site : Type.            (* the call sites of [ifunc!] *)
  Variable fn : Type.              (* the functions they can select *)
  Variable sel : site -> Z -> fn.  (* [$init_body]: the function for a detection result *)
  Variable env : Type.             (* what the platform answers to one [_detect] *)
  Variable _detect : env -> Z -> Z.
  Variable detect_false : bool.    (* cfg!(portable_atomic_test_detect_false) *)
  Variable use_cas : bool.         (* the cfg! of common.rs:42-57 *)

  (** Who asked: a call through [ifunc!] or a direct [detect()] (is_lock_free). *)
  Inductive asker := ForCall (s : site) | ForInfo.
  Inductive phase :=
  | NotStarted
  | LoadFunc (s : site)              (* utils.rs:72-74: FUNC.load *)
  | LoadCache (k : asker)            (* common.rs:35: CACHE.load *)
  | Detecting (k : asker) (info : Z) (* common.rs:36-43: info is 0 *)
  | Publish (k : asker) (info : Z)   (* common.rs:60 or 68 *)
  | StoreFunc (s : site) (f : fn)    (* utils.rs:65-66 *)
  | Exec (s : site) (f : fn)         (* utils.rs:68 and 78: the call *)
  | Finished.

  Inductive devent := Executed (id : nat) (s : site) (f : fn) | Detected (id : nat) (info : Z).

  Record dstate := mk_dstate {
    d_cache : list Z;                       (* every value written, oldest first *)
    d_func : site -> list (option fn);      (* [None]: the pointer to [init] *)
    d_call : nat -> phase;
    d_samples : list env                    (* ghost: the platform answers seen so far *) }.

  Definition dinit : dstate := mk_dstate [0] (fun _ => [None]) (fun _ => NotStarted) [].

  Inductive dlabel :=
  | Start (id : nat) (k : asker)
  | StepRead (id : nat) (choice : nat)      (* a relaxed load / failing compare-exchange returning the chosen write *)
  | StepEnv (id : nat) (e : env)            (* [_detect], with what the platform answered *)
  | Step (id : nat).                        (* anything else *)

  Definition set_call (s : dstate) (id : nat) (p : phase) : dstate :=
    mk_dstate (d_cache s) (d_func s) (fun i => if Nat.eqb i id then p else d_call s i) (d_samples s).

  (** common.rs:36-71 done with [info]: return it to whoever asked. *)
  Definition give (s : dstate) (id : nat) (k : asker) (info : Z) : dstate * list devent :=
    match k with
    | ForInfo => (set_call s id Finished, [Detected id info])
    | ForCall st => (set_call s id (StoreFunc st (sel st info)), [])
    end.

  Variable site_eqb : site -> site -> bool.

  Definition dstep (s : dstate) (l : dlabel) : option (dstate * list devent) :=
    match l with
    | Start id k =>
        match d_call s id with
        | NotStarted => Some (set_call s id (match k with ForCall st => LoadFunc st | ForInfo => LoadCache ForInfo end), [])
        | _ => None
        end
    | StepRead id n =>
        match d_call s id with
        | LoadFunc st =>
            match nth_error (d_func s st) n with
            | Some None => Some (set_call s id (LoadCache (ForCall st)), [])       (* calls [init] *)
            | Some (Some f) => Some (set_call s id (Exec st f), [])
            | None => None
            end
        | LoadCache k =>
            match nth_error (d_cache s) n with
            | Some info => if negb (info =? 0) then Some (give s id k info)        (* common.rs:36-38 *)
                           else Some (set_call s id (Detecting k info), [])
            | None => None
            end
        | Publish k info =>
            if use_cas then
              match nth_error (d_cache s) n with
              | Some other => if other =? 0 then None else Some (give s id k other) (* common.rs:62-65 *)
              | None => None
              end
            else None
        | _ => None
        end
    | StepEnv id e =>
        match d_call s id with
        | Detecting k info =>
            let info := cpu_set info Init in                                       (* common.rs:39 *)
            let info := if detect_false then info else _detect e info in           (* common.rs:42-44 *)
            Some (mk_dstate (d_cache s) (d_func s) (fun i => if Nat.eqb i id then Publish k info else d_call s i)
                    (e :: d_samples s), [])
        | _ => None
        end
    | Step id =>
        match d_call s id with
        | Publish k info =>
            if use_cas then
              if last (d_cache s) 0 =? 0                                           (* common.rs:60-61 *)
              then Some (give (mk_dstate (d_cache s ++ [info]) (d_func s) (d_call s) (d_samples s)) id k info)
              else None
            else Some (give (mk_dstate (d_cache s ++ [info]) (d_func s) (d_call s) (d_samples s)) id k info)
        | StoreFunc st f =>
            Some (set_call (mk_dstate (d_cache s)
                     (fun st' => if site_eqb st' st then d_func s st' ++ [Some f] else d_func s st') (d_call s) (d_samples s))
                   id (Exec st f), [])
        | Exec st f => Some (set_call s id Finished, [Executed id st f])
        | _ => None
        end
    end.

  Fixpoint drun (s : dstate) (ls : list dlabel) : option (dstate * list devent) :=
    match ls with
    | [] => Some (s, [])
    | l :: ls' =>
        match dstep s l with
        | Some (s', ev) => match drun s' ls' with Some (s'', ev') => Some (s'', ev ++ ev') | None => None end
        | None => None
        end
    end.
End Detect.

(** ** The x86_64 call sites (src/imp/atomic128/x86_64.rs: [atomic_load] 315-367, [atomic_store] 424-500,
    [atomic_compare_exchange] 516-543, [select_atomic_rmw!] 873-913); the table itself is DispatchModel.v. *)
Inductive wide_site := SiteLoad (o : ordering) | SiteStore (o : ordering) | SiteCas (s f : ordering) | SiteRmw (o : ordering).
Inductive wide_fn := LoadStoreFn (i : option x86_impl) | RmwFn (i : x86_impl) | CasFn (i : x86_cas_impl).
(** common.rs:73-92: the accessors [avx()] / [cmpxchg16b()]. *)
Definition x86_env_of (ct_cx16 ct_avx ct_sse : bool) (info : Z) : x86_env :=
  mk_x86 ct_cx16 ct_avx ct_sse false (cpu_test info F_cmpxchg16b) (cpu_test info F_avx).
Definition x86_sel (ct_cx16 ct_avx ct_sse : bool) (s : wide_site) (info : Z) : wide_fn :=
  let e := x86_env_of ct_cx16 ct_avx ct_sse info in
  match s with
  | SiteLoad o => LoadStoreFn (x86_load e o)
  | SiteStore o => LoadStoreFn (x86_store e o)
  | SiteCas a b => CasFn (x86_cas e a b)
  | SiteRmw o => RmwFn (x86_rmw e o)
  end.
(** The powerpc64 and RISC-V call sites (powerpc64.rs:196-474, 843-927; riscv64.rs:109-290, 378-485;
    riscv32.rs likewise); [flag] is quadword_atomics or zacas (both 1). *)
Inductive table_fn := TargetFn (t : option target) | TargetCasFn (t : option cas_target).
Definition table_sel (ct : bool) (flag : Z) (s : wide_site) (info : Z) : table_fn :=
  let det := cpu_test info flag in
  match s with
  | SiteLoad o => TargetFn (table_load ct det o)
  | SiteStore o => TargetFn (table_store ct det o)
  | SiteCas a b => TargetCasFn (table_cas ct det a b)
  | SiteRmw o => TargetFn (table_rmw ct det o)
  end.
