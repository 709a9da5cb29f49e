(** * Model of the platform calls of run-time detection

    Sources: src/imp/detect/*.rs (not the cfg(test) parts) and [c!] in src/utils.rs:821-831.  Every foreign call
    is a [Call] with the exact arguments; every [_detect] is the program it performs, from the first call to the
    flags.  Buffers are modelled as bytes, numbers in the byte order of the target.  [cfg]s are parameters. *)
From Coq Require Import String ZArith List Bool.
From Verif Require Import OsSpec DetectModel.
Import ListNotations.
Open Scope Z_scope.

(** [c!("...")] (utils.rs:821-831): the literal and a NUL. *)
Definition c (s : string) : list Z := chars s ++ [0].
(** [$x & $bit != 0] *)
Definition has (x bit : Z) : bool := negb (Z.land x bit =? 0).

(** ** auxv.rs *)

(** auxv.rs:205-210 (linux/android): [RTLD_DEFAULT]: null, or -1 as usize on 32-bit Android. *)
Definition rtld_default_linux (android32 : bool) : Z := if android32 then 2 ^ 32 - 1 else 0.
(** auxv.rs:290-331 [getauxval] (linux/android).  [linked]: the first cfg arm, otherwise through dlsym (314-326). *)
Definition linux_getauxval (linked android32 : bool) (type_ : Z) (k : Z -> prog) : prog :=
  let call f := Call (Getauxval f type_) (fun a => k (a_ret a)) in
  if linked then call Linked
  else Call (Dlsym (rtld_default_linux android32) (c "getauxval")) (fun a =>
         if a_ret a =? 0 then k 0 else call (Ptr (a_ret a))).
(** auxv.rs:388-390 (BSD): [RTLD_DEFAULT] = -2 as usize; [width]: of a pointer, in bits. *)
Definition rtld_default_bsd (width : Z) : Z := 2 ^ width - 2.
(** auxv.rs:444-491 [getauxval] over elf_aux_info.  [long]: size_of::<c_ulong>(). *)
Definition bsd_getauxval (big linked : bool) (long : nat) (aux : Z) (k : Z -> prog) : prog :=
  let call f :=
    Call (Elf_aux_info f aux (enc big long 0) (Z.of_nat long)) (fun a =>
      let out := num big (a_buf a) in
      DebugAssert ((a_ret a =? 0) || (out =? 0)) (k out)) in
  if linked then call Linked
  else Call (Dlsym (rtld_default_bsd (8 * Z.of_nat long)) (c "elf_aux_info")) (fun a =>
         if a_ret a =? 0 then k 0 else call (Ptr (a_ret a))).

(** auxv.rs:571-580 [system_property_get_ro_arch] (PROP_VALUE_MAX: 215) and 594-607 of [_detect]: [len > 0 && arch.starts_with(b"exynos9810")]. *)
Fixpoint slice_starts_with (p s : list Z) : bool :=
  match p, s with
  | [], _ => true
  | x :: p', y :: s' => (x =? y) && slice_starts_with p' s'
  | _, [] => false
  end.
Definition prop_value_max : nat := 92.
Definition exynos_check (k : bool -> prog) : prog :=
  Call (System_property_get (c "ro.arch") (repeat 0 prop_value_max)) (fun a =>
    k ((0 <? a_ret a) && slice_starts_with (chars "exynos9810") (a_buf a))).

(** auxv.rs:582-632 [_detect] (aarch64); constants 517, 543, 552, 559.  [getauxval]: the one of the system; [hwcap_ty], [hwcap2_ty]: [AT_HWCAP] and
    [AT_HWCAP2] there; [use_hwcap2]: the cfg of 617-619. *)
Definition auxv_aarch64 (getauxval : Z -> (Z -> prog) -> prog) (hwcap_ty hwcap2_ty : Z) (android use_hwcap2 : bool) (info : Z) : prog :=
  getauxval hwcap_ty (fun hwcap =>
    let rest info :=
      let info := set_if (has hwcap (Z.shiftl 1 25)) F_lse2 info in
      if use_hwcap2 then
        getauxval hwcap2_ty (fun hwcap2 =>
          let info := set_if (has hwcap2 (Z.shiftl 1 46)) F_rcpc3 info in
          Done (set_if (has hwcap2 (Z.shiftl 1 47)) F_lse128 info))
      else Done info in
    if has hwcap (Z.shiftl 1 8) then
      if android then exynos_check (fun e => if e then Done info else rest (cpu_set info F_lse))
      else rest (cpu_set info F_lse)
    else rest info).
(** auxv.rs:723-747 [_detect] (powerpc64); constants 698-720. *)
Definition auxv_power (getauxval : Z -> (Z -> prog) -> prog) (hwcap_ty hwcap2_ty : Z) (info : Z) : prog :=
  getauxval hwcap_ty (fun hwcap =>
    if has hwcap 32768 then Done info
    else getauxval hwcap2_ty (fun hwcap2 =>
           Done (set_if (has hwcap2 (Z.lor (Z.lor 2147483648 8388608) 262144)) F_quadword_atomics info))).

(** linux/android: [AT_HWCAP] = 16, [AT_HWCAP2] = 26 (162-168); FreeBSD/OpenBSD: 25 and 26 (351-357). *)
Definition linux_aarch64 (linked android : bool) (lp64 : bool) (info : Z) : prog :=
  auxv_aarch64 (linux_getauxval linked (android && negb lp64)) 16 26 android lp64 info.
Definition bsd_aarch64 (big linked openbsd : bool) (info : Z) : prog :=
  auxv_aarch64 (bsd_getauxval big linked 8) 25 26 false (negb openbsd) info.
Definition linux_power (linked : bool) (info : Z) : prog := auxv_power (linux_getauxval linked false) 16 26 info.
Definition bsd_power (big linked : bool) (info : Z) : prog := auxv_power (bsd_getauxval big linked 8) 25 26 info.

(** ** aarch64_aa64reg.rs *)

(** [#[repr(C)]]: each field at the next multiple of its size (all fields are u32 or u64); the size of the
    whole a multiple of the largest. *)
Definition align_up (o s : nat) : nat := ((o + s - 1) / s * s)%nat.
Fixpoint offset_of (fields : list (string * nat)) (o : nat) (name : string) : nat :=
  match fields with
  | [] => o
  | (f, s) :: r => if String.eqb f name then align_up o s else offset_of r (align_up o s + s) name
  end.
Fixpoint end_of (fields : list (string * nat)) (o : nat) : nat :=
  match fields with [] => o | (_, s) :: r => end_of r (align_up o s + s) end.
Definition size_of (fields : list (string * nat)) : nat := align_up (end_of fields 0) (fold_right Nat.max 1%nat (map snd fields)).

(** aarch64_aa64reg.rs:202-230: [aarch64_sysctl_cpu_id]. *)
Definition cpu_id_fields : list (string * nat) :=
  [("ac_midr", 8); ("ac_revidr", 8); ("ac_mpidr", 8); ("ac_aa64dfr0", 8); ("ac_aa64dfr1", 8); ("ac_aa64isar0", 8);
   ("ac_aa64isar1", 8); ("ac_aa64mmfr0", 8); ("ac_aa64mmfr1", 8); ("ac_aa64mmfr2", 8); ("ac_aa64pfr0", 8);
   ("ac_aa64pfr1", 8); ("ac_aa64zfr0", 8); ("ac_mvfr0", 4); ("ac_mvfr1", 4); ("ac_mvfr2", 4); ("ac_pad", 4);
   ("ac_clidr", 8); ("ac_ctr", 8)]%nat%string.
Definition field64 (big : bool) (buf : list Z) (name : string) : Z := num big (sub (offset_of cpu_id_fields 0 name) 8 buf).
(** aarch64_aa64reg.rs:248-279 [sysctl_cpu_id] and 281-299 [aa64reg] (NetBSD), then [_detect] 56-122. *)
Definition netbsd_sysctl_cpu_id (big : bool) (name : list Z) (k : option (Z * Z * Z) -> prog) : prog :=
  let n := size_of cpu_id_fields in
  Call (Sysctlbyname name (repeat 0 n) (Z.of_nat n) 0 0) (fun a =>
    if negb (a_ret a =? 0) then k None
    else k (Some (field64 big (a_buf a) "ac_aa64isar0", field64 big (a_buf a) "ac_aa64isar1", field64 big (a_buf a) "ac_aa64mmfr2"))).
Definition netbsd_aarch64 (big : bool) (info : Z) : prog :=
  netbsd_sysctl_cpu_id big (c "machdep.cpu0.cpu_id") (fun r =>
    let '(isar0, isar1, mmfr2) := match r with Some x => x | None => (0, 0, 0) end in
    Done (aa64reg_detect isar0 isar1 mmfr2 info)).
(** aarch64_aa64reg.rs:364-391 [sysctl64] and 351-362 [aa64reg] (OpenBSD); constants 314-330. *)
Definition openbsd_sysctl64 (big : bool) (mib : list Z) (k : option Z -> prog) : prog :=
  Call (Sysctl mib (Z.of_nat (length mib)) (enc big 8 0) 8 0 0) (fun a =>
    if a_ret a =? -1 then k None
    else DebugAssert (a_len a =? 8) (k (Some (num big (a_buf a))))).
Definition unwrap_or (o : option Z) (d : Z) : Z := match o with Some v => v | None => d end.
Definition openbsd_aarch64 (big : bool) (info : Z) : prog :=
  openbsd_sysctl64 big [7; 2] (fun isar0 => openbsd_sysctl64 big [7; 3] (fun isar1 =>
  openbsd_sysctl64 big [7; 7] (fun mmfr2 =>
    Done (aa64reg_detect (unwrap_or isar0 0) (unwrap_or isar1 0) (unwrap_or mmfr2 0) info)))).

(** ** aarch64_apple.rs: 66-89 [sysctlbyname32], 91-117 [_detect] ([||] does not ask again once true). *)
Definition apple_sysctlbyname32 (name : list Z) (k : option Z -> prog) : prog :=
  Call (Sysctlbyname name (enc false 4 0) 4 0 0) (fun a =>
    if negb (a_ret a =? 0) then k None
    else DebugAssert (a_len a =? 4) (k (Some (num false (a_buf a))))).
Definition apple_aarch64 (info : Z) : prog :=
  let lse2 info :=
    apple_sysctlbyname32 (c "hw.optional.arm.FEAT_LSE2") (fun v =>
      Done (set_if (negb (unwrap_or v 0 =? 0)) F_lse2 info)) in
  apple_sysctlbyname32 (c "hw.optional.arm.FEAT_LSE") (fun v1 =>
    if negb (unwrap_or v1 0 =? 0) then lse2 (cpu_set info F_lse)
    else apple_sysctlbyname32 (c "hw.optional.armv8_1_atomics") (fun v2 =>
           lse2 (set_if (negb (unwrap_or v2 0 =? 0)) F_lse info))).

(** ** aarch64_illumos.rs:37-62. *)
Definition illumos_aarch64 (big : bool) (info : Z) : prog :=
  Call (Getisax (repeat 0 8%nat) 2) (fun a =>
    let v1 := num big (sub 0 4 (a_buf a)) in
    let v2 := num big (sub 4 4 (a_buf a)) in
    Done (set_if (has v2 (Z.shiftl 1 2)) F_lse2 (set_if (has v1 (Z.shiftl 1 15)) F_lse info))).

(** ** aarch64_fuchsia.rs:41-49, 51-64. *)
Definition fuchsia_aarch64 (big : bool) (info : Z) : prog :=
  Call (Zx_system_get_features 0 (enc big 4 0)) (fun a =>
    let features := if negb (a_ret a =? 0) then 0 else num big (a_buf a) in
    Done (set_if (has features (Z.shiftl 1 8)) F_lse info)).

(** ** aarch64_windows.rs:47-64. *)
Definition windows_aarch64 (info : Z) : prog :=
  Call (Is_processor_feature_present 34) (fun a1 =>
    let info := set_if (negb (a_ret a1 =? 0)) F_lse info in
    Call (Is_processor_feature_present 62) (fun a2 => Done (set_if (negb (a_ret a2 =? 0)) F_lse2 info))).

(** ** powerpc64_aix.rs:42-57. *)
Definition aix_power (info : Z) : prog :=
  Call (Getsystemcfg 2) (fun a => Done (aix_detect (a_ret a) info)).

(** ** riscv_linux.rs *)
(** riscv_linux.rs:18-24 [riscv_hwprobe] (repr(C)). *)
Definition hwprobe_fields : list (string * nat) := [("key", 8); ("value", 8)]%nat%string.
Definition hwprobe_pair (big : bool) (key value : Z) : list Z := enc big 8 key ++ enc big 8 value.
(** [out[i].key], [out[i].value]. *)
Definition pair_key (big : bool) (b : list Z) (i : nat) : Z :=
  signed 8 (num big (sub (size_of hwprobe_fields * i + offset_of hwprobe_fields 0 "key") 8 b)).
Definition pair_value (big : bool) (b : list Z) (i : nat) : Z :=
  num big (sub (size_of hwprobe_fields * i + offset_of hwprobe_fields 0 "value") 8 b).
(** src/utils.rs:1196-1260 [asm_syscall!] (riscv) with five arguments: the registers at [ecall]. *)
Definition ecall_regs (number a1 a2 a3 a4 a5 : Z) (r : string) : option Z :=
  if String.eqb r "a7" then Some number else if String.eqb r "a0" then Some a1 else if String.eqb r "a1" then Some a2
  else if String.eqb r "a2" then Some a3 else if String.eqb r "a3" then Some a4 else if String.eqb r "a4" then Some a5 else None.
(** riscv_linux.rs:51-115 [syscall5], [__riscv_hwprobe]: [asm]: the cfg of 54-61; the value in a0 is returned as c_long (same width). *)
Definition riscv_syscall5 (asm : bool) (number : Z) (at_ : Z) (pairs : list Z) (count set_size cpus flags : Z) (k : answer -> prog) : prog :=
  if asm then Call (Ecall (ecall_regs number at_ count set_size cpus flags) at_ pairs) k
  else Call (Libc_syscall number pairs [count; set_size; cpus; flags]) k.
(** riscv_linux.rs:118-125 [riscv_hwprobe] and 127-154 [_detect]; [at_]: the address of [out]. *)
Definition riscv_linux (big asm : bool) (at_ : Z) (info : Z) : prog :=
  let out := hwprobe_pair big 3 0 ++ hwprobe_pair big 4 0 in
  riscv_syscall5 asm 258 at_ out 2 0 0 0 (fun a =>
    let ok := a_ret a =? 0 in
    let b := a_buf a in
    if ok && negb (pair_key big b 0 =? -1) && has (pair_value big b 0) (Z.shiftl 1 0) && negb (pair_key big b 1 =? -1)
    then Done (set_if (has (pair_value big b 1) (Z.shiftl 1 34)) F_zacas info)
    else Done info).

(** ** x86_64.rs *)
(** x86_64.rs:29-51 [__cpuid]: the three instructions on a register file.  [cpuid leaf subleaf]: eax, ebx, ecx, edx of
    the processor; the instruction reads the low halves of rax and rcx and zero-extends its results. *)
Inductive x86_reg := RAX | RBX | RCX | RDX | R8 | OtherReg (n : Z).
Definition reg_eqb (a b : x86_reg) : bool :=
  match a, b with
  | RAX, RAX | RBX, RBX | RCX, RCX | RDX, RDX | R8, R8 => true
  | OtherReg n, OtherReg m => n =? m
  | _, _ => false
  end.
Definition upd (r : x86_reg -> Z) (x : x86_reg) (v : Z) : x86_reg -> Z := fun y => if reg_eqb y x then v else r y.
Definition cpuid_instr (cpuid : Z -> Z -> Z * Z * Z * Z) (r : x86_reg -> Z) : x86_reg -> Z :=
  let '(a, b, c, d) := cpuid (r RAX mod 2 ^ 32) (r RCX mod 2 ^ 32) in
  upd (upd (upd (upd r RAX a) RBX b) RCX c) RDX d.
Definition cpuid_block (cpuid : Z -> Z -> Z * Z * Z * Z) (r0 : x86_reg -> Z) : x86_reg -> Z :=
  let r1 := upd r0 R8 (r0 RBX) in                        (* mov r8, rbx *)
  let r2 := cpuid_instr cpuid r1 in                      (* cpuid *)
  upd (upd r2 R8 (r2 RBX)) RBX (r2 R8).                  (* xchg r8, rbx *)
(** The operands: inout("eax") leaf, inout("ecx") 0; results eax, r8, ecx, edx as u32. *)
Definition cpuid_entry (leaf : Z) (r : x86_reg -> Z) : x86_reg -> Z := upd (upd r RAX leaf) RCX 0.
Definition __cpuid (cpuid : Z -> Z -> Z * Z * Z * Z) (leaf : Z) (r : x86_reg -> Z) : (Z * Z * Z * Z) * (x86_reg -> Z) :=
  let r' := cpuid_block cpuid (cpuid_entry leaf r) in
  ((r' RAX mod 2 ^ 32, r' R8 mod 2 ^ 32, r' RCX mod 2 ^ 32, r' RDX mod 2 ^ 32), r').
(** x86_64.rs:53-84 [_detect]; [sse]: cfg(target_feature = "sse"). *)
Definition x86_64 (sse : bool) (cpuid : Z -> Z -> Z * Z * Z * Z) (r : x86_reg -> Z) (info : Z) : prog :=
  let '((_, _, ecx, _), _) := __cpuid cpuid 1 r in
  let info := set_if (cpu_test ecx 13) F_cmpxchg16b info in
  if sse then
    if cpu_test ecx 26 then
      if cpu_test ecx 27 then
        Call (Xgetbv 0) (fun a =>
          Done (set_if ((Z.land (a_ret a) 6 =? 6) && cpu_test ecx 28) F_avx info))
      else Done info
    else Done info
  else Done info.

(** ** Every [_detect], as called by [detect()] (common.rs:39-43: with [Init] set). *)
Inductive platform :=
| LinuxAarch64 (linked android lp64 : bool) | BsdAarch64 (big linked openbsd : bool)
| LinuxPower (linked : bool) | BsdPower (big linked : bool) | NetbsdAarch64 (big : bool) | OpenbsdAarch64 (big : bool)
| AppleAarch64 | IllumosAarch64 (big : bool) | FuchsiaAarch64 (big : bool) | WindowsAarch64 | AixPower
| RiscvLinux (big asm : bool) (at_ : Z) | X86_64 (sse : bool) (cpuid : Z -> Z -> Z * Z * Z * Z) (r : x86_reg -> Z).
Definition program (p : platform) : prog :=
  let info := cpu_set 0 Init in
  match p with
  | LinuxAarch64 l a b => linux_aarch64 l a b info
  | BsdAarch64 b l o => bsd_aarch64 b l o info
  | LinuxPower l => linux_power l info
  | BsdPower b l => bsd_power b l info
  | NetbsdAarch64 b => netbsd_aarch64 b info
  | OpenbsdAarch64 b => openbsd_aarch64 b info
  | AppleAarch64 => apple_aarch64 info
  | IllumosAarch64 b => illumos_aarch64 b info
  | FuchsiaAarch64 b => fuchsia_aarch64 b info
  | WindowsAarch64 => windows_aarch64 info
  | AixPower => aix_power info
  | RiscvLinux b a p => riscv_linux b a p info
  | X86_64 s f r => x86_64 s f r info
  end.
