(** * What an operating system is asked, and what it documents to answer

    Vocabulary and specification for C47 (run-time detection against any operating system).  Nothing here is
    taken from the crate: the layouts, numbers and error conventions are the documented ones of the systems. *)
From Coq Require Import String Ascii ZArith List Bool.
Import ListNotations.
Open Scope Z_scope.

(** ** Bytes *)
Definition byte (b : Z) : Prop := 0 <= b < 256.
(** The unsigned number stored in some bytes; [big]: most significant byte first. *)
Fixpoint num_le (bs : list Z) : Z := match bs with [] => 0 | b :: r => b + 256 * num_le r end.
Definition num (big : bool) (bs : list Z) : Z := num_le (if big then rev bs else bs).
(** The [n] bytes of a number. *)
Fixpoint enc_le (n : nat) (v : Z) : list Z := match n with O => [] | S k => v mod 256 :: enc_le k (v / 256) end.
Definition enc (big : bool) (n : nat) (v : Z) : list Z := if big then rev (enc_le n v) else enc_le n v.
(** The [n] bytes from offset [o]. *)
Definition sub (o n : nat) (bs : list Z) : list Z := firstn n (skipn o bs).
(** Two's complement reading of an [n]-byte number. *)
Definition signed (n : Z) (v : Z) : Z := if v <? 2 ^ (8 * n - 1) then v else v - 2 ^ (8 * n).

Definition chars (s : string) : list Z := map (fun c => Z.of_nat (nat_of_ascii c)) (list_ascii_of_string s).
Definition c_string (s : string) : list Z := chars s ++ [0].
Definition is_c_string (bs : list Z) : Prop := exists s, bs = s ++ [0] /\ ~ In 0 s.
Definition starts_with (p s : list Z) : Prop := exists r, s = p ++ r.

(** ** Calls *)
Inductive fn_ptr := Linked | Ptr (p : Z).            (* bound by the linker, or a pointer value *)
Inductive os_call :=
| Dlsym (handle : Z) (symbol : list Z)
| Getauxval (f : fn_ptr) (type : Z)
| Elf_aux_info (f : fn_ptr) (aux : Z) (buf : list Z) (buf_len : Z)
| System_property_get (name : list Z) (value : list Z)
| Sysctlbyname (name : list Z) (old : list Z) (old_len : Z) (new_p new_len : Z)
| Sysctl (name : list Z) (name_len : Z) (old : list Z) (old_len : Z) (new_p new_len : Z)
| Getisax (array : list Z) (n : Z)
| Zx_system_get_features (kind : Z) (features : list Z)
| Is_processor_feature_present (feature : Z)
| Getsystemcfg (name : Z)
| Ecall (regs : string -> option Z) (buf_at : Z) (buf : list Z)   (* a RISC-V system call: the registers, and the memory at [buf_at] *)
| Libc_syscall (number : Z) (buf : list Z) (args : list Z)        (* syscall(number, &buf, args...) *)
| Xgetbv (xcr : Z).                                               (* the x86 instruction *)

(** What comes back: the returned value, the buffer afterwards and, for the sysctls, the length written back. *)
Record answer := mk_answer { a_ret : Z; a_buf : list Z; a_len : Z }.

(** The memory a call may write: the buffer and how many of its bytes the callee was told it may use.
    (A property value is at most PROP_VALUE_MAX = 92 bytes with its terminator; a hwprobe pair is 16 bytes.) *)
Definition buffer_of (c : os_call) : option (list Z * Z) :=
  match c with
  | Elf_aux_info _ _ b n | Sysctlbyname _ b n _ _ | Sysctl _ _ b n _ _ => Some (b, n)
  | System_property_get _ b => Some (b, 92)
  | Getisax b n => Some (b, 4 * n)
  | Zx_system_get_features _ b => Some (b, 4)
  | Ecall r _ b => Some (b, 16 * match r "a1"%string with Some n => n | None => 0 end)
  | Libc_syscall _ b args => Some (b, 16 * nth 0 args 0)
  | _ => None
  end.

(** The least one expects of any system: it does not write where it was not told to. *)
Definition memory_safe (c : os_call) (a : answer) : Prop :=
  match buffer_of c with
  | Some (b, n) => length (a_buf a) = length b /\ Forall byte (a_buf a) /\
                   skipn (Z.to_nat n) (a_buf a) = skipn (Z.to_nat n) b
  | None => True
  end.

(** What the caller must observe: strings are C strings, the declared room is there, nothing is written
    through the "new value" arguments, no null function pointer is called. *)
Definition call_ok (c : os_call) : Prop :=
  match buffer_of c with Some (b, n) => 0 <= n <= Z.of_nat (length b) | None => True end /\
  match c with
  | Dlsym _ s => is_c_string s
  | Getauxval f _ | Elf_aux_info f _ _ _ => f <> Ptr 0
  | System_property_get s _ => is_c_string s
  | Sysctlbyname s _ _ np nl => is_c_string s /\ np = 0 /\ nl = 0
  | Sysctl mib n _ _ np nl => n = Z.of_nat (length mib) /\ np = 0 /\ nl = 0
  | Ecall r at_ _ => r "a0"%string = Some at_
  | _ => True
  end.

(** How each call reports that there is nothing to tell. *)
Definition failed (c : os_call) (a : answer) : Prop :=
  match c with
  | Dlsym _ _ | Getauxval _ _ | Is_processor_feature_present _ => a_ret a = 0
  | Elf_aux_info _ _ b _ => a_ret a <> 0 /\ a_buf a = b
  | System_property_get _ _ => a_ret a = 0
  | Sysctl _ _ _ _ _ _ => a_ret a = -1
  | Sysctlbyname _ _ _ _ _ | Zx_system_get_features _ _ | Ecall _ _ _ | Libc_syscall _ _ _ => a_ret a <> 0
  | Getisax b _ => a_buf a = b
  | Getsystemcfg _ => a_ret a = 2 ^ 64 - 1
  | Xgetbv _ => True
  end.

(** ** Programs that talk to the system *)
Inductive prog :=
| Done (info : Z)
| Call (c : os_call) (k : answer -> prog)
| DebugAssert (b : bool) (k : prog).
Inductive result := Returned (info : Z) | Panicked.
(** All the executions against a system that may give any answer allowed by [os], at each call anew. *)
Inductive runs (debug : bool) (os : os_call -> answer -> Prop) : prog -> list os_call -> result -> Prop :=
| run_done : forall i, runs debug os (Done i) [] (Returned i)
| run_call : forall c a k tr r, os c a -> runs debug os (k a) tr r -> runs debug os (Call c k) (c :: tr) r
| run_assert : forall b k tr r, (debug = true -> b = true) -> runs debug os k tr r -> runs debug os (DebugAssert b k) tr r
| run_panic : forall k, debug = true -> runs debug os (DebugAssert false k) [] Panicked.

(** ** The documented systems *)

(** Linux and Android: the auxiliary vector, the symbols the dynamic linker can find and the property ro.arch. *)
Record linux_world := mk_linux {
  lw_auxv : Z -> option Z;             (* AT_* -> value *)
  lw_symbol : list Z -> Z;             (* 0: not found *)
  lw_rtld_default : Z;                 (* dlfcn.h: 0, and -1 (as an address) on 32-bit Android *)
  lw_ro_arch : option (list Z) }.      (* the characters *)
Definition linux_doc (w : linux_world) (c : os_call) (a : answer) : Prop :=
  memory_safe c a /\
  match c with
  | Dlsym h s => h = lw_rtld_default w -> a_ret a = lw_symbol w s
  | Getauxval f t =>
      f = Linked \/ f = Ptr (lw_symbol w (c_string "getauxval")) ->
      a_ret a = match lw_auxv w t with Some v => v | None => 0 end
  | System_property_get n b =>
      n = c_string "ro.arch" ->
      match lw_ro_arch w with
      | Some s => a_ret a = Z.of_nat (length s) /\ firstn (S (length s)) (a_buf a) = s ++ [0]
      | None => a_ret a = 0
      end
  | _ => True
  end.
(** A property value is at most 91 characters, none of them NUL. *)
Definition linux_ok (w : linux_world) : Prop :=
  match lw_ro_arch w with Some s => (length s <= 91)%nat /\ Forall (fun b => 0 < b < 256) s | None => True end.

(** What the process can learn: nothing (0) if there is no such entry or the function cannot be found. *)
Definition linux_aux (w : linux_world) (linked : bool) (t : Z) : Z :=
  if linked || negb (lw_symbol w (c_string "getauxval") =? 0)
  then match lw_auxv w t with Some v => v | None => 0 end else 0.

(** FreeBSD and OpenBSD elf_aux_info: 0 and the value, or an error and the buffer as it was. *)
Record bsd_world := mk_bsd { bw_auxv : Z -> option Z; bw_symbol : list Z -> Z; bw_rtld_default : Z }.
Definition bsd_doc (big : bool) (long : nat) (w : bsd_world) (c : os_call) (a : answer) : Prop :=
  memory_safe c a /\
  match c with
  | Dlsym h s => h = bw_rtld_default w -> a_ret a = bw_symbol w s
  | Elf_aux_info f x b n =>
      f = Linked \/ f = Ptr (bw_symbol w (c_string "elf_aux_info")) ->
      match bw_auxv w x with
      | Some v => if n =? Z.of_nat long then a_ret a = 0 /\ firstn long (a_buf a) = enc big long v
                  else a_ret a <> 0 /\ a_buf a = b
      | None => a_ret a <> 0 /\ a_buf a = b
      end
  | _ => True
  end.

Definition bsd_ok (long : nat) (w : bsd_world) : Prop :=
  forall t v, bw_auxv w t = Some v -> 0 <= v < 2 ^ (8 * Z.of_nat long).
Definition bsd_aux (w : bsd_world) (linked : bool) (t : Z) : Z :=
  if linked || negb (bw_symbol w (c_string "elf_aux_info") =? 0)
  then match bw_auxv w t with Some v => v | None => 0 end else 0.

(** sysctl(3), sysctlbyname(3) reading a variable whose value is some bytes: copied if there is room. *)
Definition sysctl_read (value : option (list Z)) (room : Z) (a : answer) : Prop :=
  match value with
  | Some v => if Z.of_nat (length v) <=? room
              then a_ret a = 0 /\ firstn (length v) (a_buf a) = v /\ a_len a = Z.of_nat (length v)
              else a_ret a = -1
  | None => a_ret a = -1
  end.
Definition sysctlbyname_doc (value : list Z -> option (list Z)) (c : os_call) (a : answer) : Prop :=
  memory_safe c a /\
  match c with Sysctlbyname n _ room 0 0 => sysctl_read (value n) room a | _ => True end.
Definition sysctl_doc (value : list Z -> option (list Z)) (c : os_call) (a : answer) : Prop :=
  memory_safe c a /\
  match c with Sysctl mib n _ room 0 0 => n = Z.of_nat (length mib) -> sysctl_read (value mib) room a | _ => True end.

(** NetBSD, machine/armreg.h, struct aarch64_sysctl_cpu_id: the id registers in the order of the header (the
    last three entries only since NetBSD 10.0). *)
Record netbsd_cpu := mk_netbsd {
  nb_midr : Z; nb_revidr : Z; nb_mpidr : Z; nb_dfr0 : Z; nb_dfr1 : Z; nb_isar0 : Z; nb_isar1 : Z;
  nb_mmfr0 : Z; nb_mmfr1 : Z; nb_mmfr2 : Z; nb_pfr0 : Z; nb_pfr1 : Z; nb_zfr0 : Z;
  nb_mvfr0 : Z; nb_mvfr1 : Z; nb_mvfr2 : Z; nb_pad : Z; nb_clidr : Z; nb_ctr : Z }.
Definition netbsd_struct (big netbsd10 : bool) (r : netbsd_cpu) : list Z :=
  concat (map (enc big 8) [nb_midr r; nb_revidr r; nb_mpidr r; nb_dfr0 r; nb_dfr1 r; nb_isar0 r; nb_isar1 r;
                           nb_mmfr0 r; nb_mmfr1 r; nb_mmfr2 r; nb_pfr0 r; nb_pfr1 r; nb_zfr0 r]) ++
  concat (map (enc big 4) [nb_mvfr0 r; nb_mvfr1 r; nb_mvfr2 r; nb_pad r]) ++
  (if netbsd10 then concat (map (enc big 8) [nb_clidr r; nb_ctr r]) else []).

(** illumos getisax(2): the first words of the hardware capability array, as many as there are and fit. *)
Definition illumos_doc (big : bool) (words : list Z) (c : os_call) (a : answer) : Prop :=
  memory_safe c a /\
  match c with
  | Getisax b n => a_ret a = Z.of_nat (length words) /\
      let copied := firstn (Z.to_nat n) words in
      a_buf a = concat (map (enc big 4) copied) ++ skipn (4 * length copied) b
  | _ => True
  end.

(** Fuchsia zx_system_get_features(kind, &features): kind 0 is the CPU. *)
Definition fuchsia_doc (big : bool) (cpu_features : option Z) (c : os_call) (a : answer) : Prop :=
  memory_safe c a /\
  match c with
  | Zx_system_get_features 0 b =>
      match cpu_features with Some v => a_ret a = 0 /\ firstn 4 (a_buf a) = enc big 4 v | None => a_ret a <> 0 end
  | _ => True
  end.

Definition windows_doc (present : Z -> bool) (c : os_call) (a : answer) : Prop :=
  match c with Is_processor_feature_present f => (a_ret a <> 0 <-> present f = true) | _ => True end.
(** AIX: SC_IMPL = 2. *)
Definition aix_doc (impl : Z) (c : os_call) (a : answer) : Prop :=
  match c with Getsystemcfg 2 => a_ret a = impl | _ => True end.

(** RISC-V Linux, Documentation/arch/riscv/hwprobe.rst: system call 258; a7 holds the number, a0-a4 the
    arguments (pairs, pair_count, cpusetsize, cpus, flags); a0 the result.  Each pair is an int64 key and a
    uint64 value; an unknown key is replaced by -1 and its value by 0.  [None]: no such system call. *)
Definition hwprobe_pairs (big : bool) (known : Z -> option Z) (n : nat) (b : list Z) : list Z :=
  concat (map (fun i =>
    let key := signed 8 (num big (sub (16 * i) 8 b)) in
    match known key with
    | Some v => enc big 8 key ++ enc big 8 v
    | None => enc big 8 (-1) ++ enc big 8 0
    end) (seq 0 n)).
Definition hwprobe_done (big : bool) (kernel : option (Z -> option Z)) (count : Z) (b : list Z) (a : answer) : Prop :=
  match kernel with
  | Some known => a_ret a = 0 /\ firstn (16 * Z.to_nat count) (a_buf a) = hwprobe_pairs big known (Z.to_nat count) b
  | None => a_ret a < 0
  end.
Definition riscv_doc (big : bool) (kernel : option (Z -> option Z)) (c : os_call) (a : answer) : Prop :=
  memory_safe c a /\
  match c with
  | Ecall r at_ b =>
      forall count, r "a7"%string = Some 258 -> r "a0"%string = Some at_ -> r "a1"%string = Some count ->
        r "a2"%string = Some 0 -> r "a3"%string = Some 0 -> r "a4"%string = Some 0 ->
        hwprobe_done big kernel count b a
  | Libc_syscall 258 b [count; 0; 0; 0] => hwprobe_done big kernel count b a
  | _ => True
  end.

(** x86: XGETBV with ecx = 0 reads XCR0. *)
Definition x86_doc (xcr0 : Z) (c : os_call) (a : answer) : Prop :=
  match c with Xgetbv 0 => a_ret a = xcr0 | _ => True end.
