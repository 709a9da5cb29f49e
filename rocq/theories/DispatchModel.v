(** * Model of the run-time dispatch tables

    Which function, called with which ordering, serves a request; and whether it is the
    native or the lock-based implementation.  Sources: src/imp/atomic128/{x86_64,powerpc64,
    riscv64}.rs, src/imp/atomic64/{riscv32,arm_linux}.rs and the alias tables of
    src/imp/fallback/outline_atomics.rs.  The functions behind the tables are modelled in
    FallbackModel.v, CasLoopModel.v and the per-architecture files. *)
From Coq Require Import Bool.
From Verif Require Import Spec OrderingModel.

(** The implementation finally called and the ordering(s) it is called with. *)
Inductive target :=
| Native (o : ordering)
| Fallback (o : ordering).
Inductive cas_target :=
| NativeCas (success failure : ordering)
| FallbackCas (success failure : ordering).

(** outline_atomics.rs:60-67, 80-86, 106-116, 136-143 (and 160-167 for the two-argument form). *)
Definition atomic_load_non_seqcst := Fallback Acquire.
Definition atomic_load_seqcst := Fallback SeqCst.
Definition atomic_store_non_seqcst := Fallback Release.
Definition atomic_store_seqcst := Fallback SeqCst.
Definition atomic_compare_exchange_non_seqcst := FallbackCas AcqRel Acquire.
Definition atomic_compare_exchange_seqcst := FallbackCas SeqCst SeqCst.
Definition atomic_rmw_non_seqcst := Fallback AcqRel.
Definition atomic_rmw_seqcst := Fallback SeqCst.

(** [None]: [unreachable!()]. *)

(** ** powerpc64.rs:196-240 [atomic_load]; riscv64.rs:109-158 and riscv32.rs:111-160 are the same table
    with [zacas] for [quadword_atomics].  [ct]: the feature is enabled at compile time and the native
    function is called directly with the requested ordering(s); [det]: run-time detection says yes. *)
Definition table_load (ct det : bool) (order : ordering) : option target :=
  if ct then Some (Native order) else
  match order with
  | Relaxed => Some (if det then Native Relaxed else atomic_load_non_seqcst)
  | Acquire => Some (if det then Native Acquire else atomic_load_non_seqcst)
  | SeqCst => Some (if det then Native SeqCst else atomic_load_seqcst)
  | _ => None
  end.
(** powerpc64.rs:306-350 [atomic_store]. *)
Definition table_store (ct det : bool) (order : ordering) : option target :=
  if ct then Some (Native order) else
  match order with
  | Relaxed => Some (if det then Native Relaxed else atomic_store_non_seqcst)
  | Release => Some (if det then Native Release else atomic_store_non_seqcst)
  | SeqCst => Some (if det then Native SeqCst else atomic_store_seqcst)
  | _ => None
  end.
(** powerpc64.rs:387-474; riscv64.rs:213-290; riscv32.rs:215-292 [atomic_compare_exchange]. *)
Definition table_cas (ct det : bool) (success failure : ordering) : option cas_target :=
  if ct then Some (NativeCas success failure) else
  match upgrade_success_ordering success failure with
  | Relaxed => Some (if det then NativeCas Relaxed Relaxed else atomic_compare_exchange_non_seqcst)
  | Acquire => Some (if det then NativeCas Acquire Acquire else atomic_compare_exchange_non_seqcst)
  | Release => Some (if det then NativeCas Release Relaxed else atomic_compare_exchange_non_seqcst)
  | AcqRel => Some (if det then NativeCas AcqRel Acquire else atomic_compare_exchange_non_seqcst)
  | SeqCst => Some (if det then NativeCas SeqCst SeqCst else atomic_compare_exchange_seqcst)
  end.
(** powerpc64.rs:843-927, riscv64.rs:378-485, riscv32.rs:380-485 [select_atomic_rmw!]. *)
Definition table_rmw (ct det : bool) (order : ordering) : option target :=
  if ct then Some (Native order) else
  match order with
  | Relaxed => Some (if det then Native Relaxed else atomic_rmw_non_seqcst)
  | Acquire => Some (if det then Native Acquire else atomic_rmw_non_seqcst)
  | Release => Some (if det then Native Release else atomic_rmw_non_seqcst)
  | AcqRel => Some (if det then Native AcqRel else atomic_rmw_non_seqcst)
  | SeqCst => Some (if det then Native SeqCst else atomic_rmw_seqcst)
  end.

(** ** x86_64.rs.  Compile-time switches and what CPUID reports. *)
Record x86_env := mk_x86 {
  ct_cx16 : bool;       (* target_feature = "cmpxchg16b" *)
  ct_avx : bool;        (* target_feature = "avx" *)
  ct_sse : bool;        (* target_feature = "sse" *)
  no_outline : bool;    (* portable_atomic_no_outline_atomics or sgx *)
  det_cx16 : bool;      (* detect().cmpxchg16b() *)
  det_avx : bool        (* detect().avx() *)
}.
Inductive x86_impl := Vmovdqa (o : ordering) | Cx16 | X86Fallback (t : target).

(** x86_64.rs:273-313 [load_store_detect!]. *)
Definition load_store_detect (e : x86_env) (vm cx fb : x86_impl) : x86_impl :=
  if ct_cx16 e then (if det_avx e then vm else cx)
  else if det_cx16 e then
    (if ct_avx e then vm else if ct_sse e then (if det_avx e then vm else cx) else cx)
  else fb.
(** x86_64.rs:315-367 [atomic_load] (order ignored: every implementation is SeqCst). *)
Definition x86_load (e : x86_env) (order : ordering) : option x86_impl :=
  if ct_cx16 e && (no_outline e || negb (ct_sse e)) then Some Cx16
  else Some (load_store_detect e (Vmovdqa SeqCst) Cx16 (X86Fallback atomic_load_seqcst)).
(** x86_64.rs:424-500 [atomic_store]. *)
Definition x86_store (e : x86_env) (order : ordering) : option x86_impl :=
  if ct_cx16 e && (no_outline e || negb (ct_sse e)) then Some Cx16
  else match order with
       | Relaxed | Release =>
         Some (load_store_detect e (Vmovdqa Release) Cx16 (X86Fallback atomic_store_non_seqcst))
       | SeqCst =>
         Some (load_store_detect e (Vmovdqa SeqCst) Cx16 (X86Fallback atomic_store_seqcst))
       | _ => None
       end.
(** x86_64.rs:516-543 [atomic_compare_exchange]; [cmpxchg16b] is always SeqCst. *)
Inductive x86_cas_impl := Cx16Cas | X86FallbackCas (t : cas_target).
Definition x86_cas (e : x86_env) (success failure : ordering) : x86_cas_impl :=
  if ct_cx16 e then Cx16Cas
  else if det_cx16 e then Cx16Cas else X86FallbackCas atomic_compare_exchange_seqcst.
(** x86_64.rs:873-913 [select_atomic_rmw!]. *)
Definition x86_rmw (e : x86_env) (order : ordering) : x86_impl :=
  if ct_cx16 e then Cx16
  else if det_cx16 e then Cx16 else X86Fallback atomic_rmw_seqcst.
(** x86_64.rs:981-992 [is_lock_free] and 993-994 [IS_ALWAYS_LOCK_FREE]. *)
Definition x86_is_lock_free (e : x86_env) : bool := if ct_cx16 e then true else det_cx16 e.
Definition x86_is_always_lock_free (e : x86_env) : bool := ct_cx16 e.

(** ** arm_linux.rs: [select_atomic!] 107-157 and [atomic_compare_exchange] 179-214;
    the helper is always SeqCst. *)
Definition arm_load (kuser : bool) (order : ordering) : target := if kuser then Native SeqCst else atomic_load_seqcst.
Definition arm_rmw (kuser : bool) (order : ordering) : target := if kuser then Native SeqCst else atomic_rmw_seqcst.
Definition arm_store (kuser : bool) (order : ordering) : target := arm_rmw kuser order.  (* 165-171 *)
Definition arm_cas (kuser : bool) (success failure : ordering) : cas_target :=
  if kuser then NativeCas SeqCst SeqCst else atomic_compare_exchange_seqcst.
(** riscv64.rs:205-210, riscv32.rs:207-212 [atomic_store] = [atomic_swap]. *)
Definition riscv_store (ct det : bool) (order : ordering) : option target := table_rmw ct det order.
(** powerpc64.rs:1010-1030, riscv64.rs:597-609, riscv32.rs:599-611; arm_linux.rs:296-299. *)
Definition table_is_lock_free (ct det : bool) : bool := if ct then true else det.
Definition table_is_always_lock_free (ct : bool) : bool := ct.
Definition arm_is_lock_free (kuser : bool) : bool := kuser.
Definition arm_is_always_lock_free : bool := false.

Definition target_order (t : target) : ordering := match t with Native o | Fallback o => o end.
Definition cas_success (t : cas_target) : ordering := match t with NativeCas s _ | FallbackCas s _ => s end.
Definition cas_failure (t : cas_target) : ordering := match t with NativeCas _ f | FallbackCas _ f => f end.
Definition is_native (t : target) : bool := match t with Native _ => true | Fallback _ => false end.
Definition is_native_cas (t : cas_target) : bool := match t with NativeCas _ _ => true | FallbackCas _ _ => false end.
Definition x86_order (i : x86_impl) : ordering :=
  match i with Vmovdqa o => o | Cx16 => SeqCst | X86Fallback t => target_order t end.
Definition x86_native (i : x86_impl) : bool := match i with X86Fallback _ => false | _ => true end.
