(** * Model of the ordering checks in src/utils.rs *)
From Coq Require Import Bool.
From Verif Require Import Spec.

(** [None] models a panic. *)

(** src/utils.rs:394-401 [assert_load_ordering]:
    [Acquire | Relaxed | SeqCst => {}], [Release => panic!], [AcqRel => panic!]. *)
Definition assert_load_ordering (o : ordering) : option unit :=
  match o with
  | Acquire | Relaxed | SeqCst => Some tt
  | Release => None
  | AcqRel => None
  end.

(** src/utils.rs:405-412 [assert_store_ordering]. *)
Definition assert_store_ordering (o : ordering) : option unit :=
  match o with
  | Release | Relaxed | SeqCst => Some tt
  | Acquire => None
  | AcqRel => None
  end.

(** src/utils.rs:416-431 [assert_compare_exchange_ordering]: the success ordering is
    matched against every (known) variant, the failure ordering is checked. *)
Definition assert_compare_exchange_ordering (success failure : ordering) : option unit :=
  match success with
  | AcqRel | Acquire | Relaxed | Release | SeqCst =>
    match failure with
    | Acquire | Relaxed | SeqCst => Some tt
    | Release => None
    | AcqRel => None
    end
  end.

(** src/utils.rs:437-444 [upgrade_success_ordering]. *)
Definition upgrade_success_ordering (success failure : ordering) : ordering :=
  match success, failure with
  | Relaxed, Acquire => Acquire
  | Release, Acquire => AcqRel
  | _, SeqCst => SeqCst
  | _, _ => success
  end.

(** [fence] entry points that do not simply forward to core:
    src/imp/msp430.rs:39-45, src/imp/arm_linux.rs:49-55 ([Relaxed] panics, any other
    ordering issues the barrier) and src/imp/x86.rs:43-74 ([SeqCst] is an [xchg],
    anything else forwards to [core::sync::atomic::fence], which panics on [Relaxed]
    and otherwise emits the fence). *)
Inductive fence_outcome := FencePanic | FenceEmitted (o : ordering).
Definition core_fence (o : ordering) : fence_outcome :=
  match o with Relaxed => FencePanic | _ => FenceEmitted o end.
Definition fence_msp430 (o : ordering) : fence_outcome :=
  match o with Relaxed => FencePanic | _ => FenceEmitted o end.
Definition fence_arm_linux (o : ordering) : fence_outcome :=
  match o with Relaxed => FencePanic | _ => FenceEmitted SeqCst end.
Definition fence_x86 (o : ordering) : fence_outcome :=
  match o with SeqCst => FenceEmitted SeqCst | _ => core_fence o end.
