(** * Model of an operation from its entry to its return when the implementation is chosen at run time

    The entry check of the ordering (EntryModel), then [ifunc!] or [detect()] (DetectModel) step by step, racing with everybody
    else's, then the implementation selected, which is one of those modelled elsewhere.  One implementation may serve one call and
    another the next: nothing here assumes that the choices agree. *)
From Coq Require Import ZArith List Bool.
From Verif Require Import Words Spec WideSpec OrderingModel DispatchModel DetectModel EntryModel SelectSpec.
From Verif Require Aarch64Model.
Import ListNotations.
Open Scope Z_scope.

(** Code whose variant is part of the call. *)
Definition vcode {C V : Type} (code_of : V -> Z -> wop -> option C) (a : Z) (o : V * wop) : option C := code_of (fst o) a (snd o).
(** What a call is passed on as. *)
Inductive served (V : Type) := ByNative (v : V) (o : wop) | ByLock (o : op).
Arguments ByNative {V}. Arguments ByLock {V}.

Section Select.
  Variables (site fn env V J : Type).
  Variable sel : site -> Z -> fn.
  Variable det : env -> Z -> Z.
  Variables (detect_false use_cas : bool).
  Variable site_eqb : site -> site -> bool.
  Variable site_of : wop -> site.                        (* the [ifunc!] an operation goes through *)
  Variable serve : fn -> wop -> J -> option (served V).  (* how the selected function does it; [J]: what is left open *)
  Variable lock_free : Z -> bool.                        (* [is_lock_free] for a detection result *)

  Inductive tphase :=
  | TIdle
  | TPick (id : nat) (a : Z) (o : wop)       (* inside [ifunc!] *)
  | TGo (a : Z) (o : wop) (i : served V)     (* about to enter the implementation *)
  | TIn (a : Z) (o : wop) (native : bool)
  | TBack (r : res).                         (* about to return *)
  Record pstate := mk_pstate { p_disp : dstate site fn env; p_thr : nat -> tphase }.
  Definition set_thr (s : pstate) (d : dstate site fn env) (t : nat) (x : tphase) : pstate :=
    mk_pstate d (fun u => if Nat.eqb u t then x else p_thr s u).

  Inductive plabel :=
  | PCall (t : nat) (a : Z) (o : wop) (id : nat)          (* [id]: a fresh name for this call *)
  | PAsk (id : nat)                                       (* [is_lock_free()] *)
  | PDisp (t : nat) (j : J) (l : dlabel site env)    (* a step of dispatch, of thread [t] if it ends it *)
  | PEnter (t : nat) | PAnswer (t : nat) (r : res) | PReturn (t : nat).
  Definition pstep (s : pstate) (l : plabel) : option (pstate * list (sevent V)) :=
    let dispatch := dstep site fn sel env det detect_false use_cas site_eqb (p_disp s) in
    match l with
    | PCall t a o id =>
        match p_thr s t with
        | TIdle =>
            match check_w o with                           (* macros.rs:33-128 *)
            | None => Some (set_thr s (p_disp s) t (TBack RPanic), [Public (Call t a o)])
            | Some _ =>
                match dispatch (Start site env id (ForCall site (site_of o))) with
                | Some (d, _) => Some (set_thr s d t (TPick id a o), [Public (Call t a o)])
                | None => None
                end
            end
        | _ => None
        end
    | PAsk id =>
        match dispatch (Start site env id (ForInfo site)) with
        | Some (d, _) => Some (mk_pstate d (p_thr s), [])
        | None => None
        end
    | PDisp t j l =>
        match l with
        | Start _ _ _ _ => None
        | _ =>
            match dispatch l with
            | Some (d, [Executed _ _ id _ f]) =>
                match p_thr s t with
                | TPick id' a o =>
                    if Nat.eqb id id' then
                      match serve f o j with Some i => Some (set_thr s d t (TGo a o i), []) | None => None end
                    else None
                | _ => None
                end
            | Some (d, [Detected _ _ _ info]) => Some (mk_pstate d (p_thr s), [LockFree (lock_free info)])
            | Some (d, []) => Some (mk_pstate d (p_thr s), [])
            | _ => None
            end
        end
    | PEnter t =>
        match p_thr s t with
        | TGo a o (ByNative v o') => Some (set_thr s (p_disp s) t (TIn a o true), [Native (Call t a (v, o'))])
        | TGo a o (ByLock o') => Some (set_thr s (p_disp s) t (TIn a o false), [Locked (Call t a o')])
        | _ => None
        end
    | PAnswer t r =>
        match p_thr s t with
        | TIn a o native =>
            Some (set_thr s (p_disp s) t (TBack (passed_on o r)), [if native then Native (Return t r) else Locked (Return t r)])
        | _ => None
        end
    | PReturn t =>
        match p_thr s t with TBack r => Some (set_thr s (p_disp s) t TIdle, [Public (Return t r)]) | _ => None end
    end.
  Definition pinit : pstate := mk_pstate (dinit site fn env) (fun _ => TIdle).
  Fixpoint prun (s : pstate) (ls : list plabel) : option (pstate * list (sevent V)) :=
    match ls with
    | [] => Some (s, [])
    | l :: ls' =>
      match pstep s l with
      | Some (s', e) => match prun s' ls' with Some (s'', tr) => Some (s'', e ++ tr) | None => None end
      | None => None
      end
    end.
End Select.
Arguments TIdle {V}. Arguments TPick {V}. Arguments TGo {V}. Arguments TIn {V}. Arguments TBack {V}.
Arguments PCall {site env J}. Arguments PAsk {site env J}. Arguments PDisp {site env J}. Arguments PEnter {site env J}.
Arguments PAnswer {site env J}. Arguments PReturn {site env J}.

(** Every operation with its orderings replaced. *)
Definition with_order (o : wop) (ord : ordering) : wop :=
  match o with
  | WOp (OLoad _) => WOp (OLoad ord) | WOp (OStore v _) => WOp (OStore v ord) | WOp (ORmw r _) => WOp (ORmw r ord)
  | WOp (OCas c n _ _) | WCasWeak c n _ _ => WOp (OCas c n ord ord)
  end.
Definition wide_site_of (o : wop) : wide_site :=
  match o with
  | WOp (OLoad o) => SiteLoad o | WOp (OStore _ o) => SiteStore o | WOp (ORmw _ o) => SiteRmw o
  | WOp (OCas _ _ s f) | WCasWeak _ _ s f => SiteCas s f
  end.

(** ** x86_64.rs: [wide_fn] as selected by [x86_sel].  Variant: vmovdqa or not, and the registers on entry ([R]; any).
    cmpxchg16b has no ordering ([SeqCst]); compare_exchange_weak is compare_exchange (545). *)
Definition x86_serve {R : Type} (f : wide_fn) (o : wop) (j : R) : option (served (bool * R)) :=
    match f, o with
    | LoadStoreFn (Some (Vmovdqa ord)), WOp (OLoad _) | LoadStoreFn (Some (Vmovdqa ord)), WOp (OStore _ _) => Some (ByNative (true, j) (with_order o ord))
    | LoadStoreFn (Some Cx16), WOp (OLoad _) | LoadStoreFn (Some Cx16), WOp (OStore _ _) => Some (ByNative (false, j) (with_order o SeqCst))
    | LoadStoreFn (Some (X86Fallback (Fallback ord))), WOp (OLoad _) => Some (ByLock (OLoad ord))
    | LoadStoreFn (Some (X86Fallback (Fallback ord))), WOp (OStore v _) => Some (ByLock (OStore v ord))
    | RmwFn Cx16, WOp (ORmw _ _) => Some (ByNative (false, j) (with_order o SeqCst))
    | RmwFn (X86Fallback (Fallback ord)), WOp (ORmw r _) => Some (ByLock (ORmw r ord))
    | CasFn Cx16Cas, WOp (OCas _ _ _ _) | CasFn Cx16Cas, WCasWeak _ _ _ _ => Some (ByNative (false, j) (with_order o SeqCst))
    | CasFn (X86FallbackCas (FallbackCas s f)), WOp (OCas c n _ _) | CasFn (X86FallbackCas (FallbackCas s f)), WCasWeak c n _ _ => Some (ByLock (OCas c n s f))
    | _, _ => None
    end.

(** ** powerpc64.rs and riscv64.rs/riscv32.rs: [table_fn] as selected by [table_sel].  Variant: the registers on entry.
    [ct]: the feature is enabled at compile time; only then powerpc64's compare_exchange_weak is one of its own (538-555), and
    it takes the orderings as they are (552).  The zacas loops themselves go through the dispatch of compare_exchange at every
    iteration (riscv64.rs:404): that is the same [ifunc!], which has the same answer for everybody (C28), and ZacasModel makes
    the compare-and-swap directly. *)
Definition table_serve {R : Type} (weak : bool) (f : table_fn) (o : wop) (j : R) : option (served R) :=
    match f, o with
    | TargetFn (Some (DispatchModel.Native ord)), WOp (OCas _ _ _ _) | TargetFn (Some (DispatchModel.Native ord)), WCasWeak _ _ _ _ => None
    | TargetFn (Some (DispatchModel.Native ord)), _ => Some (ByNative j (with_order o ord))
    | TargetFn (Some (Fallback ord)), WOp (OLoad _) => Some (ByLock (OLoad ord))
    | TargetFn (Some (Fallback ord)), WOp (OStore v _) => Some (ByLock (OStore v ord))
    | TargetFn (Some (Fallback ord)), WOp (ORmw r _) => Some (ByLock (ORmw r ord))
    | TargetCasFn (Some (NativeCas s f)), WOp (OCas c n _ _) => Some (ByNative j (WOp (OCas c n s f)))
    | TargetCasFn (Some (NativeCas s f)), WCasWeak c n _ _ => Some (ByNative j (if weak then WCasWeak c n s f else WOp (OCas c n s f)))
    | TargetCasFn (Some (FallbackCas s f)), WOp (OCas c n _ _) | TargetCasFn (Some (FallbackCas s f)), WCasWeak c n _ _ => Some (ByLock (OCas c n s f))
    | _, _ => None
    end.
(** RISC-V stores are swaps: they use its [ifunc!], and in the lock-based case its fallback (riscv64.rs:205-210). *)
Definition riscv_site_of (o : wop) : wide_site := match o with WOp (OStore _ o) => SiteRmw o | _ => wide_site_of o end.
Definition riscv_serve {R : Type} (f : table_fn) (o : wop) (j : R) : option (served R) :=
  match f, o with
  | TargetFn (Some (Fallback ord)), WOp (OStore v _) => Some (ByLock (ORmw (Swap v) ord))
  | _, _ => table_serve false f o j
  end.

(** ** aarch64.rs: the function an [ifunc!] selects depends on what detection answered (573-607, 982-1024, 1335-1399); the
    sequences are those of Aarch64Model with these answers.  No answer selects a lock-based implementation (2240-2243), and the
    result is stored without a compare_exchange (common.rs:70-73). *)
Definition reported (g : Aarch64Model.target) (info : Z) : Aarch64Model.target :=
  Aarch64Model.mk_target (Aarch64Model.be g) (Aarch64Model.msvc g) (Aarch64Model.ll_sc_rmw g)
    (Aarch64Model.c_lse g) (Aarch64Model.c_lse2 g) (Aarch64Model.c_lse128 g) (Aarch64Model.c_rcpc3 g) (Aarch64Model.det_lse g) (Aarch64Model.det_lse2 g)
    (cpu_test info F_lse) (cpu_test info F_lse2) (cpu_test info F_lse128) (cpu_test info F_rcpc3).
Definition aarch64_sel (s : wide_site) (info : Z) : Z := info.
Definition aarch64_serve {R : Type} (info : Z) (o : wop) (j : R) : option (served (Z * R)) := Some (ByNative (info, j) o).

(** ** arm_linux.rs: [ifunc!] asks [has_kuser_cmpxchg64()] (69-76), which reads the kernel's helper version from its page; the
    version never changes while the process runs.  There is no CACHE: reading the version is [detect()] with that constant
    answer, the cache adding only silent steps.  One [ifunc!] per function, whatever the ordering (108-158, 202-211), and
    stores are swaps (165-171). *)
Definition F_kuser : Z := 1.
Definition kuser_det (version : Z) (_ : unit) (info : Z) : Z := set_if (5 <=? version) F_kuser info.
Definition kuser_site_of (o : wop) : wide_site :=
  match o with WOp (OLoad _) => SiteLoad SeqCst | WOp (OStore _ _) | WOp (ORmw _ _) => SiteRmw SeqCst | _ => SiteCas SeqCst SeqCst end.
Definition kuser_sel (s : wide_site) (info : Z) : table_fn :=
  let kuser := cpu_test info F_kuser in
  match s with
  | SiteLoad o => TargetFn (Some (arm_load kuser o)) | SiteStore o => TargetFn (Some (arm_store kuser o))
  | SiteRmw o => TargetFn (Some (arm_rmw kuser o)) | SiteCas s f => TargetCasFn (Some (arm_cas kuser s f))
  end.
