(** * What events the instructions of the backends cause (for C31)

    The code is the one of the other model files; this file only says which accesses and fences an
    instruction is, following the architecture manuals, and adds the two small backends whose functions
    are straight-line code. *)
From Coq Require Import ZArith List Bool.
From Verif Require Import Words Spec WideSpec LoopModel AsmModel BlockModel OrderingModel TraceSpec TraceModel.
From Verif Require PowerModel S390xModel Aarch64Model X86Model ZacasModel KuserModel.
Import ListNotations.

(** ** Power (src/imp/atomic128/powerpc64.rs): lwsync orders everything but a write before a read. *)
Module Power.
  Import PowerModel.
  Definition ann_i (i : instr) : list ev :=
    match i with
    | FENCE PowerModel.Isync => [TraceSpec.Isync]
    | FENCE Lwsync => [Fence true true false true]
    | FENCE Sync => [full]
    | _ => []
    end.
  Definition ann_m (m : minstr) (w : bool) : list ev :=
    match m with
    | LQ _ _ _ | LQARX _ _ _ => [Rd true true ANone]
    | STQ _ _ _ | STQCX _ _ _ => wrote w false
    end.
  (** powerpc64.rs: the public operation [o] on the atomic at [a] *)
  Definition does (g : target) (ty : Z -> ity) (junk : Z -> wop -> st) (o : wop) (tr : list ev) (r : res) : Prop :=
    exists a c, code_of g ty junk a o = Some c /\ completes (bnext exec1 test access) (block_ann ann_i ann_m) c tr r.
End Power.

(** ** s390x (src/imp/atomic128/s390x.rs): total store order; cdsg and bcr 14/15,0 serialize. *)
Module S390x.
  Import S390xModel.
  Definition ann_i (i : instr) : list ev := match i with BCR => [full] | _ => [] end.
  Definition ann_m (m : minstr) (w : bool) : list ev :=
    match m with
    | LG _ off _ => if (off =? 0)%Z then [Rd false true ANone] else [Rd true false ANone]
    | LPQ _ _ _ => [Rd true true ANone]
    | STPQ _ _ _ => wrote w false
    | CDSG _ _ _ _ _ => [full; Rd true true ANone] ++ wrote w false ++ [full]
    end.
  Definition does (g : target) (pm : Z) (ty : Z -> ity) (junk : Z -> wop -> st) (o : wop) (tr : list ev) (r : res) : Prop :=
    exists a c, code_of g ty junk a o = Some c /\ completes (bnext (exec1 pm) test access) (block_ann ann_i ann_m) c tr r.
End S390x.

(** ** aarch64 (src/imp/atomic128/aarch64.rs): ld*a* are RCsc, ldiapp is RCpc; a failing casp only reads. *)
Module Aarch64.
  Import Aarch64Model.
  Definition ann_i (i : instr) : list ev :=
    match i with
    | DMB Ish => [full]
    | DMB Ishld => [Fence true true false false]
    | _ => []
    end.
  Definition sfx (acq : bool) : TraceSpec.acq := if acq then ASc else ANone.
  Definition ann_m (m : minstr) (w : bool) : list ev :=
    match m with
    | LDP _ _ _ => [Rd true true ANone]
    | LDP64 u _ _ => [Rd (negb u) u ANone]
    | LDIAPP _ _ _ => [Rd true true APc]
    | LDAR _ _ => [Rd true false ASc]
    | STP _ _ _ => wrote w false
    | STILP _ _ _ => wrote w true
    | LDXP acq _ _ _ => [Rd true true (sfx acq)]
    | LDXP64 acq _ u _ _ => [Rd (negb u) u (sfx acq)]
    | STXP rel _ _ _ _ => wrote w rel
    | CASP acq rel _ _ _ _ _ | SWPP acq rel _ _ _ | LDCLRP acq rel _ _ _ | LDSETP acq rel _ _ _ =>
        Rd true true (sfx acq) :: wrote w rel
    end.
  Definition does (g : target) (h : hw) (ty : Z -> ity) (junk : Z -> wop -> st) (o : wop) (tr : list ev) (r : res) : Prop :=
    exists a c, code_of g h ty junk a o = Some c /\ completes (bnext exec1 test (access (be g) h)) (block_ann ann_i ann_m) c tr r.
End Aarch64.

(** ** x86_64 (src/imp/atomic128/x86_64.rs): total store order; locked instructions (lock cmpxchg16b, and xchg with
    memory, here of a local variable) are full fences. *)
Module X86.
  Import X86Model.
  Definition ann (c : conf) (w : bool) : list ev :=
    match nth_error (prog c) (pos c) with
    | Some (LDQ _ _ disp) => if (disp =? 0)%Z then [Rd true false ANone] else [Rd false true ANone]
    | Some (CX16 _) => [full; Rd true true ANone] ++ wrote w false ++ [full]
    | Some (JNE _) => [Branch]
    | Some (VLD _) => [Rd true true ANone]
    | Some (VST _ _) => wrote w false
    | Some XCHGP => [full]
    | Some (I _) | None => []
    end.
  Definition does (g : target) (ty : Z -> ity) (junk : Z -> wop -> st) (o : wop) (tr : list ev) (r : res) : Prop :=
    exists a c, code_of g ty junk a o = Some c /\ completes next ann c tr r.
End X86.

(** ** RISC-V with Zacas (src/imp/atomic128/riscv64.rs, src/imp/atomic64/riscv32.rs) *)
Module Zacas.
  Import ZacasModel.
  (** riscv64.rs:74-106: ($fence, $asm_order) as (is there a fence rw,rw?, .aq?, .rl?) *)
  Definition amocas_order (order failure : ordering) : bool * bool * bool :=
    match order with
    | Relaxed => (false, false, false)
    | Acquire => (false, true, false)
    | Release => (false, false, true)
    | AcqRel => (false, true, true)
    | SeqCst => match failure with SeqCst => (true, true, true) | _ => (false, true, true) end
    end.
  (** The amocas of an operation: load 160-202; compare_exchange 295-354 (with run-time detection 234-288:
      [detected]); the others 399-404 via compare_exchange(order, Relaxed). *)
  Definition cas_order (detected : bool) (success failure : ordering) : bool * bool * bool :=
    let order := upgrade_success_ordering success failure in
    if detected then
      match order with
      | Relaxed => amocas_order Relaxed Relaxed
      | Acquire => amocas_order (upgrade_success_ordering Acquire Acquire) Acquire
      | Release => amocas_order (upgrade_success_ordering Release Relaxed) Relaxed
      | AcqRel => amocas_order (upgrade_success_ordering AcqRel Acquire) Acquire
      | SeqCst => amocas_order (upgrade_success_ordering SeqCst SeqCst) SeqCst
      end
    else amocas_order order failure.
  Definition op_order (detected : bool) (o : wop) : bool * bool * bool :=
    match o with
    | WOp (OLoad ord) => amocas_order ord ord
    | WOp (OStore _ ord) | WOp (ORmw _ ord) => cas_order detected ord Relaxed
    | WOp (OCas _ _ s f) | WCasWeak _ _ s f => cas_order detected s f
    end.
  (** Zacas: a failing amocas has acquire semantics if .aq, and no release semantics even if .rl *)
  Definition amocas_ev (q : bool * bool * bool) (w : bool) : list ev :=
    let '(fence, aq, rl) := q in
    (if fence then [full] else []) ++
    (if w then [Rd true true (if aq then ASc else ANone); Wr rl] else [Rd true true (if aq then APc else ANone)]).
  Definition ann (q : bool * bool * bool) (c : zconf) (w : bool) : list ev :=
    match c with
    | ZLoad _ _ | ZCas _ _ _ _ | ZLoop _ _ _ _ => amocas_ev q w
    | ZReadLo _ _ _ => [Rd true false ANone]
    | ZReadHi _ _ _ _ => [Rd false true ANone]
    | ZRet _ => []
    end.
  Definition does (w : Z) (detected : bool) (ty : Z -> ity) (o : wop) (tr : list ev) (r : res) : Prop :=
    exists a c, z_code_of w ty a o = Some c /\ completes (znext w) (ann (op_order detected o)) c tr r.
End Zacas.

(** ** 64-bit atomics by __kuser_cmpxchg64 (src/imp/atomic64/arm_linux.rs): a successful call has full barriers
    on both sides (kernel_user_helpers.rst); of a failing one nothing is assumed. *)
Module Kuser.
  Import KuserModel.
  Definition ann (c : kconf) (w : bool) : list ev :=
    match c with
    | KReadLo _ _ _ => [Rd true false ANone]
    | KReadHi _ _ _ _ => [Rd false true ANone]
    | KTry _ _ _ _ => if w then [full; Rd true true ANone; Wr false; full] else [Rd true true ANone]
    | KRet _ => []
    end.
  Definition does (be : bool) (ty : Z -> ity) (o : wop) (tr : list ev) (r : res) : Prop :=
    exists a c, k_code_of ty a o = Some c /\ completes (knext be) ann c tr r.
End Kuser.

(** ** RISC-V without LR/SC (src/imp/riscv.rs): one access and fences; [FENCE] is "fence pr pw, sr sw" *)
Module Riscv.
  Inductive instr := FENCE (pr pw sr sw : bool) | L | S | AMO (aq rl : bool).
  Definition ann (i : instr) : list ev :=
    match i with
    | FENCE pr pw sr sw => [Fence (pr && sr) (pr && sw) (pw && sr) (pw && sw)]
    | L => [Rd true true ANone]
    | S => [Wr false]
    | AMO aq rl => [Rd true true (if aq then ASc else ANone); Wr rl]
    end.
  Definition r_rw := FENCE true false true true.
  Definition rw_w := FENCE true true false true.
  Definition rw_rw := FENCE true true true true.
  (** 209-236 *)
  Definition load (ord : ordering) : option (list instr) :=
    match ord with
    | Relaxed => Some [L]
    | Acquire => Some [L; r_rw]
    | SeqCst => Some [rw_rw; L; r_rw]
    | _ => None
    end.
  (** 240-266 *)
  Definition store (ord : ordering) : option (list instr) :=
    match ord with
    | Relaxed => Some [S]
    | Release => Some [rw_w; S]
    | SeqCst => Some [rw_w; S; rw_rw]
    | _ => None
    end.
  (** 60-96; every read-modify-write (also the sub-word ones, 400-470) goes through this *)
  Definition rmw_amo (ord : ordering) : list instr :=
    match ord with
    | Relaxed => [AMO false false]
    | Acquire => [AMO true false]
    | Release => [AMO false true]
    | AcqRel | SeqCst => [AMO true true]
    end.
  Definition code (o : wop) : option (list instr) :=
    match o with
    | WOp (OLoad ord) => load ord
    | WOp (OStore _ ord) => store ord
    | WOp (ORmw _ ord) => Some (rmw_amo ord)
    | _ => None
    end.
  Definition does (o : wop) (tr : list ev) (_ : res) : Prop := exists p, code o = Some p /\ tr = flat_map ann p.
End Riscv.

(** ** Up to 32-bit atomics of pre-v6 Arm Linux (src/imp/arm_linux.rs).
    [inner]: core's atomics, which call compiler-builtins: relaxed loads and stores are plain accesses, a successful
    compare_exchange has full barriers, of a failing one nothing is assumed.  The other operations are core's. *)
Module ArmLinux.
  Definition barrier : list ev := [full].
  Definition inner_cas (ok : bool) : list ev :=
    if ok then [full; Rd true true ANone; Wr false; full] else [Rd true true ANone].
  (** load 70-84, store 90-108, compare_exchange(_weak) 121-158: [None]: not this module, or panics *)
  Definition code (o : wop) (ok : bool) : option (list ev) :=
    let load := [Rd true true ANone] in let store := [Wr false] in
    match o with
    | WOp (OLoad Relaxed) => Some load
    | WOp (OLoad Acquire) | WOp (OLoad SeqCst) => Some (load ++ barrier)
    | WOp (OStore _ Relaxed) => Some store
    | WOp (OStore _ Release) => Some (barrier ++ store)
    | WOp (OStore _ SeqCst) => Some (barrier ++ store ++ barrier)
    | WOp (OCas _ _ s f) | WCasWeak _ _ s f =>
      match f with
      | Release | AcqRel => None
      | _ => Some (inner_cas ok ++ if negb (match f with Relaxed => true | _ => false end) && negb ok then barrier else [])
      end
    | _ => None
    end.
  Definition does (o : wop) (tr : list ev) (r : res) : Prop :=
    exists ok, code o ok = Some tr /\ (ok = false <-> exists x, r = RErr x).
End ArmLinux.
