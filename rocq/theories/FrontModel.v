(** * Model of the public types of lib.rs beyond plain integers

    AtomicBool (lib.rs:774-1644), AtomicPtr (lib.rs:1823-2660 over imp/core_atomic.rs:112-240), the
    atomic floats (lib.rs:4290-4680 over imp/float/int.rs and imp/float/aarch64.rs), bit_set/clear/toggle
    and the operations without a result (utils.rs:199-305, imp/x86.rs:80-283, core_atomic.rs:491-522).

    All of them go through an integer backend whose operations are atomic (C01, C11, C12, C14, C17,
    C20), so a backend operation is one indivisible access here. *)
From Coq Require Import ZArith List Bool.
From Verif Require Import Words Spec FrontSpec LoopModel AsmModel FallbackModel.
Import ListNotations.
Open Scope Z_scope.

(** Configuration: [word_bool]: riscv32/64, loongarch32/64 (lib.rs:1007-1012, 1079-1084);
    [bt_asm]: x86 with portable_atomic_pre_llvm_16 (x86.rs:176-178); [lsfe]: AArch64 with FEAT_LSFE
    (float/aarch64.rs, used for the formats up to 64 bits). *)
Record cfg := mk_cfg { word_bool : bool; bt_asm : bool; lsfe : bool }.

(** ** Backend accesses, on bit patterns *)
Definition access := bool -> Z -> option Z * (Z * bool).
Definition b_load : access := fun _ x => (None, (x, true)).
Definition b_store (t : ity) (v : Z) : access := fun _ x => (Some (to_bits t v), (x, true)).
Definition b_rmw (t : ity) (r : rmw) : access :=
  fun _ x => (Some (to_bits t (rmw_next t r (of_bits t x))), (x, true)).
Definition b_cas (t : ity) (c n : Z) (weak : bool) : access :=
  fun sp x => if (x =? to_bits t c) && negb (weak && sp) then (Some (to_bits t n), (x, true)) else (None, (x, false)).

Inductive fconf :=
| FAccess (a : Z) (f : access) (k : Z * bool -> pres)
| FUpdLoad (a k : Z) (dec : Z -> Z) (f : list Z -> Z -> option Z) (ok err : Z -> pres)
| FUpdTry (a : Z) (dec : Z -> Z) (f : list Z -> Z -> option Z) (ok err : Z -> pres) (hist : list Z) (prev : Z)
| FRet (r : pres).

(** [fetch_update] and [fetch_update_]: lib.rs:1594-1611 (bool), 4584-4601 (floats), float/int.rs:164-182.
    [dec] is what the wrapper makes of a value returned by the backend. *)
Definition fnext (c : fconf) : action fconf pres :=
  match c with
  | FAccess a f k => AAtomic a f (fun o => FRet (k o))
  | FUpdLoad a k dec f ok err => ARead a k 0 (fun v => FUpdTry a dec f ok err [] (dec v))
  | FUpdTry a dec f ok err hist prev =>
      match f hist prev with
      | None => ADone (err prev)
      | Some next =>
        AAtomic a (fun sp x => if (x =? prev) && negb sp then (Some next, (x, true)) else (None, (x, false)))
          (fun o => if snd o then FRet (ok (dec (fst o))) else FUpdTry a dec f ok err (hist ++ [prev]) (dec (fst o)))
      end
  | FRet r => ADone r
  end.

(** ** AtomicBool *)
Definition nz (x : Z) : bool := negb (x =? 0).        (* [!= 0] *)

(** lib.rs:1223, 1347, 1426: through AtomicU8, [val as u8], [!= 0] *)
Definition bool_rmw8 (a : Z) (r : rmw) (k : bool -> pres) : fconf := FAccess a (b_rmw u8 r) (fun o => k (nz (fst o))).
Definition bool_fetch_and (a : Z) (b : bool) (k : bool -> pres) := bool_rmw8 a (And (Z.b2z b)) k.
Definition bool_fetch_or (a : Z) (b : bool) (k : bool -> pres) := bool_rmw8 a (Or (Z.b2z b)) k.
Definition bool_fetch_xor (a : Z) (b : bool) (k : bool -> pres) := bool_rmw8 a (Xor (Z.b2z b)) k.
(** lib.rs:1006-1028 *)
Definition bool_swap (g : cfg) (a : Z) (b : bool) (k : bool -> pres) : fconf :=
  if word_bool g then (if b then bool_fetch_or a true k else bool_fetch_and a false k)
  else bool_rmw8 a (Swap (Z.b2z b)) k.
(** lib.rs:1303-1314 *)
Definition bool_fetch_nand (g : cfg) (a : Z) (b : bool) (k : bool -> pres) : fconf :=
  if b then bool_fetch_xor a true k else bool_swap g a true k.
(** lib.rs:1072-1113 *)
Definition bool_cas_word (g : cfg) (a : Z) (cur new : bool) : fconf :=
  let k := fun old => if Bool.eqb old cur then POkB old else PErrB old in
  if Bool.eqb cur new then bool_fetch_or a false k else bool_swap g a new k.
Definition bool_cas_u8 (a : Z) (cur new weak : bool) : fconf :=
  FAccess a (b_cas u8 (Z.b2z cur) (Z.b2z new) weak) (fun o => if snd o then POkB (nz (fst o)) else PErrB (nz (fst o))).
Definition bool_cas (g : cfg) (a : Z) (cur new : bool) : fconf :=
  if word_bool g then bool_cas_word g a cur new else bool_cas_u8 a cur new false.
(** lib.rs:1156-1190 *)
Definition bool_cas_weak (g : cfg) (a : Z) (cur new : bool) : fconf :=
  if word_bool g then bool_cas g a cur new else bool_cas_u8 a cur new true.
Definition bool_rmw (g : cfg) (a : Z) (op : boolop) (k : bool -> pres) : fconf :=
  match op with
  | BSwap b => bool_swap g a b k
  | BAnd b => bool_fetch_and a b k
  | BNand b => bool_fetch_nand g a b k
  | BOr b => bool_fetch_or a b k
  | BXor b => bool_fetch_xor a b k
  | BNot => bool_fetch_xor a true k                 (* lib.rs:1501 *)
  end.
(** and / or / xor / not without result, lib.rs:1267, 1391, 1470, 1541: through AtomicU8's *)
Definition bool_no_fetch (a : Z) (op : boolop) : option fconf :=
  match op with
  | BAnd b => Some (FAccess a (b_rmw u8 (And (Z.b2z b))) (fun _ => PUnit))
  | BOr b => Some (FAccess a (b_rmw u8 (Or (Z.b2z b))) (fun _ => PUnit))
  | BXor b => Some (FAccess a (b_rmw u8 (Xor (Z.b2z b))) (fun _ => PUnit))
  | BNot => Some (FAccess a (b_rmw u8 (Xor (Z.b2z true))) (fun _ => PUnit))
  | _ => None
  end.
(** lib.rs:1594-1611.  The retry loop uses the public load and compare_exchange_weak, which are atomic
    (theorems C18/C19), so the word-based variant of the latter is not expanded inside the loop.  The
    first load is written as a load of bit 0, the only bit of the byte that is ever set (C18_bool_byte). *)
Definition bool_update (a : Z) (f : list bool -> bool -> option bool) : fconf :=
  FUpdLoad a 1 (fun v => Z.b2z (nz v))
    (fun hist x => match f (map nz hist) (nz x) with Some n => Some (Z.b2z n) | None => None end)
    (fun x => POkB (nz x)) (fun x => PErrB (nz x)).

(** ** Bit operations *)
(** [<$int_type>::wrapping_shl(1, bit)]: the shift amount is taken modulo the width by masking. *)
Definition wrapping_shl1 (t : ity) (bit : Z) : Z :=
  of_bits t ((to_bits t 1 * 2 ^ Z.land bit (ibits t - 1)) mod 2 ^ ibits t).
(** utils.rs:273-299 (and 247-271 for pointers: on the address) *)
Definition default_bit (t : ity) (a : Z) (k : bitop) (bit : Z) : fconf :=
  let mask := wrapping_shl1 t bit in
  let r := match k with BSet => Or mask | BClear => And (bit_not t mask) | BToggle => Xor mask end in
  FAccess a (b_rmw t r) (fun o => PBool (nz (bit_and t (of_bits t (fst o)) mask))).
(** x86.rs:182-256: lock bts / btr / btc with a register offset.  Intel SDM: the offset register is signed
    and selects bit [off mod size] of the operand at address [dst + size/8 * (off div size)]; CF is the
    old bit; setb. *)
Definition bt_access (pos : Z) (k : bitop) : access := fun _ x =>
  (Some (match k with BSet => Z.setbit x pos | BClear => Z.clearbit x pos | BToggle => Z.lxor x (2 ^ pos) end),
   (Z.b2z (Z.testbit x pos), true)).
Definition bt_bit (t : ity) (a : Z) (k : bitop) (bit : Z) : fconf :=
  let reg := cast t (Z.land bit (ibits t - 1)) in                      (* (bit & (BITS - 1)) as int *)
  let off := of_bits (mk_ity (ibits t) true) (to_bits t reg) in
  FAccess (a + ibits t / 8 * (off / ibits t)) (bt_access (off mod ibits t) k) (fun o => PBool (nz (fst o))).
(** which types use the assembly: x86.rs:258-282 (8-bit types do not) *)
Definition bit_op (g : cfg) (t : ity) (a : Z) (k : bitop) (bit : Z) : fconf :=
  if bt_asm g && (8 <? ibits t) then bt_bit t a k bit else default_bit t a k bit.

(** utils.rs:199-245, core_atomic.rs:508-520 (call the fetch_ version, drop the result);
    x86.rs:85-117 (lock not / lock neg). *)
Definition no_fetch (t : ity) (a : Z) (r : rmw) : option fconf :=
  match r with
  | Add _ | Sub _ | And _ | Or _ | Xor _ | Not | Neg => Some (FAccess a (b_rmw t r) (fun _ => PUnit))
  | _ => None
  end.

(** ** Plain operations (lib.rs:3260-3700 integers, 1823-2260 pointers): one backend operation *)
Definition plain (t : ity) (a : Z) (o : op) : fconf :=
  match o with
  | OLoad _ => FAccess a b_load (fun o => PPlain (RVal (of_bits t (fst o))))
  | OStore v _ => FAccess a (b_store t v) (fun _ => PPlain RUnit)
  | ORmw r _ => FAccess a (b_rmw t r) (fun o => PPlain (RVal (of_bits t (fst o))))
  | OCas c n _ _ =>
      FAccess a (b_cas t c n false) (fun o => PPlain (if snd o then ROk (of_bits t (fst o)) else RErr (of_bits t (fst o))))
  end.
Definition plain_cas_weak (t : ity) (a c n : Z) : fconf :=
  FAccess a (b_cas t c n true) (fun o => PPlain (if snd o then ROk (of_bits t (fst o)) else RErr (of_bits t (fst o)))).

(** ** AtomicPtr: core_atomic.rs:112-198, lib.rs:2275-2510 *)
Definition usize (w : Z) : ity := mk_ity w false.
Definition ptr_rmw (w size a : Z) (op : ptrop) : fconf :=
  let t := usize w in
  let via r := FAccess a (b_rmw t r) (fun o => PVal (of_bits t (fst o))) in
  match op with
  | ByteAdd v => via (Add v)
  | ByteSub v => via (Sub v)
  | PtrAdd v => via (Add (wrapping_mul t v size))      (* lib.rs:2276 *)
  | PtrSub v => via (Sub (wrapping_mul t v size))      (* lib.rs:2312 *)
  | PtrOr v => via (Or v)
  | PtrAnd v => via (And v)
  | PtrXor v => via (Xor v)
  end.

(** ** Floats: float/int.rs:61-205 on the unsigned integer of the same width *)
Section Float.
  (** What the processor computes for the float operation at address [a] on [x]; NaN bits may differ from
      call to call, hence the history. *)
  Variable ev : Z -> fop -> list Z -> Z -> Z.
  Definition fl_ity (mw ew : Z) : ity := mk_ity (1 + mw + ew) false.
  Definition NEG_MASK (t : ity) : Z := bit_not t 0 / 2 + 1.
  Definition ABS_MASK (t : ity) : Z := bit_not t 0 / 2.
  (** float/aarch64.rs: [-val] flips the sign bit *)
  Definition negated (t : ity) (v : Z) : Z := bit_xor t v (NEG_MASK t).
  Definition lsfe_op (t : ity) (op : fop) : fop := match op with FSub v => FAdd (negated t v) | _ => op end.
  Definition fl_rmw (g : cfg) (mw ew a : Z) (op : fop) : fconf :=
    if lsfe g && (1 + mw + ew <=? 64)
    then FAccess a (fun _ x => (Some (ev a (lsfe_op (fl_ity mw ew) op) [] x), (x, true))) (fun o => PVal (fst o))
    else FUpdLoad a (1 + mw + ew) (fun v => v) (fun hist x => Some (ev a op hist x)) PVal PVal.

  (** ** All calls that are well typed and do not panic *)
  Definition load_ord (o : ordering) : bool := match o with Release | AcqRel => false | _ => true end.
  Definition store_ord (o : ordering) : bool := match o with Acquire | AcqRel => false | _ => true end.
  Definition in_bits (w v : Z) : bool := (0 <=? v) && (v <? 2 ^ w).
  Definition ptr_typed (w : Z) (op : ptrop) : bool :=
    match op with PtrAdd v | PtrSub v | ByteAdd v | ByteSub v | PtrOr v | PtrAnd v | PtrXor v => in_bits w v end.
  Definition nofetch_typed (t : ity) (r : rmw) : bool :=
    match r with
    | Swap v | Add v | Sub v | And v | Nand v | Or v | Xor v | Max v | Min v => in_rangeb t v
    | Not | Neg => true
    end.
  (** pointers have no arithmetic read-modify-write besides swap *)
  Definition plain_typed (t : ity) (ptr : bool) (o : op) : bool :=
    match o with
    | OLoad ord => load_ord ord
    | OStore v ord => store_ord ord && in_rangeb t v
    | ORmw r _ => nofetch_typed t r && match r with Swap _ => true | _ => negb ptr end
    | OCas c n _ f => load_ord f && in_rangeb t c && in_rangeb t n
    end.
  Definition fop_typed (w : Z) (op : fop) : bool := match op with FAdd v | FSub v | FMax v | FMin v => in_bits w v end.

  Definition p_code_of (g : cfg) (kd : Z -> kind) (a : Z) (o : pop) : option fconf :=
    match kd a, o with
    | KInt t, Plain p => if plain_typed t false p then Some (plain t a p) else None
    | KPtr w _, Plain p => if plain_typed (usize w) true p then Some (plain (usize w) a p) else None
    | KInt t, PlainCasWeak c n _ f =>
        if load_ord f && in_rangeb t c && in_rangeb t n then Some (plain_cas_weak t a c n) else None
    | KPtr w _, PlainCasWeak c n _ f =>
        if load_ord f && in_rangeb (usize w) c && in_rangeb (usize w) n then Some (plain_cas_weak (usize w) a c n) else None
    | KInt t, BitOp k bit _ => if (0 <=? bit) && (bit <? 2 ^ 32) then Some (bit_op g t a k bit) else None
    | KInt t, NoFetch r _ => if nofetch_typed t r then no_fetch t a r else None
    | KBool, BoolLoad ord => if load_ord ord then Some (FAccess a b_load (fun o => PBool (nz (fst o)))) else None
    | KBool, BoolStore b ord => if store_ord ord then Some (FAccess a (b_store u8 (Z.b2z b)) (fun _ => PUnit)) else None
    | KBool, BoolRmw op _ => Some (bool_rmw g a op PBool)
    | KBool, BoolNoFetch op _ => bool_no_fetch a op
    | KBool, BoolCas c n _ f => if load_ord f then Some (bool_cas g a c n) else None
    | KBool, BoolCasWeak c n _ f => if load_ord f then Some (bool_cas_weak g a c n) else None
    | KBool, BoolUpdate f _ fo => if load_ord fo then Some (bool_update a f) else None
    | KPtr w size, PtrRmw op _ => if ptr_typed w op then Some (ptr_rmw w size a op) else None
    | KPtr w _, BitOp k bit _ => if (0 <=? bit) && (bit <? 2 ^ 32) then Some (bit_op g (usize w) a k bit) else None
    | KFloat mw ew, FlLoad ord => if load_ord ord then Some (FAccess a b_load (fun o => PVal (fst o))) else None
    | KFloat mw ew, FlStore v ord =>
        if store_ord ord && in_bits (1 + mw + ew) v then Some (FAccess a (b_store (fl_ity mw ew) v) (fun _ => PUnit)) else None
    | KFloat mw ew, FlSwap v _ =>
        if in_bits (1 + mw + ew) v then Some (FAccess a (b_rmw (fl_ity mw ew) (Swap v)) (fun o => PVal (fst o))) else None
    | KFloat mw ew, FlCas c n _ f =>
        if load_ord f && in_bits (1 + mw + ew) c && in_bits (1 + mw + ew) n then
          Some (FAccess a (b_cas (fl_ity mw ew) c n false) (fun o => if snd o then POk (fst o) else PErr (fst o))) else None
    | KFloat mw ew, FlCasWeak c n _ f =>
        if load_ord f && in_bits (1 + mw + ew) c && in_bits (1 + mw + ew) n then
          Some (FAccess a (b_cas (fl_ity mw ew) c n true) (fun o => if snd o then POk (fst o) else PErr (fst o))) else None
    | KFloat mw ew, FlNeg _ =>
        Some (FAccess a (b_rmw (fl_ity mw ew) (Xor (NEG_MASK (fl_ity mw ew)))) (fun o => PVal (fst o)))
    | KFloat mw ew, FlAbs _ =>
        Some (FAccess a (b_rmw (fl_ity mw ew) (And (ABS_MASK (fl_ity mw ew)))) (fun o => PVal (fst o)))
    | KFloat mw ew, FlRmw op _ => if fop_typed (1 + mw + ew) op then Some (fl_rmw g mw ew a op) else None
    | KFloat mw ew, FlUpdate f _ fo =>
        if load_ord fo then
          Some (FUpdLoad a (1 + mw + ew) (fun v => v)
                  (fun hist x => match f hist x with Some y => Some (y mod 2 ^ (1 + mw + ew)) | None => None end) POk PErr)
        else None
    | _, _ => None
    end.
End Float.
