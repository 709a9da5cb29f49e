(** * Model of the public types of lib.rs as code around any integer type

    As FrontModel, but an integer operation is a call into a backend - code of the crate, running step by step - instead of one
    indivisible access, and orderings and panics are passed along. *)
From Coq Require Import ZArith List Bool.
From Verif Require Import Words Spec FrontSpec ByteSpec OrderingModel FrontModel LayerSpec.
Import ListNotations.
Open Scope Z_scope.

(** ** Code that calls integer operations, and threads running such code *)
Section Code.
  Context {HOp HRes Op Res : Type}.
  (** The code of one public operation: return [r], or make the integer operation [o] (on the same variable) and go on. *)
  CoInductive code := Give (r : HRes) | Ask (o : Op) (k : Res -> code).
  Variable code_of : Z -> HOp -> option code.            (* [None]: not well typed *)

  Inductive lthread := LIdle | LRun (a : Z) (c : code) | LWait (a : Z) (k : Res -> code).
  Definition lstate := nat -> lthread.
  (** Thread [t] calls a public operation; takes a step of its own; gets the answer of its integer operation. *)
  Inductive llabel := LCall (t : nat) (a : Z) (o : HOp) | LStep (t : nat) | LAnswer (t : nat) (r : Res).
  Definition lset (s : lstate) (t : nat) (x : lthread) : lstate := fun u => if Nat.eqb u t then x else s u.
  Definition layer_step (s : lstate) (l : llabel) : option (lstate * levent HOp HRes Op Res) :=
    match l with
    | LCall t a o =>
        match s t, code_of a o with
        | LIdle, Some c => Some (lset s t (LRun a c), Outer (Call t a o))
        | _, _ => None
        end
    | LStep t =>
        match s t with
        | LRun a (Give r) => Some (lset s t LIdle, Outer (Return t r))
        | LRun a (Ask o k) => Some (lset s t (LWait a k), Inner (Call t a o))
        | _ => None
        end
    | LAnswer t r =>
        match s t with
        | LWait a k => Some (lset s t (LRun a (k r)), Inner (Return t r))
        | _ => None
        end
    end.
  Fixpoint layer_run (s : lstate) (ls : list llabel) : option (lstate * list (levent HOp HRes Op Res)) :=
    match ls with
    | [] => Some (s, [])
    | l :: ls' =>
      match layer_step s l with
      | Some (s', e) => match layer_run s' ls' with Some (s'', tr) => Some (s'', e :: tr) | None => None end
      | None => None
      end
    end.
  Definition layer_init : lstate := fun _ => LIdle.
End Code.
Arguments code : clear implicits.
Arguments lthread : clear implicits.
Arguments lstate : clear implicits.
Arguments llabel : clear implicits.

(** ** The public types *)
(** [wbool]: riscv32/64, loongarch32/64 (lib.rs:1007-1012, 1079-1084); [miri]: core_atomic.rs:121-200 under cfg(miri).
    (x86's bts/btr/btc and AArch64's float atomics, single instructions, are in FrontModel only.) *)
Record pcfg := mk_pcfg { wbool : bool; miri : bool }.
Definition pcode := code (option pres) bop res.
Definition ok (r : pres) : pcode := Give (Some r).
Definition panic : pcode := Give None.

(** What a wrapper does with the result of an integer operation; a panic goes through. *)
Definition on_val (k : Z -> pcode) (r : res) : pcode := match r with RVal v => k v | _ => panic end.
Definition on_unit (c : pcode) (r : res) : pcode := match r with RUnit | RVal _ => c | _ => panic end.
Definition on_cas (k : bool -> Z -> pcode) (r : res) : pcode :=
  match r with ROk v => k true v | RErr v => k false v | _ => panic end.
Definition load (o : ordering) (k : Z -> pcode) : pcode := Ask (BOp (OLoad o)) (on_val k).
Definition store (v : Z) (o : ordering) (c : pcode) : pcode := Ask (BOp (OStore v o)) (on_unit c).
Definition fetch (r : rmw) (o : ordering) (k : Z -> pcode) : pcode := Ask (BOp (ORmw r o)) (on_val k).
Definition cas (c n : Z) (s f : ordering) (k : bool -> Z -> pcode) : pcode := Ask (BOp (OCas c n s f)) (on_cas k).
Definition cas_weak (c n : Z) (s f : ordering) (k : bool -> Z -> pcode) : pcode := Ask (BCasWeak c n s f) (on_cas k).
Definition no_result (r : rmw) (o : ordering) (c : pcode) : pcode := Ask (BNoFetch r o) (on_unit c).

(** [fetch_update_]: float/int.rs:164-182, core_atomic.rs:200-217; [fetch_update]: lib.rs:4584-4601 (floats).  [hist]: the values the
    closure was called with before. *)
CoFixpoint update_loop (f : list Z -> Z -> option Z) (s fo : ordering) (good err : Z -> pcode) (hist : list Z) (prev : Z) : pcode :=
  match f hist prev with
  | None => err prev
  | Some next => Ask (BCasWeak prev next s fo) (fun r =>
      match r with
      | ROk x => good x
      | RErr next_prev => update_loop f s fo good err (hist ++ [prev]) next_prev
      | _ => Give None
      end)
  end.
Definition update (f : list Z -> Z -> option Z) (s fo lo : ordering) (good err : Z -> pcode) : pcode :=
  load lo (fun prev => update_loop f s fo good err [] prev).

(** *** AtomicBool *)
(** lib.rs:1223, 1347, 1426 *)
Definition b_fetch_and (b : bool) (o : ordering) (k : bool -> pcode) : pcode := fetch (And (Z.b2z b)) o (fun v => k (nz v)).
Definition b_fetch_or (b : bool) (o : ordering) (k : bool -> pcode) : pcode := fetch (Or (Z.b2z b)) o (fun v => k (nz v)).
Definition b_fetch_xor (b : bool) (o : ordering) (k : bool -> pcode) : pcode := fetch (Xor (Z.b2z b)) o (fun v => k (nz v)).
(** lib.rs:1006-1028 *)
Definition b_swap (g : pcfg) (b : bool) (o : ordering) (k : bool -> pcode) : pcode :=
  if wbool g then (if b then b_fetch_or true o k else b_fetch_and false o k) else fetch (Swap (Z.b2z b)) o (fun v => k (nz v)).
(** lib.rs:1303-1314 *)
Definition b_fetch_nand (g : pcfg) (b : bool) (o : ordering) (k : bool -> pcode) : pcode :=
  if b then b_fetch_xor true o k else b_swap g true o k.
(** lib.rs:1072-1113; [k is_ok old] *)
Definition b_cas (g : pcfg) (cur new : bool) (s f : ordering) (k : bool -> bool -> pcode) : pcode :=
  if wbool g then
    match assert_compare_exchange_ordering s f with
    | None => Give None
    | Some _ =>
      let order := upgrade_success_ordering s f in
      let k' := fun old => if Bool.eqb old cur then k true old else k false old in
      if Bool.eqb cur new then b_fetch_or false order k' else b_swap g new order k'
    end
  else cas (Z.b2z cur) (Z.b2z new) s f (fun is_ok v => k is_ok (nz v)).
(** lib.rs:1156-1190 *)
Definition b_cas_weak (g : pcfg) (cur new : bool) (s f : ordering) (k : bool -> bool -> pcode) : pcode :=
  if wbool g then b_cas g cur new s f k
  else cas_weak (Z.b2z cur) (Z.b2z new) s f (fun is_ok v => k is_ok (nz v)).
Definition b_rmw (g : pcfg) (op : boolop) (o : ordering) (k : bool -> pcode) : pcode :=
  match op with
  | BSwap b => b_swap g b o k
  | BAnd b => b_fetch_and b o k
  | BNand b => b_fetch_nand g b o k
  | BOr b => b_fetch_or b o k
  | BXor b => b_fetch_xor b o k
  | BNot => b_fetch_xor true o k                                    (* lib.rs:1501 *)
  end.
(** lib.rs:1267, 1391, 1470, 1541 *)
Definition b_no_fetch (op : boolop) (o : ordering) : option pcode :=
  match op with
  | BAnd b => Some (no_result (And (Z.b2z b)) o (ok PUnit))
  | BOr b => Some (no_result (Or (Z.b2z b)) o (ok PUnit))
  | BXor b => Some (no_result (Xor (Z.b2z b)) o (ok PUnit))
  | BNot => Some (no_result (Xor (Z.b2z true)) o (ok PUnit))
  | _ => None
  end.
(** lib.rs:1594-1611 *)
CoFixpoint b_update_loop (g : pcfg) (f : list bool -> bool -> option bool) (s fo : ordering) (hist : list bool) (prev : bool) : pcode :=
  match f hist prev with
  | None => Give (Some (PErrB prev))
  | Some next => b_cas_weak g prev next s fo (fun is_ok old =>
      if is_ok then Give (Some (POkB old)) else b_update_loop g f s fo (hist ++ [prev]) old)
  end.
Definition b_update (g : pcfg) (f : list bool -> bool -> option bool) (s fo : ordering) : pcode :=
  load fo (fun v => b_update_loop g f s fo [] (nz v)).

(** *** Bit operations: utils.rs:247-299; [fetch_] is the type's own *)
Definition bit_code (t : ity) (fetch_ : rmw -> (Z -> pcode) -> pcode) (k : bitop) (bit : Z) : pcode :=
  let mask := wrapping_shl1 t bit in
  let r := match k with BSet => Or mask | BClear => And (bit_not t mask) | BToggle => Xor mask end in
  fetch_ r (fun old => ok (PBool (nz (bit_and t old mask)))).

(** *** AtomicPtr: core_atomic.rs:115-217 (under miri a compare_exchange loop, else through AtomicUsize), lib.rs:2275-2510 *)
Definition ptr_fetch (g : pcfg) (w : Z) (r : rmw) (o : ordering) (k : Z -> pcode) : pcode :=
  let t := usize w in
  let step x := match r with
                | Add v => wrapping_add t x v
                | Sub v => wrapping_sub t x v
                | Or v => bit_or t x v
                | And v => bit_and t x v
                | Xor v => bit_xor t x v
                | _ => x
                end in
  if miri g then update (fun _ x => Some (step x)) o Relaxed Relaxed k k else fetch r o k.
Definition ptr_code (g : pcfg) (w size : Z) (op : ptrop) (o : ordering) : pcode :=
  let t := usize w in
  let via r := ptr_fetch g w r o (fun v => ok (PVal v)) in
  match op with
  | ByteAdd v => via (Add v)
  | ByteSub v => via (Sub v)
  | PtrAdd v => via (Add (wrapping_mul t v size))                   (* lib.rs:2276 *)
  | PtrSub v => via (Sub (wrapping_mul t v size))                   (* lib.rs:2312 *)
  | PtrOr v => via (Or v)
  | PtrAnd v => via (And v)
  | PtrXor v => via (Xor v)
  end.

(** *** Plain integers and pointers (lib.rs:3260-3700, 1823-2260): passed through *)
Definition plain_code (o : op) : pcode :=
  match o with
  | OLoad ord => load ord (fun v => ok (PPlain (RVal v)))
  | OStore v ord => store v ord (ok (PPlain RUnit))
  | ORmw r ord => fetch r ord (fun v => ok (PPlain (RVal v)))
  | OCas c n s f => cas c n s f (fun is_ok v => ok (PPlain (if is_ok then ROk v else RErr v)))
  end.
Definition plain_weak (c n : Z) (s f : ordering) : pcode :=
  cas_weak c n s f (fun is_ok v => ok (PPlain (if is_ok then ROk v else RErr v))).

(** *** Floats: float/int.rs:61-205 *)
Section Float.
  (** as in FrontModel: what the processor computes *)
  Variable ev : Z -> fop -> list Z -> Z -> Z.
  Definition op_ok (t : ity) (ptr : bool) (o : op) : bool :=
    match o with
    | OLoad _ => true
    | OStore v _ => in_rangeb t v
    | ORmw r _ => nofetch_typed t r && match r with Swap _ => true | _ => negb ptr end
    | OCas c n _ _ => in_rangeb t c && in_rangeb t n
    end.
  (** [None]: the operation does not exist or its arguments are not of the right type. *)
  Definition public_code (g : pcfg) (kd : Z -> kind) (a : Z) (o : pop) : option pcode :=
    match kd a, o with
    | KInt t, Plain p => if op_ok t false p then Some (plain_code p) else None
    | KPtr w _, Plain p => if op_ok (usize w) true p then Some (plain_code p) else None
    | KInt t, PlainCasWeak c n s f => if in_rangeb t c && in_rangeb t n then Some (plain_weak c n s f) else None
    | KPtr w _, PlainCasWeak c n s f => if in_rangeb (usize w) c && in_rangeb (usize w) n then Some (plain_weak c n s f) else None
    | KInt t, BitOp k bit o => if (0 <=? bit) && (bit <? 2 ^ 32) then Some (bit_code t (fun r => fetch r o) k bit) else None
    | KPtr w _, BitOp k bit o => if (0 <=? bit) && (bit <? 2 ^ 32) then Some (bit_code (usize w) (fun r => ptr_fetch g w r o) k bit) else None
    | KInt t, NoFetch r o => if nofetch_typed t r && nofetch_exists r then Some (no_result r o (ok PUnit)) else None
    | KBool, BoolLoad o => Some (load o (fun v => ok (PBool (nz v))))
    | KBool, BoolStore b o => Some (store (Z.b2z b) o (ok PUnit))
    | KBool, BoolRmw op o => Some (b_rmw g op o (fun b => ok (PBool b)))
    | KBool, BoolNoFetch op o => b_no_fetch op o
    | KBool, BoolCas c n s f => Some (b_cas g c n s f (fun is_ok b => ok (if is_ok then POkB b else PErrB b)))
    | KBool, BoolCasWeak c n s f => Some (b_cas_weak g c n s f (fun is_ok b => ok (if is_ok then POkB b else PErrB b)))
    | KBool, BoolUpdate f s fo => Some (b_update g f s fo)
    | KPtr w size, PtrRmw op o => if ptr_typed w op then Some (ptr_code g w size op o) else None
    | KFloat _ _, FlLoad o => Some (load o (fun v => ok (PVal v)))
    | KFloat mw ew, FlStore v o => if in_bits (1 + mw + ew) v then Some (store v o (ok PUnit)) else None
    | KFloat mw ew, FlSwap v o => if in_bits (1 + mw + ew) v then Some (fetch (Swap v) o (fun v => ok (PVal v))) else None
    | KFloat mw ew, FlCas c n s f =>
        if in_bits (1 + mw + ew) c && in_bits (1 + mw + ew) n then Some (cas c n s f (fun is_ok v => ok (if is_ok then POk v else PErr v))) else None
    | KFloat mw ew, FlCasWeak c n s f =>
        if in_bits (1 + mw + ew) c && in_bits (1 + mw + ew) n then Some (cas_weak c n s f (fun is_ok v => ok (if is_ok then POk v else PErr v))) else None
    | KFloat mw ew, FlNeg o => Some (fetch (Xor (NEG_MASK (fl_ity mw ew))) o (fun v => ok (PVal v)))
    | KFloat mw ew, FlAbs o => Some (fetch (And (ABS_MASK (fl_ity mw ew))) o (fun v => ok (PVal v)))
    | KFloat mw ew, FlRmw op o =>
        if fop_typed (1 + mw + ew) op then
          Some (update (fun hist x => Some (ev a op hist x)) o Relaxed Relaxed (fun v => ok (PVal v)) (fun v => ok (PVal v)))
        else None
    | KFloat mw ew, FlUpdate f s fo =>
        Some (update (fun hist x => match f hist x with Some y => Some (y mod 2 ^ (1 + mw + ew)) | None => None end) s fo fo
                (fun v => ok (POk v)) (fun v => ok (PErr v)))
    | _, _ => None
    end.
End Float.
