(** * Specification of the public types of lib.rs beyond plain integers

    AtomicBool, AtomicPtr, the atomic floats, and the bit and no-result operations of the integers.
    Nothing here refers to the crate's implementation. *)
From Coq Require Import ZArith List Bool.
From Verif Require Import Words Spec.
Import ListNotations.
Open Scope Z_scope.

(** What lives at an address.  The value of a [KInt] is a number of its type, of a [KBool] 0 or 1, of a
    [KPtr] an address, of a [KFloat mw ew] (mantissa and exponent field widths) the IEEE bit pattern. *)
Inductive kind :=
| KInt (t : ity)
| KBool
| KPtr (w size : Z)            (* address width, size_of::<T>() *)
| KFloat (mw ew : Z).

Inductive bitop := BSet | BClear | BToggle.
Inductive boolop := BSwap (b : bool) | BAnd (b : bool) | BNand (b : bool) | BOr (b : bool) | BXor (b : bool) | BNot.
Inductive ptrop :=
| PtrAdd (v : Z) | PtrSub (v : Z) | ByteAdd (v : Z) | ByteSub (v : Z) | PtrOr (v : Z) | PtrAnd (v : Z) | PtrXor (v : Z).
Inductive fop := FAdd (v : Z) | FSub (v : Z) | FMax (v : Z) | FMin (v : Z).

(** The operations.  Closures may be stateful: [f hist x] is the answer for [x] after calls with [hist]. *)
Inductive pop :=
| Plain (p : op)                                                               (* load store rmw compare_exchange: integers, pointers *)
| PlainCasWeak (current new : Z) (s f : ordering)
| BitOp (k : bitop) (bit : Z) (o : ordering)                                   (* integers, pointers *)
| NoFetch (r : rmw) (o : ordering)                                             (* add sub and or xor not neg *)
| BoolLoad (o : ordering) | BoolStore (b : bool) (o : ordering)
| BoolRmw (op : boolop) (o : ordering) | BoolNoFetch (op : boolop) (o : ordering)
| BoolCas (current new : bool) (s f : ordering) | BoolCasWeak (current new : bool) (s f : ordering)
| BoolUpdate (f : list bool -> bool -> option bool) (set fetch : ordering)
| PtrRmw (op : ptrop) (o : ordering)
| FlLoad (o : ordering) | FlStore (v : Z) (o : ordering) | FlSwap (v : Z) (o : ordering)
| FlCas (current new : Z) (s f : ordering) | FlCasWeak (current new : Z) (s f : ordering)
| FlNeg (o : ordering) | FlAbs (o : ordering) | FlRmw (op : fop) (o : ordering)
| FlUpdate (f : list Z -> Z -> option Z) (set fetch : ordering).

Inductive pres := PUnit | PBool (b : bool) | PVal (v : Z) | POk (v : Z) | PErr (v : Z) | POkB (b : bool) | PErrB (b : bool)
| PPlain (r : res).

(** Bit [bit mod w] changes as asked, every other bit stays. *)
Definition bit_changed (w : Z) (k : bitop) (bit x y : Z) : Prop :=
  forall n, 0 <= n < w ->
    Z.testbit y n = if n =? bit mod w
                    then match k with BSet => true | BClear => false | BToggle => negb (Z.testbit x n) end
                    else Z.testbit x n.

Definition bool_fn (o : boolop) (x : bool) : bool :=
  match o with
  | BSwap b => b
  | BAnd b => x && b
  | BNand b => negb (x && b)
  | BOr b => x || b
  | BXor b => xorb x b
  | BNot => negb x
  end.
Definition ptr_fn (w size : Z) (o : ptrop) (x : Z) : Z :=
  match o with
  | PtrAdd v => (x + v * size) mod 2 ^ w
  | PtrSub v => (x - v * size) mod 2 ^ w
  | ByteAdd v => (x + v) mod 2 ^ w
  | ByteSub v => (x - v) mod 2 ^ w
  | PtrOr v => Z.lor x v
  | PtrAnd v => Z.land x v
  | PtrXor v => Z.lxor x v
  end.
(** Sign bit and the rest of a float's pattern. *)
Definition fl_sign (mw ew x : Z) : Z := x / 2 ^ (mw + ew).
Definition fl_rest (mw ew x : Z) : Z := x mod 2 ^ (mw + ew).

Section Sem.
  Variable kd : Z -> kind.
  (** [arith a op x y]: [y] is a permitted result of the float operation on [x] (see FloatSpec.v) *)
  Variable arith : Z -> fop -> Z -> Z -> Prop.

  Definition psem (a : Z) (o : pop) (x : Z) (out : Z * pres) : Prop :=
    match kd a, o with
    | KInt t, Plain p => out = (fst (spec_op t p x), PPlain (snd (spec_op t p x)))
    | KInt _, PlainCasWeak c n _ _ | KPtr _ _, PlainCasWeak c n _ _ =>
        out = (if x =? c then (n, PPlain (ROk x)) else (x, PPlain (RErr x))) \/ out = (x, PPlain (RErr x))
    | KPtr w _, Plain p => out = (fst (spec_op (mk_ity w false) p x), PPlain (snd (spec_op (mk_ity w false) p x)))
    | KInt t, BitOp k bit _ =>
        exists y, in_range t y /\ bit_changed (ibits t) k bit x y /\ out = (y, PBool (Z.testbit x (bit mod ibits t)))
    | KInt t, NoFetch r _ => out = (spec_rmw t r x, PUnit)
    | KBool, BoolLoad _ => exists c, x = Z.b2z c /\ out = (x, PBool c)
    | KBool, BoolStore b _ => out = (Z.b2z b, PUnit)
    | KBool, BoolRmw op _ => exists c, x = Z.b2z c /\ out = (Z.b2z (bool_fn op c), PBool c)
    | KBool, BoolNoFetch op _ => exists c, x = Z.b2z c /\ out = (Z.b2z (bool_fn op c), PUnit)
    | KBool, BoolCas cu nw _ _ =>
        exists c, x = Z.b2z c /\ out = if Bool.eqb c cu then (Z.b2z nw, POkB c) else (x, PErrB c)
    | KBool, BoolCasWeak cu nw _ _ =>
        exists c, x = Z.b2z c /\ (out = (if Bool.eqb c cu then (Z.b2z nw, POkB c) else (x, PErrB c)) \/ out = (x, PErrB c))
    | KBool, BoolUpdate f _ _ =>
        exists c hist, x = Z.b2z c /\ out = match f hist c with Some n => (Z.b2z n, POkB c) | None => (x, PErrB c) end
    | KPtr w size, PtrRmw op _ => out = (ptr_fn w size op x, PVal x)
    | KPtr w _, BitOp k bit _ =>
        exists y, 0 <= y < 2 ^ w /\ bit_changed w k bit x y /\ out = (y, PBool (Z.testbit x (bit mod w)))
    | KFloat _ _, FlLoad _ => out = (x, PVal x)
    | KFloat _ _, FlStore v _ => out = (v, PUnit)
    | KFloat _ _, FlSwap v _ => out = (v, PVal x)
    | KFloat _ _, FlCas c n _ _ => out = if x =? c then (n, POk x) else (x, PErr x)
    | KFloat _ _, FlCasWeak c n _ _ => out = (if x =? c then (n, POk x) else (x, PErr x)) \/ out = (x, PErr x)
    | KFloat mw ew, FlNeg _ => out = ((1 - fl_sign mw ew x) * 2 ^ (mw + ew) + fl_rest mw ew x, PVal x)
    | KFloat mw ew, FlAbs _ => out = (fl_rest mw ew x, PVal x)
    | KFloat _ _, FlRmw op _ => exists y, arith a op x y /\ out = (y, PVal x)
    | KFloat mw ew, FlUpdate f _ _ =>
        exists hist, out = match f hist x with Some y => (y mod 2 ^ (1 + mw + ew), POk x) | None => (x, PErr x) end
    | _, _ => False
    end.

  (** Types the crate offers. *)
  Definition kind_ok (k : kind) : Prop :=
    match k with
    | KInt t => exists e, 0 <= e /\ ibits t = 2 ^ e
    | KBool => True
    | KPtr w size => (exists e, 0 <= e /\ w = 2 ^ e) /\ 0 <= size
    | KFloat mw ew => 0 < mw /\ 0 < ew
    end.
  (** Number of bits a variable's contents need, and its abstract value. *)
  Definition kbits (k : kind) : Z :=
    match k with KInt t => ibits t | KBool => 1 | KPtr w _ => w | KFloat mw ew => 1 + mw + ew end.
  Definition kval (k : kind) (x : Z) : Z := match k with KInt t => of_bits t x | _ => x end.

  Definition pmem_ok (m : Z -> Z) : Prop := forall a, 0 <= m a < 2 ^ kbits (kd a).
  Definition atomic_history_p (m : Z -> Z) (h : list (event pop pres)) (m' : Z -> Z) : Prop :=
    linearizable_to psem (fun a => kval (kd a) (m a)) h (fun a => Some (kval (kd a) (m' a))).
End Sem.
