(** * Specification of types built on top of others

    The public types ([AtomicBool], [AtomicPtr], the floats, the bit operations...) are library code around an integer type
    whose operations are themselves pieces of code.  Here both levels are observed at once: [Outer] events are the calls and
    returns of the public operations, [Inner] ones those of the integer operations underneath. *)
From Coq Require Import ZArith List Bool.
From Verif Require Import Words Spec FrontSpec ByteSpec OrderSpec.
Import ListNotations.
Open Scope Z_scope.

Section Layer.
  Context {HOp HRes Op Res : Type}.
  Inductive levent := Outer (e : event HOp HRes) | Inner (e : event Op Res).
  Fixpoint outer_of (tr : list levent) : list (event HOp HRes) :=
    match tr with [] => [] | Outer e :: tr => e :: outer_of tr | Inner _ :: tr => outer_of tr end.
  Fixpoint inner_of (tr : list levent) : list (event Op Res) :=
    match tr with [] => [] | Inner e :: tr => e :: inner_of tr | Outer _ :: tr => inner_of tr end.

  (** What each thread is doing: its public operation, the integer operations this has made so far with their results (latest
      first), and the one it is in. *)
  Record busy := mk_busy { baddr : Z; bop_ : HOp; bcalls : list (Op * Res); bin : option Op }.
  Definition llog := nat -> option busy.
  Definition llog_step (log : llog) (e : levent) : llog :=
    let set t b := fun u => if Nat.eqb u t then b else log u in
    match e with
    | Outer (Call t a o) => set t (Some (mk_busy a o [] None))
    | Outer (Return t _) => set t None
    | Inner (Call t _ o) => match log t with Some b => set t (Some (mk_busy (baddr b) (bop_ b) (bcalls b) (Some o))) | None => log end
    | Inner (Return t r) =>
        match log t with
        | Some (mk_busy a h cs (Some o)) => set t (Some (mk_busy a h ((o, r) :: cs) None))
        | _ => log
        end
    end.

  (** Integer operations are made only on behalf of a public one, on the same variable, one at a time, and as [call_ok]
      says; a public operation returns only when none is in progress, and what [return_ok] allows after those it made. *)
  Variable call_ok : Z -> HOp -> list (Op * Res) -> Op -> Prop.
  Variable return_ok : Z -> HOp -> list (Op * Res) -> HRes -> Prop.
  Definition event_ok (log : llog) (e : levent) : Prop :=
    match e with
    | Outer (Call t _ _) => log t = None
    | Outer (Return t r) => exists a o cs, log t = Some (mk_busy a o cs None) /\ return_ok a o cs r
    | Inner (Call t a i) => exists o cs, log t = Some (mk_busy a o cs None) /\ call_ok a o cs i
    | Inner (Return t r) => exists a o cs i, log t = Some (mk_busy a o cs (Some i))
    end.
  Fixpoint calls_ok (log : llog) (tr : list levent) : Prop :=
    match tr with [] => True | e :: tr' => event_ok log e /\ calls_ok (llog_step log e) tr' end.
End Layer.
Arguments levent : clear implicits.
Arguments busy : clear implicits.

(** ** The public operations, panics included *)
(** Documented panics. *)
Definition panics (o : pop) : Prop :=
  match o with
  | Plain (OLoad o) | BoolLoad o | FlLoad o => load_panics o
  | Plain (OStore _ o) | BoolStore _ o | FlStore _ o => store_panics o
  | Plain (OCas _ _ s f) | PlainCasWeak _ _ s f | BoolCas _ _ s f | BoolCasWeak _ _ s f | FlCas _ _ s f | FlCasWeak _ _ s f => cas_panics s f
  | BoolUpdate _ _ f | FlUpdate _ _ f => load_panics f
  | _ => False
  end.
(** [None]: it panics, which happens exactly for those orderings and changes nothing. *)
Definition fsem (kd : Z -> kind) (arith : Z -> fop -> Z -> Z -> Prop) (a : Z) (o : pop) (x : Z) (out : Z * option pres) : Prop :=
  match out with
  | (x', None) => x' = x /\ panics o
  | (x', Some r) => psem kd arith a o x (x', r) /\ ~ panics o
  end.

(** The integer type a public type is made of. *)
Definition int_of (k : kind) : ity :=
  match k with KInt t => t | KBool => u8 | KPtr w _ => mk_ity w false | KFloat mw ew => mk_ity (1 + mw + ew) false end.
(** The values it can have: for bool only 0 and 1. *)
Definition value_ok (k : kind) (x : Z) : Prop := in_range (int_of k) x /\ match k with KBool => x = 0 \/ x = 1 | _ => True end.

(** The ordering asked for - with the result - and the one an integer operation was made with. *)
Definition wanted (o : pop) (r : pres) : ordering :=
  let ok := match r with PPlain (ROk _) | POk _ | POkB _ => true | _ => false end in
  match o with
  | Plain (OLoad o) | Plain (OStore _ o) | Plain (ORmw _ o) | BitOp _ _ o | NoFetch _ o | BoolLoad o | BoolStore _ o | BoolRmw _ o
  | BoolNoFetch _ o | PtrRmw _ o | FlLoad o | FlStore _ o | FlSwap _ o | FlNeg o | FlAbs o | FlRmw _ o => o
  | Plain (OCas _ _ s f) | PlainCasWeak _ _ s f | BoolCas _ _ s f | BoolCasWeak _ _ s f | FlCas _ _ s f | FlCasWeak _ _ s f
  | BoolUpdate _ s f | FlUpdate _ s f => if ok then s else f
  end.
Definition carried (o : bop) (r : res) : ordering :=
  match o with
  | BOp (OLoad o) | BOp (OStore _ o) | BOp (ORmw _ o) | BNoFetch _ o => o
  | BOp (OCas _ _ s f) | BCasWeak _ _ s f => match r with ROk _ => s | _ => f end
  end.
(** Operands of the right type. *)
Definition bop_typed (t : ity) (o : bop) : Prop :=
  match o with
  | BOp o => op_typed t o
  | BCasWeak c n _ _ => in_range t c /\ in_range t n
  | BNoFetch r _ => nofetch_exists r = true /\ rmw_typed t r
  end.
(** Operations that retry; every other one makes a single integer operation. *)
Definition retries (miri : bool) (k : kind) (o : pop) : Prop :=
  match k, o with
  | _, BoolUpdate _ _ _ | _, FlUpdate _ _ _ | _, FlRmw _ _ => True
  | KPtr _ _, PtrRmw _ _ | KPtr _ _, BitOp _ _ _ => miri = true
  | _, _ => False
  end.
Definition front_call (miri : bool) (kd : Z -> kind) (a : Z) (o : pop) (cs : list (bop * res)) (i : bop) : Prop :=
  bop_typed (int_of (kd a)) i /\ (cs <> [] -> retries miri (kd a) o).
(** The last integer operation is the one that counts: its ordering is at least as strong as the one asked for. *)
Definition front_return (a : Z) (o : pop) (cs : list (bop * res)) (r : option pres) : Prop :=
  match r, cs with
  | Some r, (i, ri) :: _ => at_least (carried i ri) (wanted o r)
  | Some _, [] => False
  | None, _ => panics o
  end.

(** ** What is expected of the integer type underneath: [enc] names its operations *)
Definition backend_ok {Op} (ty : Z -> ity) (sem : Z -> Op -> Z -> Z * res -> Prop) (enc : bop -> Op) : Prop :=
  forall a o x x' r, sem a (enc o) x (x', r) ->
    match o with
    | BOp o => (x', r) = spec_op (ty a) o x
    | BCasWeak c n s f => (x', r) = spec_op (ty a) (OCas c n s f) x \/ ((x', r) = (x, RErr x) /\ ~ cas_panics s f)
    | BNoFetch q _ => x' = spec_rmw (ty a) q x /\ (r = RUnit \/ r = RVal x)
    end.
Definition rename {Op Op' Res} (enc : Op -> Op') (h : list (event Op Res)) : list (event Op' Res) :=
  map (fun e => match e with Call t a o => Call t a (enc o) | Return t r => Return t r end) h.

(** ** Which operations each type has, with arguments of the right type *)
Definition rmw_args (t : ity) (r : rmw) : Prop := match r with Not | Neg => True | Swap v | Add v | Sub v | And v | Nand v | Or v | Xor v | Max v | Min v => in_range t v end.
Definition offered (k : kind) (o : pop) : Prop :=
  let t := int_of k in
  match k, o with
  | KInt _, Plain (ORmw r _) => rmw_args t r
  | KPtr _ _, Plain (ORmw r _) => match r with Swap v => in_range t v | _ => False end
  | KInt _, Plain (OLoad _) | KPtr _ _, Plain (OLoad _) => True
  | KInt _, Plain (OStore v _) | KPtr _ _, Plain (OStore v _) => in_range t v
  | KInt _, Plain (OCas c n _ _) | KPtr _ _, Plain (OCas c n _ _) | KInt _, PlainCasWeak c n _ _ | KPtr _ _, PlainCasWeak c n _ _
  | KFloat _ _, FlCas c n _ _ | KFloat _ _, FlCasWeak c n _ _ => in_range t c /\ in_range t n
  | KInt _, BitOp _ bit _ | KPtr _ _, BitOp _ bit _ => in_range u32 bit
  | KInt _, NoFetch r _ => rmw_args t r /\ match r with Swap _ | Nand _ | Max _ | Min _ => False | _ => True end
  | KBool, BoolLoad _ | KBool, BoolStore _ _ | KBool, BoolRmw _ _ | KBool, BoolCas _ _ _ _ | KBool, BoolCasWeak _ _ _ _ | KBool, BoolUpdate _ _ _ => True
  | KBool, BoolNoFetch r _ => match r with BSwap _ | BNand _ => False | _ => True end
  | KPtr _ _, PtrRmw (PtrAdd v) _ | KPtr _ _, PtrRmw (PtrSub v) _ | KPtr _ _, PtrRmw (ByteAdd v) _ | KPtr _ _, PtrRmw (ByteSub v) _
  | KPtr _ _, PtrRmw (PtrOr v) _ | KPtr _ _, PtrRmw (PtrAnd v) _ | KPtr _ _, PtrRmw (PtrXor v) _ => in_range t v
  | KFloat _ _, FlLoad _ | KFloat _ _, FlNeg _ | KFloat _ _, FlAbs _ | KFloat _ _, FlUpdate _ _ _ => True
  | KFloat _ _, FlStore v _ | KFloat _ _, FlSwap v _ => in_range t v
  | KFloat _ _, FlRmw (FAdd v) _ | KFloat _ _, FlRmw (FSub v) _ | KFloat _ _, FlRmw (FMax v) _ | KFloat _ _, FlRmw (FMin v) _ => in_range t v
  | _, _ => False
  end.
