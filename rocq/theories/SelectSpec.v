(** * Specification of operations served by one of two implementations, chosen at run time

    Four kinds of events are observed: what the program sees ([Public]: calls and returns of the operations, [LockFree]: answers of
    [is_lock_free]) and what happens underneath ([Native]: calls and returns of the implementations made of CPU instructions, each
    with the variant [V] used for it; [Locked]: those of the lock-based implementation). *)
From Coq Require Import ZArith List Bool.
From Verif Require Import Words Spec WideSpec OrderSpec EntrySpec LayerSpec.
Import ListNotations.
Open Scope Z_scope.

Inductive sevent (V : Type) :=
| Public (e : event wop res) | LockFree (answer : bool) | Native (e : event (V * wop) res) | Locked (e : event op res).
Arguments Public {V}. Arguments LockFree {V}. Arguments Native {V}. Arguments Locked {V}.
Fixpoint publics {V} (tr : list (sevent V)) : list (event wop res) :=
  match tr with [] => [] | Public e :: tr => e :: publics tr | _ :: tr => publics tr end.
Fixpoint natives {V} (tr : list (sevent V)) : list (event (V * wop) res) :=
  match tr with [] => [] | Native e :: tr => e :: natives tr | _ :: tr => natives tr end.
Fixpoint lockeds {V} (tr : list (sevent V)) : list (event op res) :=
  match tr with [] => [] | Locked e :: tr => e :: lockeds tr | _ :: tr => lockeds tr end.

(** The operations as the program sees them: forbidden orderings panic, the rest is atomic. *)
Definition seen (ty : Z -> ity) : Z -> wop -> Z -> Z * res -> Prop := with_panics forbidden_w RPanic (sem ty).
(** Underneath, the variant does not matter. *)
Definition by_variant {V} (sm : Z -> wop -> Z -> Z * res -> Prop) (a : Z) (o : V * wop) : Z -> Z * res -> Prop := sm a (snd o).

(** The orderings of a call. *)
Definition orderings (o : wop) : ordering * ordering :=
  match o with
  | WOp (OLoad o) | WOp (OStore _ o) | WOp (ORmw _ o) => (o, o)
  | WOp (OCas _ _ s f) | WCasWeak _ _ s f => (s, f)
  end.
(** [o'] does the work of [o]: the same operation on the same operands, a weak compare_exchange possibly as a strong one and a
    store possibly as a swap, with orderings that are allowed and at least as strong. *)
Definition same_work (o o' : wop) : Prop :=
  match o, o' with
  | WOp (OLoad _), WOp (OLoad _) => True
  | WOp (OStore v _), WOp (OStore w _) | WOp (OStore v _), WOp (ORmw (Swap w) _) => v = w
  | WOp (ORmw r _), WOp (ORmw q _) => r = q
  | WOp (OCas c n _ _), WOp (OCas d m _ _) | WCasWeak c n _ _, WOp (OCas d m _ _) | WCasWeak c n _ _, WCasWeak d m _ _ => c = d /\ n = m
  | _, _ => False
  end.
Definition does (o o' : wop) : Prop :=
  same_work o o' /\ ~ forbidden_w o' /\
  at_least (fst (orderings o')) (fst (orderings o)) /\ at_least (snd (orderings o')) (snd (orderings o)).
(** The result of the swap is dropped. *)
Definition passed_on (o : wop) (r : res) : res := match o, r with WOp (OStore _ _), RVal _ => RUnit | _, _ => r end.

(** Both kinds of implementation calls as [Inner] events, to say how they relate to the public ones: *)
Definition layered1 {V} (e : sevent V) : list (levent wop res wop res) :=
  match e with
  | Public e => [Outer e]
  | LockFree _ => []
  | Native (Call t a (_, o)) => [Inner (Call t a o)]
  | Locked (Call t a o) => [Inner (Call t a (WOp o))]
  | Native (Return t r) | Locked (Return t r) => [Inner (Return t r)]
  end.
Definition layered {V} (tr : list (sevent V)) : list (levent wop res wop res) := flat_map layered1 tr.
(** one call of an implementation per call that is allowed, doing its work, whose result is passed on; none for a forbidden one,
    which panics. *)
Definition one_call (a : Z) (o : wop) (cs : list (wop * res)) (i : wop) : Prop := cs = [] /\ ~ forbidden_w o /\ does o i.
Definition one_return (a : Z) (o : wop) (cs : list (wop * res)) (r : res) : Prop :=
  match cs with [] => forbidden_w o /\ r = RPanic | [(_, ri)] => r = passed_on o ri | _ => False end.
