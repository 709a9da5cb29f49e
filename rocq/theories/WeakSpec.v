(** * Specification for weak memory: the variable is a native release/acquire atomic

    The variable at address [a] is one location of the weak-memory machine.  A load is an acquire
    load, a store a release store, a read-modify-write an acquire-release one, a failing
    compare_exchange an acquire load; with SeqCst a SeqCst fence comes before and after.  So a
    read value is always the whole value of one store, reading it synchronises with the thread
    that stored it, and read-modify-writes read the message directly before their own. *)
From Coq Require Import ZArith List Bool.
From Verif Require Import Words Spec WeakMem.
Import ListNotations.
Open Scope Z_scope.

Inductive aloc := Ad (a : Z) | Ac (x : Z).
Definition aloc_eqb (x y : aloc) : bool :=
  match x, y with Ad a, Ad b => a =? b | Ac a, Ac b => a =? b | _, _ => false end.

Definition asks_sc (o : op) : bool :=
  match o with
  | OLoad SeqCst | OStore _ SeqCst | ORmw _ SeqCst | OCas _ _ SeqCst _ | OCas _ _ _ SeqCst => true
  | _ => false
  end.
Definition panics (o : op) : bool :=
  match o with
  | OLoad Release | OLoad AcqRel | OStore _ Acquire | OStore _ AcqRel | OCas _ _ _ Release | OCas _ _ _ AcqRel => true
  | _ => false
  end.
Inductive sconf := SBegin (a : Z) (o : op) | SDo (a : Z) (o : op) | SEnd (r : res) | SRet (r : res).
Definition s_finish (o : op) (r : res) : sconf := if asks_sc o then SEnd r else SRet r.
Definition s_next (ty : Z -> ity) (c : sconf) : todo aloc sconf res :=
  match c with
  | SBegin a o => Do (Fence FSeqCst) (fun _ _ => SDo a o)
  | SDo a o =>
    match o with
    | OLoad _ => Do (Load (Ad a) true) (fun _ v => s_finish o (RVal v))
    | OStore v _ => Do (Store (Ad a) v true) (fun _ _ => s_finish o RUnit)
    | ORmw r _ => Do (Rmw (Ad a) (fun x => Some (spec_rmw (ty a) r x)) true true) (fun _ v => s_finish o (RVal v))
    | OCas c n _ _ => Do (Rmw (Ad a) (fun x => if x =? c then Some n else None) true true)
                         (fun _ v => s_finish o (if v =? c then ROk v else RErr v))
    end
  | SEnd r => Do (Fence FSeqCst) (fun _ _ => SRet r)
  | SRet r => Give r
  end.
Definition s_code (objs : Z -> option ity) (a : Z) (o : op) : option sconf :=
  match objs a with
  | Some _ => Some (if panics o then SRet RPanic else if asks_sc o then SBegin a o else SDo a o)
  | None => None
  end.
(** Initial values: [vars] of the atomic variables, [own] of the ordinary locations. *)
Definition s_init (vars own : Z -> Z) : wst aloc sconf :=
  winit (fun x => match x with Ad a => vars a | Ac x => own x end).

(** ** What can be read off a history *)
Definition pend1 (f : nat -> option (Z * op)) (e : wevent op res) : nat -> option (Z * op) :=
  match e with
  | ECall t a o => upd f t (Some (a, o))
  | ERet t _ => upd f t None
  | EOwn _ _ _ => f
  end.
(** the call a thread is in the middle of after [h] *)
Definition pending (h : list (wevent op res)) : nat -> option (Z * op) := fold_left pend1 h (fun _ => None).
(** a call of [o] on the variable [a] by [t] returned [r] *)
Definition answers (h : list (wevent op res)) (t : nat) (a : Z) (o : op) (r : res) : Prop :=
  exists h1 h2, h = h1 ++ ERet t r :: h2 /\ pending h1 t = Some (a, o).
Definition value_of (r : res) : option Z := match r with RVal v | ROk v | RErr v => Some v | _ => None end.
(** values that the calls in [h] could have left in [a], each as a whole, starting from [v0] *)
Inductive made (ty : ity) (v0 : Z) (h : list (wevent op res)) (a : Z) : Z -> Prop :=
| made_init : made ty v0 h a v0
| made_store t v o : In (ECall t a (OStore v o)) h -> made ty v0 h a v
| made_cas t x n o o' : In (ECall t a (OCas x n o o')) h -> made ty v0 h a n
| made_rmw t r o x : In (ECall t a (ORmw r o)) h -> made ty v0 h a x -> made ty v0 h a (spec_rmw ty r x).
Definition is_load_call (o : op) : bool := match o with OLoad _ => true | _ => false end.
Definition writes_own (x : Z) (e : wevent op res) : bool :=
  match e with EOwn _ (Store y _ _) _ | EOwn _ (Rmw y _ _ _) _ => y =? x | _ => false end.
Definition calls (t : nat) (e : wevent op res) : bool := match e with ECall t' _ _ => Nat.eqb t' t | _ => false end.
(** the values returned by the read-modify-writes on [a], in the order of the returns *)
Fixpoint rmw_values (f : nat -> option (Z * op)) (a : Z) (h : list (wevent op res)) : list Z :=
  match h with
  | [] => []
  | e :: h' =>
    match e with
    | ERet t (RVal v) => match f t with
                         | Some (b, ORmw _ _) => if b =? a then [v] else []
                         | _ => []
                         end
    | _ => []
    end ++ rmw_values (pend1 f e) a h'
  end.

(** ** SeqCst *)
(** in [h], [t] stored [v] to [a], and after that store returned called a load of [b] that returned [r]; both SeqCst *)
Definition stores_then_loads (h : list (wevent op res)) (t : nat) (a v b r : Z) : Prop := exists h0 h1 h2 h3,
  h = h0 ++ ERet t RUnit :: h1 ++ ECall t b (OLoad SeqCst) :: h2 ++ ERet t (RVal r) :: h3 /\
  pending h0 t = Some (a, OStore v SeqCst) /\ Forall (fun e => calls t e = false) h2.
(** the calls on [a] are loads and stores of values other than [v] *)
Definition only_stores_but (v a : Z) (h : list (wevent op res)) : Prop := forall t o, In (ECall t a o) h ->
  match o with OLoad _ => True | OStore w _ => w <> v | _ => False end.

(** the calls and returns of the operations on the variables in [P] *)
Definition piece (P : Z -> bool) (f : nat -> option (Z * op)) (e : wevent op res) : list (event op res) :=
  match e with
  | ECall t a o => if P a then [Call t a o] else []
  | ERet t r => match f t with Some (a, _) => if P a then [Return t r] else [] | None => [] end
  | EOwn _ _ _ => []
  end.
Fixpoint part (P : Z -> bool) (f : nat -> option (Z * op)) (h : list (wevent op res)) : list (event op res) :=
  match h with
  | [] => []
  | e :: h' => piece P f e ++ part P (pend1 f e) h'
  end.
Definition calls_on (P : Z -> bool) (h : list (wevent op res)) : list (event op res) := part P (fun _ => None) h.
