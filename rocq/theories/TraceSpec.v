(** * Specification for C31: which accesses of a thread stay in order

    One thread executes a sequence of events: reads and writes of memory, fences, conditional
    branches.  [ppo] is the part of program order that the architecture preserves; it combines the
    rules of the RISC-V (RVWMO), Arm (Armv8) and Power memory models that the crate relies on, and
    the one of x86-TSO and z/Architecture.  Nothing here comes from the crate. *)
From Coq Require Import ZArith List Bool Relations.
From Verif Require Import Words Spec WideSpec.
Import ListNotations.

(** Acquire annotation of a read: none; RCpc (Arm ldapr family); RCsc (Arm lda*, RISC-V .aq). *)
Inductive acq := ANone | APc | ASc.
(** [Rd lo hi a]: read of (the lower / upper half of) the variable.
    [Fence rr rw wr ww]: orders earlier reads before later reads, earlier reads before later writes, ...
    [Branch]: conditional branch.  [Isync]: Power isync. *)
Inductive ev := Rd (lo hi : bool) (a : acq) | Wr (rel : bool) | Fence (rr rw wr ww : bool) | Branch | Isync.
Definition full : ev := Fence true true true true.
Definition is_rd (e : ev) : bool := match e with Rd _ _ _ => true | _ => false end.
Definition is_wr (e : ev) : bool := match e with Wr _ => true | _ => false end.
Definition is_access (e : ev) : bool := is_rd e || is_wr e.
Definition covers (f e1 e2 : ev) : bool :=
  match f with
  | Fence rr rw wr ww => (is_rd e1 && is_rd e2 && rr) || (is_rd e1 && is_wr e2 && rw) ||
                         (is_wr e1 && is_rd e2 && wr) || (is_wr e1 && is_wr e2 && ww)
  | _ => false
  end.

Section Order.
  (** total store order: everything but a write before a read *)
  Variable tso : bool.
  (** [ppo tr i j]: the accesses number [i] and [j] of [tr] stay in order *)
  Inductive ppo (tr : list ev) (i j : nat) : Prop :=
  | ppo_acquire lo hi a e : (i < j)%nat -> nth_error tr i = Some (Rd lo hi a) -> a <> ANone ->
      nth_error tr j = Some e -> is_access e = true -> ppo tr i j
  | ppo_release e : (i < j)%nat -> nth_error tr i = Some e -> is_access e = true ->
      nth_error tr j = Some (Wr true) -> ppo tr i j
  | ppo_rcsc lo hi : (i < j)%nat -> nth_error tr i = Some (Wr true) -> nth_error tr j = Some (Rd lo hi ASc) -> ppo tr i j
  | ppo_fence k f e1 e2 : (i < k < j)%nat -> nth_error tr i = Some e1 -> nth_error tr k = Some f -> nth_error tr j = Some e2 ->
      covers f e1 e2 = true -> ppo tr i j
  | ppo_isync k l e1 e2 : (i < k < l)%nat -> (l < j)%nat -> nth_error tr i = Some e1 -> is_rd e1 = true ->
      nth_error tr k = Some Branch -> nth_error tr l = Some Isync -> nth_error tr j = Some e2 -> is_access e2 = true -> ppo tr i j
  | ppo_tso e1 e2 : tso = true -> (i < j)%nat -> nth_error tr i = Some e1 -> nth_error tr j = Some e2 ->
      is_access e1 = true -> is_access e2 = true -> (is_wr e1 = true -> is_wr e2 = true) -> ppo tr i j.
  Definition ordered (tr : list ev) : nat -> nat -> Prop := clos_trans nat (ppo tr).

  (** Of an operation's events [tr]: the read that gave (half of) the value it works with - the last one - ... *)
  Definition final_read (tr : list ev) (i : nat) : Prop := exists lo hi a, nth_error tr i = Some (Rd lo hi a) /\
    ((lo = true /\ forall j lo' hi' a', (i < j)%nat -> nth_error tr j = Some (Rd lo' hi' a') -> lo' = false) \/
     (hi = true /\ forall j lo' hi' a', (i < j)%nat -> nth_error tr j = Some (Rd lo' hi' a') -> hi' = false)).
  (** ... and its writes. *)
  Definition write_at (tr : list ev) (i : nat) : Prop := exists b, nth_error tr i = Some (Wr b).
  Definition own_access (tr : list ev) (i : nat) : Prop := final_read tr i \/ write_at tr i.
  Definition access_at (tr : list ev) (i : nat) : Prop := exists e, nth_error tr i = Some e /\ is_access e = true.

  (** Whatever the thread does before ([pre]) and after ([post]): *)
  Definition acquires (tr : list ev) : Prop := forall pre post i j, final_read tr i -> access_at post j ->
    ordered (pre ++ tr ++ post) (length pre + i) (length pre + length tr + j).
  Definition releases (tr : list ev) : Prop := forall pre post i j, access_at pre i -> write_at tr j ->
    ordered (pre ++ tr ++ post) i (length pre + j).
  (** ... and in between ([mid]): *)
  Definition stay_in_order (tr1 tr2 : list ev) : Prop := forall pre mid post i j, own_access tr1 i -> own_access tr2 j ->
    ordered (pre ++ tr1 ++ mid ++ tr2 ++ post) (length pre + i) (length pre + length tr1 + length mid + j).
End Order.

(** The ordering that a call which returned [r] has to provide. *)
Definition asked (o : wop) (r : res) : ordering :=
  match o with
  | WOp (OLoad ord) | WOp (OStore _ ord) | WOp (ORmw _ ord) => ord
  | WOp (OCas _ _ s f) | WCasWeak _ _ s f => match r with RErr _ => f | _ => s end
  end.
Definition acquire_asked (ord : ordering) : bool := match ord with Acquire | AcqRel | SeqCst => true | _ => false end.
Definition release_asked (ord : ordering) : bool := match ord with Release | AcqRel | SeqCst => true | _ => false end.
(** [does o tr r]: some execution of [o] has the events [tr] and returns [r].  Then: *)
Definition provides (tso : bool) (does : wop -> list ev -> res -> Prop) : Prop :=
  (forall o tr r, does o tr r -> acquire_asked (asked o r) = true -> acquires tso tr) /\
  (forall o tr r, does o tr r -> release_asked (asked o r) = true -> releases tso tr) /\
  (forall o1 tr1 r1 o2 tr2 r2, does o1 tr1 r1 -> does o2 tr2 r2 -> asked o1 r1 = SeqCst -> asked o2 r2 = SeqCst ->
     stay_in_order tso tr1 tr2).

(** On a CPU where a write does not reach all other threads at once (Power), keeping two accesses in order is
    not enough for a single order of all SeqCst operations: a full fence (sync) has to stand between them. *)
Definition separated (tr1 tr2 : list ev) : Prop := forall pre mid post i j, own_access tr1 i -> own_access tr2 j ->
  exists k, (length pre + i < k < length pre + length tr1 + length mid + j)%nat /\
    nth_error (pre ++ tr1 ++ mid ++ tr2 ++ post) k = Some full.
Definition seqcst_separated (does : wop -> list ev -> res -> Prop) : Prop :=
  forall o1 tr1 r1 o2 tr2 r2, does o1 tr1 r1 -> does o2 tr2 r2 -> asked o1 r1 = SeqCst -> asked o2 r2 = SeqCst ->
    separated tr1 tr2.
