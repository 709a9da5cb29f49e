(** * Model of the lock-based fallback: src/imp/fallback/{mod,seq_lock,seq_lock_wide,seq_lock_common}.rs

    An executable interleaving machine.  Every shared-memory access of the code is
    one step: the stamp load(s), every chunk load and chunk store, the lock [swap],
    the spinning load, the accesses of [next_stamp], the releasing store.  Memory is
    sequentially consistent here (orderings only matter for the panic checks;
    the weak-memory model is in WeakModel.v), so fences are not steps.
    Not modelled here: the optional interrupt disabling around the critical section
    (cfg portable_atomic_unsafe_assume_privileged, seq_lock_common.rs:20-21,75-80: see PrivModel.v),
    back-off (see UtilsModel.v) and what happens to a thread that is killed. *)
From Coq Require Import ZArith List Bool.
From Verif Require Import Words Spec OrderingModel.
Import ListNotations.
Open Scope Z_scope.

(** Function update (memories and thread pools are total maps). *)
Definition set_z {B} (f : Z -> B) (x : Z) (v : B) : Z -> B := fun y => if Z.eqb y x then v else f y.
Definition set_n {B} (f : nat -> B) (x : nat) (v : B) : nat -> B := fun y => if Nat.eqb y x then v else f y.

(** Configuration.
    [wide = false]: cfg_has_fast_atomic_64, seq_lock.rs, [Chunk = u64], [State = u64] (mod.rs:56-62);
    [wide = true] : cfg_no_fast_atomic_64, seq_lock_wide.rs, [Chunk = u32], [State = u32] (mod.rs:63-68).
    [big]: big-endian target, decides in which order [transmute] lays out chunks.
    [objs]: the live atomic variables, by address, with their integer type. *)
Record config := mk_config { wide : bool; big : bool; objs : Z -> option ity }.

Section Machine.
  Variable c : config.

  Definition chunk_bytes : Z := if wide c then 4 else 8.
  Definition chunk_bits : Z := 8 * chunk_bytes.
  Definition state_bits : Z := if wide c then 32 else 64.
  (** mod.rs:128 [LEN = size_of::<int>() / size_of::<Chunk>()]. *)
  Definition len (t : ity) : nat := Z.to_nat (ibits t / chunk_bits).
  (** address of [chunks[i]] (mod.rs:131-137: the variable viewed as [[AtomicChunk; LEN]]). *)
  Definition chunk_addr (a : Z) (i : nat) : Z := a + chunk_bytes * Z.of_nat i.

  (** [transmute::<int, [Chunk; LEN]>] and back (mod.rs:166,192). *)
  Definition to_chunks (t : ity) (v : Z) : list Z :=
    let l := split_le chunk_bits (len t) (to_bits t v) in if big c then rev l else l.
  Definition of_chunks (t : ity) (cs : list Z) : Z :=
    of_bits t (join_le chunk_bits (if big c then rev cs else cs)).

  (** mod.rs:83-97 [lock]: index into the table of 67 locks. *)
  Definition LOCKS_LEN : Z := 67.
  Definition lock_index (addr : Z) : Z := addr mod LOCKS_LEN.

  (** seq_lock_common.rs:12 *)
  Definition LOCKED : Z := 1.

  (** The new value computed by each operation, mod.rs:411-533
      ([swap], [fetch_add] … [fetch_min]). *)
  Definition rmw_next (t : ity) (r : rmw) (prev : Z) : Z :=
    match r with
    | Swap val => val                                (* 415 *)
    | Add val => wrapping_add t prev val             (* 449 *)
    | Sub val => wrapping_sub t prev val             (* 458 *)
    | And val => bit_and t prev val                  (* 467 *)
    | Nand val => bit_not t (bit_and t prev val)     (* 476 *)
    | Or val => bit_or t prev val                    (* 485 *)
    | Xor val => bit_xor t prev val                  (* 494 *)
    | Not => bit_not t prev                          (* 503 *)
    | Neg => wrapping_neg t prev                     (* 512 *)
    | Max val => cmp_max prev val                    (* 522 *)
    | Min val => cmp_min prev val                    (* 531 *)
    end.

  (** The ordering assertion at the head of each function
      (load 380, store 404, compare_exchange 428; RMWs have none). *)
  Definition order_ok (o : op) : bool :=
    match o with
    | OLoad ord => if assert_load_ordering ord then true else false
    | OStore _ ord => if assert_store_ordering ord then true else false
    | ORmw _ _ => true
    | OCas _ _ s f => if assert_compare_exchange_ordering s f then true else false
    end.

  (** Program counters.  [a] is the variable's address, [o] the operation being
      executed, [st] the stamp saved in the guard.
      [g], [g2] are ghosts: the number of writes completed under the lock when the
      thread made its first stamp load, and when it loaded the low stamp word; no
      transition depends on them. *)
  Inductive pc :=
  | Idle
  | Start (a : Z) (o : op)                               (* entered the function *)
  | OptHi (a : Z) (o : op)                               (* seq_lock_wide.rs:43 *)
  | OptLo (a : Z) (o : op) (sh : Z) (g : Z)              (* seq_lock.rs:33 / seq_lock_wide.rs:44 *)
  | OptRead (a : Z) (o : op) (sh sl : Z) (acc : list Z) (g g2 : Z)   (* mod.rs:162-164 *)
  | ValLo (a : Z) (o : op) (sh sl : Z) (v : Z) (g g2 : Z)(* seq_lock.rs:47 / seq_lock_wide.rs:64 *)
  | ValHi (a : Z) (o : op) (sh sl lo' : Z) (v : Z) (g g2 g3 : Z) (* seq_lock_wide.rs:68 *)
  | Acq (a : Z) (o : op)                                 (* seq_lock_common.rs:25 *)
  | Spin (a : Z) (o : op)                                (* seq_lock_common.rs:41 *)
  | LRead (a : Z) (o : op) (st : Z) (acc : list Z)       (* mod.rs:179 under the lock *)
  | LWrite (a : Z) (o : op) (st : Z) (new : list Z) (i : nat) (r : res) (* mod.rs:199-201 *)
  | RelHiLd (a : Z) (o : op) (st : Z) (r : res)          (* seq_lock_wide.rs:86 *)
  | RelHiSt (a : Z) (o : op) (st : Z) (h : Z) (r : res)  (* seq_lock_wide.rs:87 *)
  | Rel (a : Z) (o : op) (next : Z) (bump : bool) (r : res) (* seq_lock_common.rs:73 (abort) / 92 (drop) *)
  | Fin (r : res).                                       (* about to return *)

  Record lock_state := mk_lock { lo : Z; hi : Z }.
  Record state := mk_state {
    mem : Z -> Z;                 (* chunk-sized cells *)
    locks : Z -> lock_state;      (* the table, seq_lock*.rs [state] and [state_hi] *)
    pcs : nat -> pc;
    writes : Z -> Z               (* ghost: completed writes per lock *)
  }.

  (** Operand types are checked by the Rust compiler. *)
  Definition rmw_typedb (t : ity) (r : rmw) : bool :=
    match r with
    | Swap v | Add v | Sub v | And v | Nand v | Or v | Xor v | Max v | Min v => in_rangeb t v
    | Not | Neg => true
    end.
  Definition op_typedb (t : ity) (o : op) : bool :=
    match o with
    | OLoad _ => true
    | OStore v _ => in_rangeb t v
    | ORmw r _ => rmw_typedb t r
    | OCas x y _ _ => in_rangeb t x && in_rangeb t y
    end.

  (** A schedule entry: thread [t] takes its next step; when it is idle it calls
      the given operation. *)
  Record label := mk_label { tid : nat; call : option (Z * op) }.

  Definition obj_ty (a : Z) : ity := match objs c a with Some t => t | None => u128 end.

  Definition go (s : state) (t : nat) (p : pc) : state :=
    mk_state (mem s) (locks s) (set_n (pcs s) t p) (writes s).

  (** After [next_stamp] computed the new low word (seq_lock.rs:53-55, seq_lock_wide.rs:79-91). *)
  Definition next_lo (st : Z) : Z := (st + 2) mod 2 ^ state_bits.

  (** One step of thread [t]; [None] = this schedule entry is not possible. *)
  Definition step (s : state) (l : label) : option (state * list (event op res)) :=
    let t := tid l in
    match pcs s t with
    | Idle =>
      match call l with
      | Some (a, o) =>
        match objs c a with
        | Some ty => if op_typedb ty o then Some (go s t (Start a o), [Call t a o]) else None
        | None => None
        end
      | None => None
      end
    | Start a o =>
      if order_ok o then
        match o with
        | OLoad _ => (* mod.rs:385 *)
          if wide c then Some (go s t (OptHi a o), [])
          else Some (go s t (OptLo a o 0 0), [])
        | _ => Some (go s t (Acq a o), [])
        end
      else Some (go s t (Fin RPanic), [])
    | OptHi a o =>
      Some (go s t (OptLo a o (hi (locks s (lock_index a))) (writes s (lock_index a))), [])
    | OptLo a o sh g =>
      let v := lo (locks s (lock_index a)) in
      if v =? LOCKED then Some (go s t (Acq a o), [])
      else Some (go s t (OptRead a o sh v [] g (writes s (lock_index a))), [])
    | OptRead a o sh sl acc g g2 =>
      if Nat.ltb (length acc) (len (obj_ty a)) then
        Some (go s t (OptRead a o sh sl (acc ++ [mem s (chunk_addr a (length acc))]) g g2), [])
      else Some (go s t (ValLo a o sh sl (of_chunks (obj_ty a) acc) g g2), [])
    | ValLo a o sh sl v g g2 =>
      let x := lo (locks s (lock_index a)) in
      if wide c then Some (go s t (ValHi a o sh sl x v g g2 (writes s (lock_index a))), [])
      else if x =? sl then Some (go s t (Fin (RVal v)), [])
           else Some (go s t (Acq a o), [])
    | ValHi a o sh sl lo' v g g2 g3 =>
      let x := hi (locks s (lock_index a)) in
      if (x =? sh) && (lo' =? sl) then Some (go s t (Fin (RVal v)), [])
      else Some (go s t (Acq a o), [])
    | Acq a o =>
      let k := lock_index a in
      let prev := lo (locks s k) in
      let s' := mk_state (mem s) (set_z (locks s) k (mk_lock LOCKED (hi (locks s k)))) (pcs s) (writes s) in
      if prev =? LOCKED then Some (go s' t (Spin a o), [])
      else
        match o with
        | OStore v _ => Some (go s' t (LWrite a o prev (to_chunks (obj_ty a) v) 0 RUnit), []) (* mod.rs:406-407 *)
        | _ => Some (go s' t (LRead a o prev []), [])
        end
    | Spin a o =>
      if lo (locks s (lock_index a)) =? LOCKED then Some (s, [])
      else Some (go s t (Acq a o), [])
    | LRead a o st acc =>
      let ty := obj_ty a in
      if Nat.ltb (length acc) (len ty) then
        Some (go s t (LRead a o st (acc ++ [mem s (chunk_addr a (length acc))])), [])
      else
        let prev := of_chunks ty acc in
        match o with
        | OLoad _ => Some (go s t (Rel a o st false (RVal prev)), [])             (* 395-398 *)
        | OCas cur new _ _ =>
          if prev =? cur then Some (go s t (LWrite a o st (to_chunks ty new) 0 (ROk prev)), []) (* 434-436 *)
          else Some (go s t (Rel a o st false (RErr prev)), [])                   (* 438-440 *)
        | ORmw r _ => Some (go s t (LWrite a o st (to_chunks ty (rmw_next ty r prev)) 0 (RVal prev)), [])
        | OStore _ _ => None
        end
    | LWrite a o st new i r =>
      if Nat.ltb i (len (obj_ty a)) then
        Some (mk_state (set_z (mem s) (chunk_addr a i) (nth i new 0)) (locks s)
                       (set_n (pcs s) t (LWrite a o st new (S i) r)) (writes s), [])
      else (* guard dropped, seq_lock_common.rs:87 *)
        if wide c && (next_lo st =? 0) then Some (go s t (RelHiLd a o st r), [])
        else Some (go s t (Rel a o (next_lo st) true r), [])
    | RelHiLd a o st r =>
      Some (go s t (RelHiSt a o st (hi (locks s (lock_index a))) r), [])
    | RelHiSt a o st h r =>
      let k := lock_index a in
      Some (mk_state (mem s) (set_z (locks s) k (mk_lock (lo (locks s k)) ((h + 1) mod 2 ^ 32)))
                     (set_n (pcs s) t (Rel a o (next_lo st) true r)) (writes s), [])
    | Rel a o next bump r =>
      let k := lock_index a in
      Some (mk_state (mem s) (set_z (locks s) k (mk_lock next (hi (locks s k))))
                     (set_n (pcs s) t (Fin r))
                     (if bump then set_z (writes s) k (writes s k + 1) else writes s), [])
    | Fin r => Some (go s t Idle, [Return t r])
    end.

  (** Initially every lock is [SeqLock::new()], every variable holds its initial
      value and nobody is running. *)
  Definition init (m : Z -> Z) : state :=
    mk_state m (fun _ => mk_lock 0 0) (fun _ => Idle) (fun _ => 0).

  (** Running a schedule; events accumulate. *)
  Fixpoint run (s : state) (ls : list label) : option (state * list (event op res)) :=
    match ls with
    | [] => Some (s, [])
    | l :: ls' =>
      match step s l with
      | Some (s', e) =>
        match run s' ls' with
        | Some (s'', es) => Some (s'', e ++ es)
        | None => None
        end
      | None => None
      end
    end.

  (** The value a variable holds according to memory. *)
  Definition chunks_at (m : Z -> Z) (a : Z) (n : nat) : list Z :=
    map (fun i => m (chunk_addr a i)) (seq 0 n).
  Definition var_value (m : Z -> Z) (a : Z) : Z :=
    of_chunks (obj_ty a) (chunks_at m a (len (obj_ty a))).

  (** The version counter is finite: an optimistic load can only be trusted when fewer
      than [max_window] writes completed under its lock since its first stamp load.
      [window_ok s t]: true unless thread [t] is about to make its last validation load
      and more writes than that have completed. *)
  Definition max_window : Z := if wide c then 2 ^ 63 - 2 ^ 31 else 2 ^ 63.
  Definition window_ok (s : state) (t : nat) : Prop :=
    match pcs s t with
    | ValLo a _ _ _ _ _ g2 => wide c = false -> writes s (lock_index a) - g2 < max_window
    | ValHi a _ _ _ _ _ g _ _ => writes s (lock_index a) - g < max_window
    | _ => True
    end.
  Fixpoint windows_ok (s : state) (ls : list label) : Prop :=
    match ls with
    | [] => True
    | l :: ls' => window_ok s (tid l) /\
                  match step s l with Some (s', _) => windows_ok s' ls' | None => True end
    end.

  (** Distinct live objects do not overlap, and their size is a whole number of chunks
      (the [static_assert]s at mod.rs:132-133 ask for at least two). *)
  Definition wf_config : Prop :=
    (forall a t, objs c a = Some t -> exists n : nat, (1 < n)%nat /\ ibits t = chunk_bits * Z.of_nat n) /\
    (forall a b ta tb i j, objs c a = Some ta -> objs c b = Some tb ->
       (i < len ta)%nat -> (j < len tb)%nat -> chunk_addr a i = chunk_addr b j -> a = b).
  Definition wf_mem (m : Z -> Z) : Prop := forall x, 0 <= m x < 2 ^ chunk_bits.

  (** "Atomic variable" for this machine: the sequential meaning of Spec.v at the
      variable's type. *)
  Definition atomic_var (a : Z) (o : op) (v : Z) (out : Z * res) : Prop :=
    exists t, objs c a = Some t /\ out = spec_op t o v.
End Machine.
