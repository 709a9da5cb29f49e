(** * Machine for lock-free implementations

    Any number of threads run operations that are implemented by a single instruction, by a
    compare-and-swap retry loop, or by a load-linked / store-conditional retry loop.  One step is
    one memory access.  The per-architecture files say which [impl] serves which operation.

    Simplifications: an access to a whole variable by an instruction the code comments call
    "atomic { ... }" is one indivisible step; accesses are interleaved (sequential consistency);
    the computation between two memory accesses is folded into the following access. *)
From Coq Require Import ZArith List Bool.
From Verif Require Import Words Spec.
Import ListNotations.
Open Scope Z_scope.

Section Machine.
  Context {Op Res : Type}.

  (** The values below are bit patterns of the whole variable.  [reads] lists which pieces of
      [psize] bits are loaded one after the other to form the value the attempt works on, in
      program order ([ [0] ] with [psize] the full width is one untorn load).

      - [Direct f]: one atomic instruction; [f sp x] = (value written, if any; result) when the
        variable holds [x]; [sp] is the hardware's freedom to fail spuriously.
        atomic128/x86_64.rs:120-190 [cmpxchg16b], 201-262 vmovdqa, 373-420 load by cmpxchg16b;
        aarch64.rs:654 ldp, 721 ldiapp, 794 and 1447 casp, 1084 stp, 1159 stilp, 1604 swpp;
        powerpc64.rs:242 lq, 352 stq; s390x.rs:112 lpq, 132 stpq, 161 cdsg; riscv64.rs:160, 294 amocas.
      - [CasLoop]: load the pieces, then [next = body hist guess]; compare-and-swap; on failure
        retry with the value the failed instruction returned, or ([reread]) load the pieces again.
        [hist] is the list of values the closure was called with before (so [body] can be any
        stateful closure).  [body] = [None]: the closure declined; return without writing.
        x86_64.rs:553, 626, 704; s390x.rs:208, 253, 294, 428; aarch64.rs:1655, 1802, 1922;
        riscv64.rs:388-410 / riscv32.rs:390-412; core_atomic.rs:199 and 364 [fetch_update_];
        lib.rs [fetch_update]; atomic64/arm_linux.rs:116-142, 187-200 ([reread]).
      - [LlSc]: load-linked of the pieces, [body], store-conditional, retry; [body] = [None]: leave
        without storing; [weak] = [Some w]: a failing store-conditional returns [w guess] instead of
        retrying.  aarch64.rs:833, 1218, 1489, 1708, 1745, 1869;
        powerpc64.rs:475, 561 ([weak]), 619, 662, 712. *)
  Inductive impl :=
  | Direct (f : bool -> Z -> option Z * Res)
  | CasLoop (psize : Z) (reads : list nat) (reread : bool)
            (body : list Z -> Z -> option Z) (ok err : Z -> Res)
  | LlSc (psize : Z) (reads : list nat) (body : Z -> option Z) (ok err : Z -> Res)
         (weak : option (Z -> Res)).

  (** Which implementation serves operation [o] on the variable at address [a]
      ([None]: not a well-typed call). *)
  Variable impl_of : Z -> Op -> option impl.

  Definition impl_reads (i : impl) : Z * list nat :=
    match i with
    | Direct _ => (0, [])
    | CasLoop k rs _ _ _ _ => (k, rs)
    | LlSc k rs _ _ _ _ => (k, rs)
    end.
  Definition is_ll (i : impl) : bool := match i with LlSc _ _ _ _ _ _ => true | _ => false end.

  Inductive pc :=
  | Idle
  | Begin (a : Z) (o : Op) (i : impl)
  | Rd (a : Z) (o : Op) (i : impl) (hist : list Z) (n : nat) (acc : Z)  (* about to load piece number [n] *)
  | Try (a : Z) (o : Op) (i : impl) (hist : list Z) (g : Z)             (* about to attempt the update *)
  | Fin (r : Res).

  Record state := mk_state {
    mem : Z -> Z;                    (* the variables *)
    pcs : nat -> pc;
    resv : nat -> option Z;          (* load-linked reservations *)
    nwrites : Z -> nat;              (* ghost: writes to a variable so far *)
    fails : nat -> nat;              (* ghost: attempts of the running call that failed although
                                        the hardware did not fail spuriously *)
    since : nat -> nat               (* ghost: [nwrites] of its variable when the running call was made *)
  }.

  Record label := mk_label { tid : nat; call : option (Z * Op); spurious : bool }.

  Definition setn {B} (f : nat -> B) x v : nat -> B := fun y => if Nat.eqb y x then v else f y.
  Definition setz {B} (f : Z -> B) x v : Z -> B := fun y => if Z.eqb y x then v else f y.

  Definition go (s : state) (t : nat) (p : pc) : state :=
    mk_state (mem s) (setn (pcs s) t p) (resv s) (nwrites s) (fails s) (since s).
  Definition drop_all (r : nat -> option Z) (a : Z) : nat -> option Z :=
    fun u => match r u with Some b => if b =? a then None else Some b | None => None end.
  (** A store to [a] loses every reservation on [a]. *)
  Definition write (s : state) (a y : Z) : state :=
    mk_state (setz (mem s) a y) (pcs s) (drop_all (resv s) a)
             (setz (nwrites s) a (S (nwrites s a))) (fails s) (since s).
  Definition set_resv (s : state) (t : nat) (r : option Z) : state :=
    mk_state (mem s) (pcs s) (setn (resv s) t r) (nwrites s) (fails s) (since s).
  Definition count_fail (s : state) (t : nat) (sp : bool) : state :=
    mk_state (mem s) (pcs s) (resv s) (nwrites s)
             (if sp then fails s else setn (fails s) t (S (fails s t))) (since s).
  Definition start_count (s : state) (t : nat) (a : Z) : state :=
    mk_state (mem s) (pcs s) (resv s) (nwrites s) (setn (fails s) t O) (setn (since s) t (nwrites s a)).

  (** Bits [k*p .. k*(p+1)-1] of [m], in place. *)
  Definition piece (k : Z) (p : nat) (m : Z) : Z :=
    (m / 2 ^ (k * Z.of_nat p) mod 2 ^ k) * 2 ^ (k * Z.of_nat p).

  Definition has_resv (s : state) (t : nat) (a : Z) : bool :=
    match resv s t with Some b => b =? a | None => false end.

  Definition step (s : state) (l : label) : option (state * list (event Op Res)) :=
    let t := tid l in
    match pcs s t with
    | Idle =>
      match call l with
      | Some (a, o) =>
        match impl_of a o with
        | Some i => Some (go (start_count s t a) t (Begin a o i), [Call t a o])
        | None => None
        end
      | None => None
      end
    | Begin a o i =>
      match i with
      | Direct f =>
        match f (spurious l) (mem s a) with
        | (Some y, r) => Some (go (write s a y) t (Fin r), [])
        | (None, r) => Some (go s t (Fin r), [])
        end
      | _ => Some (go s t (Rd a o i [] 0 0), [])
      end
    | Rd a o i hist n acc =>
      let '(k, rs) := impl_reads i in
      match nth_error rs n with
      | Some p =>
        let acc' := acc + piece k p (mem s a) in
        let s' := if is_ll i && Nat.eqb n 0 then set_resv s t (Some a) else s in
        if Nat.eqb (S n) (length rs) then Some (go s' t (Try a o i hist acc'), [])
        else Some (go s' t (Rd a o i hist (S n) acc'), [])
      | None => None
      end
    | Try a o i hist g =>
      match i with
      | Direct _ => None
      | CasLoop _ _ reread body ok err =>
        match body hist g with
        | None => Some (go s t (Fin (err g)), [])
        | Some y =>
          if (mem s a =? g) && negb (spurious l) then Some (go (write s a y) t (Fin (ok g)), [])
          else Some (go (count_fail s t (spurious l)) t
                        (if reread then Rd a o i (hist ++ [g]) 0 0 else Try a o i (hist ++ [g]) (mem s a)), [])
        end
      | LlSc _ _ body ok err weak =>
        match body g with
        | None => Some (go s t (Fin (err g)), [])
        | Some y =>
          if has_resv s t a && negb (spurious l) then Some (go (write s a y) t (Fin (ok g)), [])
          else
            let s' := set_resv (count_fail s t (spurious l)) t None in
            match weak with
            | Some w => Some (go s' t (Fin (w g)), [])
            | None => Some (go s' t (Rd a o i (hist ++ [g]) 0 0), [])
            end
        end
      end
    | Fin r => Some (go s t Idle, [Return t r])
    end.

  Definition init (m : Z -> Z) : state :=
    mk_state m (fun _ => Idle) (fun _ => None) (fun _ => O) (fun _ => O) (fun _ => O).

  Fixpoint run (s : state) (ls : list label) : option (state * list (event Op Res)) :=
    match ls with
    | [] => Some (s, [])
    | l :: ls' =>
      match step s l with
      | Some (s', e) =>
        match run s' ls' with
        | Some (s'', es) => Some (s'', e ++ es)
        | None => None
        end
      | None => None
      end
    end.
End Machine.
Arguments impl : clear implicits.
Arguments pc : clear implicits.
Arguments state : clear implicits.
Arguments label : clear implicits.
