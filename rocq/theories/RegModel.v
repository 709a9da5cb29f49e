(** * Blocks on real registers

    The block models of the other files name registers after the operands of the [asm!] ([{dst}],
    [{val_lo}], ...).  Which register an operand gets is the compiler's choice, within the operand's
    declaration ([in], [out], [lateout], [inout], a register class or an explicit register).  Here a
    block runs on numbered registers, with the operands placed as an assignment says; operands that
    share a register really share it. *)
From Coq Require Import ZArith List Bool PeanoNat.
From Verif Require Import Words Spec LoopModel AsmModel BlockModel.
Import ListNotations.
Open Scope Z_scope.

(** ** Operand declarations (Rust reference, "Inline assembly", Operand type / Register operands) *)
Inductive kind := KIn | KOut | KLateOut | KInOut.
(** an explicit register, or any register of a class *)
Inductive place := At (n : nat) | Class (c : nat -> bool).
Record operand := mk_operand { okind : kind; oplace : place }.
Definition is_input (o : operand) : bool := match okind o with KIn | KInOut => true | _ => false end.
Definition is_output (o : operand) : bool := match okind o with KIn => false | _ => true end.
Definition in_class (o : operand) (n : nat) : Prop :=
  match oplace o with At k => n = k | Class c => c n = true end.
(** [lateout]: "the register allocator can reuse a register allocated to an [in]".  Two [in] operands
    placed by the compiler can share a register if they have the same value ([loaded] below demands it);
    an operand of a register class is not placed in an explicitly named register that is in use. *)
Definition may_share (a b : operand) : bool :=
  match okind a, okind b with
  | KIn, KLateOut | KLateOut, KIn => true
  | KIn, KIn => match oplace a, oplace b with Class _, Class _ => true | _, _ => false end
  | _, _ => false
  end.

(** ** An instruction set, seen through its operands *)
(** what an encoding demands of register numbers: different; an even register and its successor *)
Inductive form (R : Type) := Differ (a b : R) | EvenPair (a b : R).
Arguments Differ {R}. Arguments EvenPair {R}.
Definition form_ok {R} (w : R -> nat) (f : form R) : bool :=
  match f with
  | Differ a b => negb (w a =? w b)%nat
  | EvenPair a b => Nat.even (w a) && (w b =? w a + 1)%nat
  end.

Record isa (I J M S Res R : Type) := mk_isa {
  reg_eq : R -> R -> bool;
  regs_of : S -> R -> Z;
  with_regs : (R -> Z) -> S -> S;          (* other general registers, same flags *)
  exec : I -> S -> S;
  taken : J -> S -> bool;
  acc : M -> S -> action S Res;
  writes_i : I -> list R;                  (* destination registers *)
  writes_m : M -> list R;
  zero_i : I -> list R;                    (* source operands for which register number 0 means zero *)
  zero_m : M -> list R;
  forms : M -> list (form R) }.
Arguments mk_isa {I J M S Res R}. Arguments reg_eq {I J M S Res R}. Arguments regs_of {I J M S Res R}.
Arguments with_regs {I J M S Res R}. Arguments exec {I J M S Res R}. Arguments taken {I J M S Res R}.
Arguments acc {I J M S Res R}. Arguments writes_i {I J M S Res R}. Arguments writes_m {I J M S Res R}.
Arguments zero_i {I J M S Res R}. Arguments zero_m {I J M S Res R}. Arguments forms {I J M S Res R}.

Section Regs.
  Context {I J M S Res R : Type}.
  Variable A : isa I J M S Res R.

  (** [pfile]: the general registers by number; [prest]: flags and so on (its registers are not used);
      [pwhere]: where each operand is. *)
  Record pconf := mk_pconf {
    pprog : list (binstr I J M); ppos : nat; pfile : nat -> Z; prest : S; pwhere : R -> nat; pret : S -> Res }.

  (** the operands' values, as an instruction for which register 0 means zero in operands [z] sees them *)
  Definition view (z : list R) (w : R -> nat) (f : nat -> Z) (s : S) : S :=
    with_regs A (fun r => if existsb (reg_eq A r) z && (w r =? 0)%nat then 0 else f (w r)) s.
  (** write the destinations [ds] back *)
  Definition back (ds : list R) (w : R -> nat) (s' : S) (f : nat -> Z) : nat -> Z :=
    fold_left (fun g r => setn g (w r) (regs_of A s' r)) ds f.

  Definition pgoto (c : pconf) (n : nat) (ds : list R) (s' : S) : pconf :=
    mk_pconf (pprog c) n (back ds (pwhere c) s' (pfile c)) s' (pwhere c) (pret c).
  Definition pnext (c : pconf) : action pconf Res :=
    let see z := view z (pwhere c) (pfile c) (prest c) in
    match nth_error (pprog c) (ppos c) with
    | None => ADone (pret c (see []))
    | Some (BI i) => ALocal (pgoto c (1 + ppos c) (writes_i A i) (exec A i (see (zero_i A i))))
    | Some (BJ j n) => ALocal (pgoto c (if taken A j (see []) then n else 1 + ppos c)%nat [] (prest c))
    | Some (BM m) =>
      let k s' := pgoto c (1 + ppos c) (writes_m A m) s' in
      if forallb (form_ok (pwhere c)) (forms A m) then
        match acc A m (see (zero_m A m)) with
        | ALocal s => ALocal (k s)
        | ARead a w p f => ARead a w p (fun v => k (f v))
        | AAtomic a g f => AAtomic a g (fun v => k (f v))
        | ALoadLinked b a w p f => ALoadLinked b a w p (fun v => k (f v))
        | AStoreCond a v f => AStoreCond a v (fun b => k (f b))
        | ADone r => ADone r
        | AStuck => AStuck
        end
      else AStuck
    end.

  (** ** What the compiler does before the block: it chooses the registers and loads the inputs. *)
  Record assignment := mk_assignment { where_is : R -> nat; file0 : nat -> Z; rest0 : S }.
  Definition entry (x : assignment) : S := view [] (where_is x) (file0 x) (rest0 x).
  Definition pstart (x : assignment) (k : bconf I J M S Res) : pconf :=
    mk_pconf (bprog k) (bpos k) (file0 x) (rest0 x) (where_is x) (bret k).

  (** [k]: the block with its inputs in the operands of [bst k]. *)
  Definition permitted (ops : list (R * operand)) (k : bconf I J M S Res) (x : assignment) : Prop :=
    (forall r o, In (r, o) ops -> in_class o (where_is x r)) /\
    (forall r o q p, In (r, o) ops -> In (q, p) ops -> r <> q -> where_is x r = where_is x q -> may_share o p = true) /\
    (forall r o, In (r, o) ops -> is_input o = true -> file0 x (where_is x r) = regs_of A (bst k) r).

  (** Functions [code] (given the registers on entry, the operation's address and the operation), compiled
      with the assignment [asg a o]; [ops]: their operand declarations. *)
  Context {Op : Type}.
  Variable code : (Z -> Op -> S) -> Z -> Op -> option (bconf I J M S Res).
  Variable ops : Z -> Op -> list (R * operand).
  Variable asg : Z -> Op -> assignment.
  Definition entry_of (a : Z) (o : Op) : S := entry (asg a o).
  Definition real_code (a : Z) (o : Op) : option pconf := option_map (pstart (asg a o)) (code entry_of a o).
  Definition compiled : Prop := forall a o k, code entry_of a o = Some k -> permitted (ops a o) k (asg a o).
End Regs.
Arguments pconf : clear implicits.
Arguments assignment : clear implicits.
