(** * Machine for inline-assembly blocks

    Any number of threads each execute a block one instruction at a time; only memory
    instructions interact.  The instruction set and its semantics are a parameter: [next] says
    what the instruction at a configuration does.  Same memory model as [LoopModel]
    (interleaving; reservations are lost on any store to the variable). *)
From Coq Require Import ZArith List Bool.
From Verif Require Import Words Spec LoopModel.
Import ListNotations.
Open Scope Z_scope.

Section Asm.
  Context {C Op Res : Type}.

  (** - [ALocal]: no memory access.
      - [ARead a k p kont]: load of the [k]-bit piece number [p] (counted from the least significant
        end) of the variable at [a].
      - [AAtomic a f kont]: one indivisible access to the whole variable at [a] which held [x]:
        [f spurious x] = (value written, if any; what the instruction returns).
      - [ALoadLinked first]: like [ARead]; sets the reservation when [first].
      - [AStoreCond]: store the whole variable if the reservation still stands (and the hardware
        does not fail spuriously).
      - [ADone r]: end of the block; the function returns [r].
      - [AStuck]: undefined instruction. *)
  Inductive action :=
  | ALocal (c : C)
  | ARead (a k : Z) (p : nat) (kont : Z -> C)
  | AAtomic (a : Z) (f : bool -> Z -> option Z * (Z * bool)) (kont : Z * bool -> C)
  | ALoadLinked (first : bool) (a k : Z) (p : nat) (kont : Z -> C)
  | AStoreCond (a : Z) (v : Z) (kont : bool -> C)
  | ADone (r : Res)
  | AStuck.

  Variable next : C -> action.
  (** Configuration in which the function serving operation [o] on variable [a] starts. *)
  Variable code_of : Z -> Op -> option C.

  Record asm_state := mk_asm_state {
    amem : Z -> Z; athr : nat -> option C; aresv : nat -> option Z }.

  Definition agoto (s : asm_state) (t : nat) (c : option C) : asm_state :=
    mk_asm_state (amem s) (setn (athr s) t c) (aresv s).
  Definition awrite (s : asm_state) (a y : Z) : asm_state :=
    mk_asm_state (setz (amem s) a y) (athr s) (drop_all (aresv s) a).
  Definition aset_resv (s : asm_state) (t : nat) (r : option Z) : asm_state :=
    mk_asm_state (amem s) (athr s) (setn (aresv s) t r).
  Definition ahas_resv (s : asm_state) (t : nat) (a : Z) : bool :=
    match aresv s t with Some b => b =? a | None => false end.

  Definition asm_step (s : asm_state) (l : label Op) : option (asm_state * list (event Op Res)) :=
    let t := tid l in
    match athr s t with
    | None =>
      match call l with
      | Some (a, o) =>
        match code_of a o with
        | Some c => Some (agoto s t (Some c), [Call t a o])
        | None => None
        end
      | None => None
      end
    | Some c =>
      match next c with
      | ALocal c' => Some (agoto s t (Some c'), [])
      | ARead a k p kont => Some (agoto s t (Some (kont (amem s a / 2 ^ (k * Z.of_nat p) mod 2 ^ k))), [])
      | AAtomic a f kont =>
        match f (spurious l) (amem s a) with
        | (Some y, r) => Some (agoto (awrite s a y) t (Some (kont r)), [])
        | (None, r) => Some (agoto s t (Some (kont r)), [])
        end
      | ALoadLinked first a k p kont =>
        let s' := if first then aset_resv s t (Some a) else s in
        Some (agoto s' t (Some (kont (amem s a / 2 ^ (k * Z.of_nat p) mod 2 ^ k))), [])
      | AStoreCond a v kont =>
        if ahas_resv s t a && negb (spurious l) then Some (agoto (awrite s a v) t (Some (kont true)), [])
        else Some (agoto (aset_resv s t None) t (Some (kont false)), [])
      | ADone r => Some (agoto s t None, [Return t r])
      | AStuck => None
      end
    end.

  Definition asm_init (m : Z -> Z) : asm_state := mk_asm_state m (fun _ => None) (fun _ => None).

  Fixpoint asm_run (s : asm_state) (ls : list (label Op)) : option (asm_state * list (event Op Res)) :=
    match ls with
    | [] => Some (s, [])
    | l :: ls' =>
      match asm_step s l with
      | Some (s', e) =>
        match asm_run s' ls' with
        | Some (s'', es) => Some (s'', e ++ es)
        | None => None
        end
      | None => None
      end
    end.
End Asm.
Arguments action : clear implicits.
Arguments asm_state : clear implicits.
