(** * Inline-assembly blocks, independent of the instruction set

    A block is a list of instructions: register instructions, conditional branches to a numbered
    instruction of the block (the local labels [2:], [3:], ... of the sources), and memory
    instructions.  The architecture files provide the three instruction sets. *)
From Coq Require Import ZArith List Bool.
From Verif Require Import Words Spec LoopModel AsmModel.
Import ListNotations.
Open Scope Z_scope.

Section Block.
  Context {I J M S Res : Type}.
  Variable exec1 : I -> S -> S.                      (* register instruction *)
  Variable test : J -> S -> bool.                    (* is the branch taken? *)
  Variable access : M -> S -> action S Res.          (* memory instruction; continuations give the new registers *)

  Inductive binstr := BI (i : I) | BJ (j : J) (target : nat) | BM (m : M).
  (** [ret]: how the Rust code around the block turns the final registers into the result. *)
  Record bconf := mk_bconf { bprog : list binstr; bpos : nat; bst : S; bret : S -> Res }.
  Definition bgoto (c : bconf) (n : nat) (s : S) : bconf := mk_bconf (bprog c) n s (bret c).

  Definition bnext (c : bconf) : action bconf Res :=
    let k s := bgoto c (1 + bpos c) s in
    match nth_error (bprog c) (bpos c) with
    | None => ADone (bret c (bst c))
    | Some (BI i) => ALocal (k (exec1 i (bst c)))
    | Some (BJ j n) => ALocal (if test j (bst c) then bgoto c n (bst c) else k (bst c))
    | Some (BM m) =>
      match access m (bst c) with
      | ALocal s => ALocal (k s)
      | ARead a w p f => ARead a w p (fun v => k (f v))
      | AAtomic a g f => AAtomic a g (fun v => k (f v))
      | ALoadLinked b a w p f => ALoadLinked b a w p (fun v => k (f v))
      | AStoreCond a v f => AStoreCond a v (fun b => k (f b))
      | ADone r => ADone r
      | AStuck => AStuck
      end
    end.
  Fixpoint bexec (p : list I) (s : S) : S := match p with [] => s | i :: p' => bexec p' (exec1 i s) end.
End Block.
Arguments binstr : clear implicits.
Arguments bconf : clear implicits.
