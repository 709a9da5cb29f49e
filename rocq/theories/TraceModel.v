(** * Events of the backends' code (for C31)

    [traces next ann c tr c']: starting at [c], the thread performs the events [tr] and is at [c'];
    memory answers anything.  [ann c w]: the events of the instruction at [c], which wrote iff [w]. *)
From Coq Require Import ZArith List Bool.
From Verif Require Import Words Spec WideSpec LoopModel AsmModel BlockModel TraceSpec.
Import ListNotations.

Section Traces.
  Context {C Res : Type}.
  Variable next : C -> action C Res.
  Variable ann : C -> bool -> list ev.
  Inductive tstep (c : C) : list ev -> C -> Prop :=
  | t_local c' : next c = ALocal c' -> tstep c (ann c false) c'
  | t_read a k p f v : next c = ARead a k p f -> tstep c (ann c false) (f v)
  | t_linked b a k p f v : next c = ALoadLinked b a k p f -> tstep c (ann c false) (f v)
  | t_atomic a g f sp x : next c = AAtomic a g f ->
      tstep c (ann c (match fst (g sp x) with Some _ => true | None => false end)) (f (snd (g sp x)))
  | t_cond a v f ok : next c = AStoreCond a v f -> tstep c (ann c ok) (f ok).
  Inductive traces (c : C) : list ev -> C -> Prop :=
  | t_nil : traces c [] c
  | t_snoc tr c1 es c2 : traces c tr c1 -> tstep c1 es c2 -> traces c (tr ++ es) c2.
  (** the function that starts at [c] may have the events [tr] and return [r] *)
  Definition completes (c : C) (tr : list ev) (r : Res) : Prop := exists c', traces c tr c' /\ next c' = ADone r.
End Traces.

(** Blocks of BlockModel.v: [ann_i], [ann_m] for register (fence) and memory instructions. *)
Section Blocks.
  Context {I J M S Res : Type}.
  Variable ann_i : I -> list ev.
  Variable ann_m : M -> bool -> list ev.
  Definition block_ann (c : bconf I J M S Res) (w : bool) : list ev :=
    match nth_error (bprog c) (bpos c) with
    | None => []
    | Some (BI i) => ann_i i
    | Some (BJ _ _) => [Branch]
    | Some (BM m) => ann_m m w
    end.
End Blocks.
Definition wrote (w rel : bool) : list ev := if w then [Wr rel] else [].
