(** * Small helpers: the C-string check and the back-off counter *)
From Coq Require Import ZArith List Bool.
Import ListNotations.

(** ** [_const_is_c_str] (src/utils.rs:833-869).

    Indexing is bounds checked: [None] is a panic.  The [while i != 0] loop is the recursion on [i]. *)
Section CStr.
  Variable bytes : list Z.

  (** src/utils.rs:861-866: [while i != 0 { i -= 1; if bytes[i] == 0 { return false; } } true]. *)
  Fixpoint c_str_scan (i : nat) : option bool :=
    match i with
    | O => Some true
    | S i' =>
        match nth_error bytes i' with
        | None => None
        | Some b => if Z.eqb b 0 then Some false else c_str_scan i'
        end
    end.

  (** src/utils.rs:848-867 (not portable_atomic_no_track_caller). *)
  Definition const_is_c_str : option bool :=
    match bytes with
    | [] => Some false
    | _ =>
        let i := (length bytes - 1)%nat in
        match nth_error bytes i with
        | None => None
        | Some b => if negb (Z.eqb b 0) then Some false else c_str_scan i
        end
    end.

  (** src/utils.rs:835-845 (portable_atomic_no_track_caller, compilers before 1.46). *)
  Definition const_is_c_str_old : option bool := Some (match bytes with [] => false | _ => true end).
End CStr.

(** The [c!] macro (src/utils.rs:821-831): [concat!($s, "\0")] checked at compile time. *)
Definition c_macro_accepts (s : list Z) : option bool := const_is_c_str (s ++ [0%Z]).

(** ** [Backoff] (src/imp/fallback/utils.rs:113-148) *)

(** src/imp/fallback/utils.rs:121. *)
Definition SPIN_LIMIT : Z := 4.
(** src/imp/fallback/utils.rs:126-128. *)
Definition backoff_new : Z := 0.
(** What one [snooze] did. *)
Inductive waited := Spun (n : Z) | Yielded.
(** [1 << s] at type i32 (the literal's default integer type: the range is [0..1 << self.step]):
    a shift by 32 or more is an overflow, and a result with bit 31 set is negative (an empty range).
    [None] is an overflow panic. *)
Definition shl1_i32 (s : Z) : option Z :=
  if (s <? 32)%Z then Some (if (s =? 31)%Z then (- 2 ^ 31)%Z else (2 ^ s)%Z) else None.
(** [self.step += 1] at type u32 with overflow checks. *)
Definition inc_u32 (s : Z) : option Z := if (s + 1 <? 2 ^ 32)%Z then Some (s + 1)%Z else None.
(** src/imp/fallback/utils.rs:131-147; [std] is [feature = "std"]. *)
Definition snooze (std : bool) (step : Z) : option (Z * waited) :=
  if (step <=? SPIN_LIMIT)%Z then
    match shl1_i32 step, inc_u32 step with
    | Some n, Some step' => Some (step', Spun n)
    | _, _ => None
    end
  else if std then Some (step, Yielded)
  else match shl1_i32 step with Some n => Some (step, Spun n) | None => None end.
(** [n] rounds of waiting (the callers: src/imp/fallback/seq_lock.rs:66-70 and the optimistic read loops). *)
Fixpoint snoozes (std : bool) (n : nat) (step : Z) : option (Z * list waited) :=
  match n with
  | O => Some (step, [])
  | S n' =>
      match snooze std step with
      | None => None
      | Some (step', w) =>
          match snoozes std n' step' with
          | None => None
          | Some (step'', ws) => Some (step'', w :: ws)
          end
      end
  end.
