(** * What [rustc -vV] prints

    Written from the compiler's documentation, independently of version.rs. *)
From Coq Require Import ZArith String List Bool.
From Verif Require Import StrModel VersionModel.
Import ListNotations.
Open Scope Z_scope.

(** A line contains no line feed, and no carriage return at its end. *)
Definition is_line (l : str) : Prop := ~ In 10 l /\ forall p, l <> p ++ [13].
(** A text made of lines, each ended by a line feed or by carriage return and line feed; the last one may lack the end. *)
Inductive text : str -> list str -> Prop :=
| text_end : text [] []
| text_line l eol s ls : is_line l -> eol = [10] \/ eol = [13; 10] -> text s ls -> text (l ++ eol ++ s) (l :: ls)
| text_last l : is_line l -> l <> [] -> text l [l].

(** [v] is the value of the first line "prefix v". *)
Definition line_of (ls : list str) (prefix v : str) : Prop :=
  exists before after, ls = before ++ (prefix ++ v) :: after /\ forall l x, In l before -> l <> prefix ++ x.

(** Decimal numbers (leading zeros are fine; Rust also accepts a plus sign). *)
Definition value (s : str) : Z := fold_left (fun a c => 10 * a + (c - 48)) s 0.
Definition decimal (s : str) (n : Z) : Prop := s <> [] /\ Forall (fun c => 48 <= c <= 57) s /\ n = value s.
Definition number (max : Z) (s : str) (n : Z) : Prop := (decimal s n \/ exists t, s = 43 :: t /\ decimal t n) /\ n <= max.
Definition u32 := number (2 ^ 32 - 1).
Definition u16 := number (2 ^ 16 - 1).
Definition u8 := number (2 ^ 8 - 1).

(** "1.MINOR.PATCH-CHANNEL", where ".PATCH" and "-CHANNEL" may be missing. *)
Definition release_is (s : str) (minor : Z) (channel : option str) : Prop :=
  exists m p, s = lit "1." ++ m ++ p ++ match channel with Some c => lit "-" ++ c | None => [] end /\
    u32 m minor /\ (p = [] \/ exists q n, p = lit "." ++ q /\ u32 q n).

(** "MAJOR.MINOR.PATCH", where ".PATCH" may be missing. *)
Definition llvm_is (s : str) (major : Z) : Prop :=
  exists a b n p, s = a ++ lit "." ++ b ++ p /\ u32 a major /\ u32 b n /\ (p = [] \/ exists q k, p = lit "." ++ q /\ u32 q k).

(** "YEAR-MONTH-DAY" *)
Definition date_is (s : str) (d : date) : Prop :=
  exists y m dd, s = y ++ lit "-" ++ m ++ lit "-" ++ dd /\ u16 y (year d) /\ u8 m (month d) /\ u8 dd (day d) /\
    month d <= 12 /\ day d <= 31.

(** What the output says. *)
Definition says_release ls minor channel := exists s, line_of ls (lit "release: ") s /\ release_is s minor channel.
Definition says_date ls d := exists s, line_of ls (lit "commit-date: ") s /\ date_is s d.
Definition says_llvm ls major := exists s, line_of ls (lit "LLVM version: ") s /\ llvm_is s major.

(** The compilers whose commit date matters. *)
Definition dev_channel (c : option str) : Prop := c = Some (lit "nightly") \/ c = Some (lit "dev").

(** Dates in the calendar's order. *)
Definition before (a b : date) : Prop :=
  year a < year b \/ year a = year b /\ (month a < month b \/ month a = month b /\ day a < day b).
