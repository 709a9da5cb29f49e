(** * Model of src/build/version.rs: reading the output of [rustc -vV], and [probe]

    [rustc_version] (version.rs:7-26) runs the compiler: its output is an input of the model. The outer [option] of
    [parse] is a panic (slicing), the inner one the [Option] the function returns. *)
From Coq Require Import ZArith String List Bool.
From Verif Require Import StrModel.
Import ListNotations.
Open Scope Z_scope.

(** ** Rust's standard library *)

(** [str::lines]: a line ends with "\n" or "\r\n"; the last one may lack the end, and an empty rest is no line. *)
Definition strip_cr (l : str) : str :=
  match rev l with c :: r => if c =? 13 then rev r else l | [] => l end.
Fixpoint lines_from (acc s : str) : list str :=
  match s with
  | [] => match acc with [] => [] | _ => [rev acc] end
  | c :: t => if c =? 10 then strip_cr (rev acc) :: lines_from [] t else lines_from (c :: acc) t
  end.
Definition lines (s : str) : list str := lines_from [] s.

(** [str::parse::<u32>()] etc.: an optional '+', then at least one decimal digit and nothing else, at most [max]. *)
Fixpoint digits (acc : Z) (s : str) : option Z :=
  match s with
  | [] => Some acc
  | c :: t => if (48 <=? c) && (c <=? 57) then digits (10 * acc + (c - 48)) t else None
  end.
Definition parse_digits (s : str) : option Z := match s with [] => None | _ => digits 0 s end.
Definition parse_uint (max : Z) (s : str) : option Z :=
  match match s with c :: t => if c =? 43 then parse_digits t else parse_digits s | [] => None end with
  | Some n => if n <=? max then Some n else None
  | None => None
  end.
Definition u32_max : Z := 2 ^ 32 - 1.
Definition u16_max : Z := 2 ^ 16 - 1.
Definition u8_max : Z := 2 ^ 8 - 1.

(** ** version.rs *)

(** version.rs:121-127 *)
Record date := { year : Z; month : Z; day : Z }.
(** version.rs:130 *)
Definition unknown : date := {| year := 0; month := 0; day := 0 |}.

(** version.rs:29-34 *)
Record version := { minor : Z; nightly : bool; commit_date : option date; llvm : Z }.

(** version.rs:44-46 *)
Definition stable (rustc_minor llvm_major : Z) : version :=
  {| minor := rustc_minor; nightly := false; commit_date := None; llvm := llvm_major |}.
(** version.rs:42 *)
Definition latest : version := stable 97 21.

(** #[derive(PartialOrd)] on [Date] (version.rs:121): fields in order. [>=] *)
Definition date_ge (a b : date) : bool :=
  match year a ?= year b with
  | Lt => false | Gt => true
  | Eq => match month a ?= month b with
          | Lt => false | Gt => true
          | Eq => negb (match day a ?= day b with Lt => true | _ => false end)
          end
  end.

(** version.rs:48-57 *)
Definition probe (v : version) (m y mo d : Z) : bool :=
  if negb (minor v =? m) then m <? minor v
  else match commit_date v with
       | Some c => date_ge c {| year := y; month := mo; day := d |}
       | None => true
       end.

(** [verbose_version.lines().find(|line| line.starts_with(prefix)).map(|line| &line[prefix.len()..])]
    (version.rs:60-63, 89-92, 103-106) *)
Definition field (out prefix : str) : option (option str) :=
  match find (fun l => starts_with l prefix) (lines out) with
  | None => Some None
  | Some l => match slice_from l (len prefix) with None => None | Some r => Some (Some r) end
  end.

(** version.rs:88-99 *)
Definition llvm_major (f : option str) : option Z :=
  match f with
  | None => None
  | Some v =>
      match splitn 3 46 v with
      | a :: b :: r =>
          match parse_uint u32_max a, parse_uint u32_max b,
                parse_uint u32_max (match r with p :: _ => p | [] => lit "0" end) with
          | Some major, Some _, Some _ => Some major
          | _, _, _ => None
          end
      | _ => None
      end
  end.

(** version.rs:102-115 *)
Definition parse_date (f : option str) : option date :=
  match f with
  | None => None
  | Some v =>
      match splitn 3 45 v with
      | [y; m; d] =>
          match parse_uint u16_max y, parse_uint u8_max m, parse_uint u8_max d with
          | Some y, Some m, Some d =>
              if (12 <? m) || (31 <? d) then None else Some {| year := y; month := m; day := d |}
          | _, _, _ => None
          end
      | _ => None
      end
  end.

(** version.rs:59-118 *)
Definition parse (out : str) (rustc_bootstrap : option str) : option (option version) :=
  match field out (lit "release: ") with
  | None => None
  | Some None => Some None
  | Some (Some release) =>
      let release := splitn 2 45 release in
      let version := match release with v :: _ => v | [] => [] end in
      let channel := match release with _ :: c :: _ => c | _ => [] end in
      match splitn 3 46 version with
      | major :: rest =>
          if negb (str_eqb major (lit "1")) then Some None
          else
            match rest with
            | [] => Some None
            | m :: r =>
                match parse_uint u32_max m,
                      parse_uint u32_max (match r with p :: _ => p | [] => lit "0" end) with
                | Some minor, Some _ =>
                    let nightly := str_eqb channel (lit "nightly") || str_eqb channel (lit "dev") in
                    let refer_commit_date := nightly in
                    let nightly := match rustc_bootstrap with
                                   | Some v => if str_eqb v (lit "-1") then false else nightly
                                   | None => nightly
                                   end in
                    match field out (lit "LLVM version: ") with
                    | None => None
                    | Some l =>
                        let llvm_major := match llvm_major l with Some n => n | None => 0 end in
                        if refer_commit_date then
                          match field out (lit "commit-date: ") with
                          | None => None
                          | Some d =>
                              Some (Some {| minor := minor; nightly := nightly;
                                            commit_date := Some (match parse_date d with Some d => d | None => unknown end);
                                            llvm := llvm_major |})
                          end
                        else Some (Some (stable minor llvm_major))
                    end
                | _, _ => Some None
                end
            end
      | [] => Some None
      end
  end.
