(** * Model of src/build/rustflags.rs, function by function

    A panic (slicing at an offset that is not a character boundary) is [None]. The [while let Some(mut flag) =
    rustflags.next()] loop is a recursion on the arguments that have not been consumed yet. *)
From Coq Require Import ZArith String List Bool.
From Verif Require Import StrModel.
Import ListNotations.
Open Scope Z_scope.

(** rustflags.rs:9-18 *)
Record rustflags := {
  target_feature : list (bool * list Z);      (* names are byte strings *)
  target_cpu : option str;
  allow_features : option (bool * str)        (* (is_rustflags, allow_features) *)
}.

(** rustflags.rs:178-180 *)
Definition strip_prefix (s pat : str) : option (option str) :=
  if starts_with s pat then option_map Some (slice_from s (len pat)) else Some None.
(** rustflags.rs:183-185; [s.len() - pat.len()] does not wrap when [s] ends with [pat] *)
Definition strip_suffix (s pat : str) : option (option str) :=
  if ends_with s pat then option_map Some (slice_to s (len s - len pat)) else Some None.

(** rustflags.rs:164-174 *)
Definition strip_flag (flag prefix prefix_underscored : str) : option (option str) :=
  match strip_prefix flag prefix with
  | None => None
  | Some (Some f) => Some (Some f)
  | Some None => strip_prefix flag prefix_underscored
  end.

(** rustflags.rs:126-132: the pieces of [target-feature=] *)
Definition push_features (v : str) (acc : list (bool * list Z)) : list (bool * list Z) :=
  fold_left (fun acc s =>
    match as_bytes s with
    | b :: f => if b =? 43 then acc ++ [(true, f)] else if b =? 45 then acc ++ [(false, f)] else acc
    | [] => acc
    end) (split_on (Z.eqb 44) v) acc.

(** rustflags.rs:125-136: [flag] is the value of a -C *)
Definition codegen (flag : str) (st : rustflags) : option rustflags :=
  match strip_flag flag (lit "target-feature=") (lit "target_feature=") with
  | None => None
  | Some (Some v) => Some {| target_feature := push_features v (target_feature st);
                             target_cpu := target_cpu st; allow_features := allow_features st |}
  | Some None =>
      match strip_flag flag (lit "target-cpu=") (lit "target_cpu=") with
      | None => None
      | Some (Some v) => Some {| target_feature := target_feature st; target_cpu := Some v;
                                 allow_features := allow_features st |}
      | Some None => Some st
      end
  end.

(** rustflags.rs:73-79: [flag] is the value of a -Z *)
Definition unstable (flag : str) (st : rustflags) : option rustflags :=
  match strip_flag flag (lit "allow-features=") (lit "allow_features=") with
  | None => None
  | Some (Some v) => Some {| target_feature := target_feature st; target_cpu := target_cpu st;
                             allow_features := Some (true, v) |}
  | Some None => Some st
  end.

(** rustflags.rs:73-79, then 125-136 *)
Definition cz (b : Z) (flag : str) (st : rustflags) : option rustflags :=
  if b =? 90 then unstable flag st else codegen flag st.

(** rustflags.rs:45-52: skips 'g', 'O' and 'v'; how many of them *)
Fixpoint skip_flags (bytes : list Z) : nat :=
  match bytes with
  | c :: t => if (c =? 103) || (c =? 79) || (c =? 118) then S (skip_flags t) else O
  | [] => O
  end.

(** rustflags.rs:82-83 *)
Definition short_with_value (b : Z) : bool :=
  existsb (Z.eqb b) (lit "LloAWDFj").

(** rustflags.rs:110-116 *)
Definition long_with_value : list str :=
  map lit ["cfg"; "check-cfg"; "crate-type"; "crate-name"; "edition";
           "emit"; "print"; "out-dir"; "explain"; "target"; "allow";
           "warn"; "force-warn"; "deny"; "forbid"; "cap-lints";
           "extern"; "sysroot"; "error-format"; "json"; "color";
           "diagnostic-width"; "remap-path-prefix"; "remap-path-scope";
           "env-set"; "jobs"; "jobs-frontend"; "jobs-backend";
           "jobs-linker"]%string.

(** [flag.as_bytes().get(i) == Some(&b)] *)
Definition byte_is (flag : str) (i : nat) (b : Z) : bool :=
  match nth_error (as_bytes flag) i with Some x => x =? b | None => false end.

(** rustflags.rs:38-52: where the flag starts, and whether it is a long one *)
Definition start_of (flag : str) : nat * bool :=
  if byte_is flag 1 45 then (2%nat, true)
  else ((1 + skip_flags (skipn 1 (as_bytes flag)))%nat, false).

(** rustflags.rs:30-137 *)
Fixpoint parse_flags (args : list str) (st : rustflags) {struct args} : option rustflags :=
  match args with
  | [] => Some st
  | flag :: rest =>
      if negb (byte_is flag 0 45) then parse_flags rest st
      else
          let '(start, long) := start_of flag in
          match nth_error (as_bytes flag) start with
          | None => parse_flags rest st
          | Some b =>
              if (b =? 67) || (b =? 90) then
                if Nat.eqb (len flag) (S start) then
                  match rest with
                  | [] => Some st
                  | f :: rest' => match cz b f st with None => None | Some st' => parse_flags rest' st' end
                  end
                else if long then
                  if negb (byte_is flag (S start) 61) then parse_flags rest st
                  else
                    match slice_from flag (S start + 1) with
                    | None => None
                    | Some f => match cz b f st with None => None | Some st' => parse_flags rest st' end
                    end
                else
                  match slice_from flag (S start) with
                  | None => None
                  | Some f => match cz b f st with None => None | Some st' => parse_flags rest st' end
                  end
              else if short_with_value b && Nat.eqb (len flag) (start + 1) then
                match rest with [] => parse_flags rest st | _ :: rest' => parse_flags rest' st end
              else if negb ((0 <=? b) && (b <? 128)) || negb long then
                parse_flags rest st
              else
                match slice_from flag start with
                | None => None
                | Some flag =>
                    match strip_prefix flag (lit "codegen") with
                    | None => None
                    | Some (Some f) =>
                        match strip_prefix f (lit "=") with
                        | None => None
                        | Some (Some f) =>
                            match codegen f st with None => None | Some st' => parse_flags rest st' end
                        | Some None =>
                            match f with
                            | [] => match rest with
                                    | [] => Some st
                                    | f :: rest' => match codegen f st with
                                                    | None => None
                                                    | Some st' => parse_flags rest' st'
                                                    end
                                    end
                            | _ :: _ => parse_flags rest st
                            end
                        end
                    | Some None =>
                        if contains flag 61 then parse_flags rest st
                        else if existsb (str_eqb flag) long_with_value then
                          match rest with [] => parse_flags rest st | _ :: rest' => parse_flags rest' st end
                        else parse_flags rest st
                    end
                end
          end
  end.

(** rustflags.rs:20-139 *)
Definition new (encoded : str) (cargo_unstable_allow_features : option str) : option rustflags :=
  parse_flags (split_on (Z.eqb 31) encoded)
    {| target_feature := []; target_cpu := None;
       allow_features := option_map (fun f => (false, f)) cargo_unstable_allow_features |}.

(** rustflags.rs:141-161; [rustc_stage] is whether the environment variable RUSTC_STAGE is set *)
Definition is_allowed_feature (rustc_stage : bool) (r : rustflags) (name : str) : bool :=
  if rustc_stage then false
  else match allow_features r with
       | Some (true, fs) => existsb (fun f => str_eqb f name) (split_on (Z.eqb 44) fs)
       | Some (false, fs) =>
           existsb (fun f => str_eqb f name) (split_on (fun c => (c =? 44) || is_whitespace c) fs)
       | None => true
       end.
