(** * What rustc makes of its command line

    The specification of [Rustflags::new]: the command line as rustc itself reads it. [getopts] is the algorithm of
    the getopts crate, [options] is the table rustc hands to it (rustc_session's rustc_optgroups), and [features],
    [cpu] and [allowed] are rustc's reading of the -C and -Z options. None of this is code of the crate: it is
    written down from rustc's documentation and sources, for the theorems to compare the build script with. *)
From Coq Require Import ZArith String List Bool.
From Verif Require Import StrModel.
Import ListNotations.
Open Scope Z_scope.

(** ** The options of rustc: the names (aliases) of each, and whether it takes a value. *)
Definition options : list (list string * bool) :=
  [ (["h"; "help"], false); (["cfg"], true); (["check-cfg"], true); (["L"], true); (["l"], true);
    (["crate-type"], true); (["crate-name"], true); (["edition"], true); (["emit"], true); (["print"], true);
    (["g"], false); (["O"], false); (["o"], true); (["out-dir"], true); (["explain"], true); (["test"], false);
    (["target"], true); (["A"; "allow"], true); (["W"; "warn"], true); (["force-warn"], true);
    (["D"; "deny"], true); (["F"; "forbid"], true); (["cap-lints"], true); (["C"; "codegen"], true);
    (["V"; "version"], false); (["v"; "verbose"], false);
    (["extern"], true); (["sysroot"], true); (["Z"], true); (["error-format"], true); (["json"], true);
    (["color"], true); (["diagnostic-width"], true); (["remap-path-prefix"], true); (["remap-path-scope"], true);
    (["env-set"], true); (["j"; "jobs"], true); (["jobs-frontend"], true); (["jobs-backend"], true);
    (["jobs-linker"], true) ]%string.

(** Every name, with the option it belongs to (called by its first name). *)
Definition entries : list (string * (string * bool)) :=
  flat_map (fun '(ns, v) => match ns with [] => [] | n :: _ => map (fun m => (m, (n, v))) ns end) options.
Definition find_opt (name : str) : option (string * bool) :=
  option_map snd (find (fun e => str_eqb name (lit (fst e))) entries).

(** ** getopts *)
Inductive event :=
| Free (s : str)                     (* a positional argument *)
| Given (name : string)              (* an option without a value *)
| Value (name : string) (v : str)    (* an option and its value *)
| Terminator.                        (* [--]: everything after it is positional *)

(** A group of short options [-gOCfoo], without the dash: the flags, then perhaps one option that takes a value,
    together with the rest of the argument. *)
Fixpoint cluster (chars : str) : option (list string * option (string * str)) :=
  match chars with
  | [] => Some ([], None)
  | c :: t =>
      match find_opt [c] with
      | None => None                                             (* unrecognised option *)
      | Some (n, true) => Some ([], Some (n, t))
      | Some (n, false) => match cluster t with
                           | None => None
                           | Some (fs, v) => Some (n :: fs, v)
                           end
      end
  end.

(** A long option [--name] or [--name=value], without the dashes. *)
Fixpoint split_eq (s : str) : str * option str :=
  match s with
  | [] => ([], None)
  | c :: t => if c =? 61 then ([], Some t) else let '(n, v) := split_eq t in (c :: n, v)
  end.

Fixpoint getopts (args : list str) : option (list event) :=
  match args with
  | [] => Some []
  | arg :: rest =>
      match arg with
      | c :: (d :: u) as tail =>
          if negb (c =? 45) then option_map (cons (Free arg)) (getopts rest)
          else if d =? 45 then
            match u with
            | [] => Some (Terminator :: map Free rest)
            | _ => let '(name, i_arg) := split_eq u in
                   match find_opt name, i_arg with
                   | None, _ => None                             (* unrecognised option *)
                   | Some (n, false), Some _ => None             (* unexpected argument *)
                   | Some (n, false), None => option_map (cons (Given n)) (getopts rest)
                   | Some (n, true), Some v => option_map (cons (Value n v)) (getopts rest)
                   | Some (n, true), None =>
                       match rest with
                       | [] => None                              (* argument missing *)
                       | v :: rest' => option_map (cons (Value n v)) (getopts rest')
                       end
                   end
            end
          else
            match cluster tail with
            | None => None
            | Some (fs, None) => option_map (app (map Given fs)) (getopts rest)
            | Some (fs, Some (n, [])) =>
                match rest with
                | [] => None                                     (* argument missing *)
                | v :: rest' => option_map (fun es => map Given fs ++ Value n v :: es) (getopts rest')
                end
            | Some (fs, Some (n, v)) => option_map (fun es => map Given fs ++ Value n v :: es) (getopts rest)
            end
      | _ => option_map (cons (Free arg)) (getopts rest)          (* [""], and any one-character argument *)
      end
  end.

(** ** What the options mean to rustc *)

(** [-C key=value] and [-Z key=value]: dashes in the key are the same as underscores. *)
Definition key_value (key : string) (v : str) : option str :=
  match split_eq v with
  | (k, Some w) => if str_eqb (map (fun c => if c =? 45 then 95 else c) k) (lit key) then Some w else None
  | (_, None) => None
  end.

Definition is_option (name key : string) (e : event) : option str :=
  match e with
  | Value n v => if String.eqb n name then key_value key v else None
  | _ => None
  end.

(** The values given to [-C key=…] (or [-Z key=…]), in order. *)
Fixpoint values (name key : string) (es : list event) : list str :=
  match es with
  | [] => []
  | e :: t => match is_option name key e with Some v => v :: values name key t | None => values name key t end
  end.

Fixpoint last_of {A} (l : list A) : option A :=
  match l with [] => None | [x] => Some x | _ :: t => last_of t end.

(** -C target-feature=+a,-b: all of them count, in order. *)
Definition feature (s : str) : list (bool * str) :=
  match s with
  | c :: f => if c =? 43 then [(true, f)] else if c =? 45 then [(false, f)] else []
  | [] => []
  end.
Definition features (es : list event) : list (bool * str) :=
  flat_map (fun v => flat_map feature (split_on (Z.eqb 44) v)) (values "C" "target_feature" es).
(** -C target-cpu=…: the last one counts. *)
Definition cpu (es : list event) : option str := last_of (values "C" "target_cpu" es).
(** -Z allow-features=…: the last one counts. *)
Definition allowed (es : list event) : option str := last_of (values "Z" "allow_features" es).

(** rustc compiles something (rather than printing its help or its version), and no [--] makes the options that
    follow positional. *)
Definition compiles (es : list event) : Prop :=
  ~ In (Given "h") es /\ ~ In (Given "V") es /\ ~ In Terminator es.

(** CARGO_ENCODED_RUSTFLAGS: the arguments, separated by 0x1f. *)
Fixpoint encode (args : list str) : str :=
  match args with
  | [] => []
  | [a] => a
  | a :: rest => a ++ 31 :: encode rest
  end.

(** [name] is one of the names listed in [s], in which [sep] tells the separators. *)
Definition listed (sep : Z -> bool) (s name : str) : Prop :=
  exists before after, s = before ++ name ++ after /\
    (forall c, In c name -> sep c = false) /\
    (before = [] \/ exists b c, before = b ++ [c] /\ sep c = true) /\
    (after = [] \/ exists c a, after = c :: a /\ sep c = true).
