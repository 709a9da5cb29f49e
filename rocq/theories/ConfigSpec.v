(** * Conditional compilation: what the compiler sees in a configuration

    A configuration is what rustc calls the cfg set of one compilation: a set of names, each with or without a value
    ([target_arch = "arm"], [miri]).  This file defines [#[cfg]] predicates, a small syntax for items under
    conditions, and the list of things that remain in a given configuration.  It follows the Rust reference's chapter
    on conditional compilation and the macros [cfg_sel!] and [items!] of src/utils.rs:9-40; it knows nothing of the
    crate. *)
From Coq Require Import String List Bool Arith.
Import ListNotations.
Local Open Scope string_scope.
Local Open Scope list_scope.

(** ** Predicates *)
Inductive cfg : Type :=
| KV (k v : string)          (* target_arch = "arm" *)
| Flag (f : string)          (* miri *)
| Not (c : cfg)
| Any (l : list cfg)
| All (l : list cfg).

Definition env : Type := string -> option string -> bool.

Fixpoint holds (e : env) (c : cfg) : bool :=
  match c with
  | KV k v => e k (Some v)
  | Flag f => e f None
  | Not c => negb (holds e c)
  | Any l => (fix go l := match l with [] => false | c :: l => holds e c || go l end) l
  | All l => (fix go l := match l with [] => true | c :: l => holds e c && go l end) l
  end.

(** The keys rustc gives one value: the set has at most one entry for them. *)
Definition one_value : list string :=
  ["target_arch"; "target_os"; "target_env"; "target_endian"; "target_pointer_width"].
Definition single_valued (e : env) : Prop :=
  forall k v w, In k one_value -> e k v = true -> e k w = true -> v = w.

(** ** Items *)
(** [#[cfg(c)]] and [#[cfg_attr(p, cfg(c))]]. *)
Inductive attr : Type := Cfg (c : cfg) | CfgAttr (p c : cfg).
Definition attr_holds (e : env) (a : attr) : bool :=
  match a with Cfg c => holds e c | CfgAttr p c => negb (holds e p) || holds e c end.
Definition attrs_hold (e : env) (l : list attr) : bool := forallb (attr_holds e) l.

Definition path : Type := list string.

Inductive item : Type :=
| Def (at_ : list attr) (name : string)                       (* a definition of this name *)
| Use (at_ : list attr) (from : path) (name alias : string)   (* use from::name as alias; *)
| Ref (at_ : list attr) (from : path) (name : string)         (* from::name mentioned in an item *)
| Mod (at_ : list attr) (name : string) (bodies : list (cfg * list item))
    (* mod name; a body per #[cfg_attr(c, path = "..")], the first whose condition holds *)
| Items (at_ : list attr) (l : list item)                     (* items!({ .. }) or an included file *)
| Sel (at_ : list attr) (l : list (option (list attr) * list item)) (* cfg_sel!({ .. }), None: #[cfg(else)] *)
| Block (at_ : list attr) (macro : string) (l : list item)    (* macro!({ .. }) *)
| MacroDef (at_ : list attr) (name : string) (exp : option (list attr))
    (* a macro which expands to its argument, under further attributes (Some), or to nothing (None) *)
| MacroAlias (at_ : list attr) (new old : string)             (* use old as new; of a macro *)
| CompileError (at_ : list attr).                             (* compile_error!(..) *)

(** ** What is left *)
Inductive leaf : Type :=
| LDef (at_ : path) (name : string)                (* at::name is defined here (or by a use) *)
| LUse (at_ from : path) (name : string)           (* module at needs from::name *)
| LMacro (name : string) (expands : bool)          (* a definition of the macro *)
| LAlias (new old : string)
| LCall (macro : string)                           (* a call of the macro *)
| LError (at_ : path).                             (* a compile_error! *)

(** [left e m p i]: what item [i] of module [p] leaves in configuration [e] when the macros for which [m] is true
    expand to their argument and the others to nothing. *)
Fixpoint left_ (e : env) (m : string -> bool) (p : path) (i : item) {struct i} : list leaf :=
  let items := fix items (p : path) (l : list item) : list leaf :=
    match l with [] => [] | i :: l => left_ e m p i ++ items p l end in
  let bodies := fix bodies (p : path) (l : list (cfg * list item)) : list leaf :=
    match l with [] => [] | (c, b) :: l => if holds e c then items p b else bodies p l end in
  let branches := fix branches (l : list (option (list attr) * list item)) : list leaf :=
    match l with
    | [] => []
    | (None, b) :: _ => items p b
    | (Some a, b) :: l => if attrs_hold e a then items p b else branches l
    end in
  match i with
  | Def a n => if attrs_hold e a then [LDef p n] else []
  | Use a q n x => if attrs_hold e a then [LUse p q n; LDef p x] else []
  | Ref a q n => if attrs_hold e a then [LUse p q n] else []
  | Mod a n b => if attrs_hold e a then LDef p n :: bodies (p ++ [n]) b else []
  | Items a l => if attrs_hold e a then items p l else []
  | Sel a l => if attrs_hold e a then branches l else []
  | Block a n l => if attrs_hold e a then LCall n :: (if m n then items p l else []) else []
  | MacroDef a n x => if attrs_hold e a then
                        [LMacro n match x with Some b => attrs_hold e b | None => false end] else []
  | MacroAlias a n o => if attrs_hold e a then [LAlias n o] else []
  | CompileError a => if attrs_hold e a then [LError p] else []
  end.

Definition left_items (e : env) (m : string -> bool) (p : path) (l : list item) : list leaf :=
  flat_map (left_ e m p) l.

(** ** Macros *)
Definition is_macro_def (n : string) (l : leaf) : bool :=
  match l with LMacro n' _ => String.eqb n n' | LAlias n' _ => String.eqb n n' | _ => false end.
Definition macro_yes (n : string) (l : leaf) : bool :=
  match l with LMacro n' true => String.eqb n n' | _ => false end.

(** A macro expands to its argument when a definition which does so is left; an alias stands for the macro it names.
    The definitions are looked for outside of macro calls: that there are no others is [C41_macro_definitions]. *)
Definition outside (c : list item) (e : env) : list leaf := left_items e (fun _ => false) [] c.
Definition expands (c : list item) (e : env) (n : string) : bool :=
  existsb (macro_yes n) (outside c e)
  || existsb (fun l => match l with LAlias n' o => (String.eqb n n') && existsb (macro_yes o) (outside c e) | _ => false end)
       (outside c e).

(** The program a configuration selects. *)
Definition program (c : list item) (e : env) : list leaf := left_items e (expands c e) [] c.

(** ** Names *)
Fixpoint path_eqb (p q : path) : bool :=
  match p, q with
  | [], [] => true
  | a :: p, b :: q => (String.eqb a b) && path_eqb p q
  | _, _ => false
  end.
Definition defines (p : path) (n : string) (l : leaf) : bool :=
  match l with LDef p' n' => path_eqb p p' && (String.eqb n n') | _ => false end.
(** How many times [p::n] is defined. *)
Definition definitions (p : path) (n : string) (l : list leaf) : nat := length (filter (defines p n) l).
Definition macro_definitions (n : string) (l : list leaf) : nat := length (filter (is_macro_def n) l).
