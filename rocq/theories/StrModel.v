(** * The parts of Rust's [str] the build script uses

    A [str] is the list of its characters (Unicode scalar values); its bytes are their UTF-8 encoding. Byte offsets
    that are not character boundaries make slicing panic, modelled by [None]. *)
From Coq Require Import ZArith String List Bool Ascii.
Import ListNotations.
Open Scope Z_scope.

Definition str := list Z.

(** The literal ["…"] (ASCII). *)
Definition lit (s : string) : str := map (fun a => Z.of_nat (nat_of_ascii a)) (list_ascii_of_string s).

Fixpoint str_eqb (a b : str) : bool :=
  match a, b with
  | [], [] => true
  | x :: a', y :: b' => (x =? y) && str_eqb a' b'
  | _, _ => false
  end.

(** The UTF-8 encoding of one character. *)
Definition utf8 (c : Z) : list Z :=
  if c <? 128 then [c]
  else if c <? 2048 then [192 + c / 64; 128 + c mod 64]
  else if c <? 65536 then [224 + c / 4096; 128 + (c / 64) mod 64; 128 + c mod 64]
  else [240 + c / 262144; 128 + (c / 4096) mod 64; 128 + (c / 64) mod 64; 128 + c mod 64].

(** [str::as_bytes], [str::len] (in bytes) *)
Definition as_bytes (s : str) : list Z := flat_map utf8 s.
Definition len (s : str) : nat := length (as_bytes s).

(** [&s[n..]]: panics unless [n] is a character boundary. *)
Fixpoint slice_from (s : str) (n : nat) : option str :=
  match n with
  | O => Some s
  | _ => match s with
         | [] => None
         | c :: t => let k := length (utf8 c) in if (k <=? n)%nat then slice_from t (n - k) else None
         end
  end.

(** [&s[..n]]: likewise. *)
Fixpoint slice_to (s : str) (n : nat) : option str :=
  match n with
  | O => Some []
  | _ => match s with
         | [] => None
         | c :: t => let k := length (utf8 c) in
                     if (k <=? n)%nat then option_map (cons c) (slice_to t (n - k)) else None
         end
  end.

(** [str::starts_with], [str::ends_with], [str::contains(char)] *)
Fixpoint starts_with (s pat : str) {struct pat} : bool :=
  match pat, s with
  | [], _ => true
  | p :: pat', c :: s' => (c =? p) && starts_with s' pat'
  | _ :: _, [] => false
  end.
Definition ends_with (s pat : str) : bool := starts_with (rev s) (rev pat).
Definition contains (s : str) (c : Z) : bool := existsb (Z.eqb c) s.

(** [str::split(pred)]: the pieces between the separators, [1 +] their number of them. *)
Fixpoint split_on (p : Z -> bool) (s : str) : list str :=
  match s with
  | [] => [[]]
  | c :: t => if p c then [] :: split_on p t
              else match split_on p t with h :: r => (c :: h) :: r | [] => [[c]] end
  end.

(** [str::splitn(n, c)]: at most [n] pieces; the last one is the rest of the string. *)
Fixpoint splitn (n : nat) (c : Z) (s : str) : list str :=
  match n with
  | O => []
  | S O => [s]
  | S n' =>
      (fix go (pre s : str) : list str :=
         match s with
         | [] => [rev pre]
         | x :: t => if x =? c then rev pre :: splitn n' c t else go (x :: pre) t
         end) [] s
  end.

(** [char::is_whitespace] (the Unicode property White_Space) *)
Definition is_whitespace (c : Z) : bool :=
  ((9 <=? c) && (c <=? 13)) || (c =? 32) || (c =? 133) || (c =? 160) || (c =? 5760)
  || ((8192 <=? c) && (c <=? 8202)) || (c =? 8232) || (c =? 8233) || (c =? 8239) || (c =? 8287) || (c =? 12288).
