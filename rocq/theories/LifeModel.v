(** * Model of creation, exclusive access and reinterpretation of the atomic types (lib.rs)

    The shared phases run the code of FrontModel.v. *)
From Coq Require Import ZArith List Bool.
From Verif Require Import Words Spec FrontSpec LifeSpec LoopModel AsmModel FrontModel.
Import ListNotations.
Open Scope Z_scope.

(** ** [as_bits] (lib.rs:4677-4691, float/int.rs:73-78) and casts of the same memory to an atomic integer of the same width:
    the integer's code on the same bytes. *)
Definition bits_view (k : kind) (t : ity) : bool :=
  match k with KBool => false | _ => (ibits t =? kbits k) && (2 ^ Z.log2 (ibits t) =? ibits t) end.
Definition v_code_of (ev : Z -> fop -> list Z -> Z -> Z) (g : cfg) (kd : Z -> kind) (a : Z) (o : vop) : option fconf :=
  match o with
  | Own o => p_code_of ev g kd a o
  | Bits t o => if bits_view (kd a) t then p_code_of ev g (fun _ => KInt t) a o else None
  end.

(** ** Exclusive access *)
(** [new] (lib.rs:787-790 bool: [v as u8]; 1836-1839 pointers; 2825-2828 integers; 4259-4262 floats): the bit pattern stored. *)
Definition new_bits (k : kind) (v : val) : option Z :=
  match k, v with
  | KBool, VBool b => Some (Z.b2z b)
  | KInt t, VNum z => Some (to_bits t z)
  | KPtr w _, VNum z => Some (z mod 2 ^ w)
  | KFloat mw ew, VNum z => Some (z mod 2 ^ (1 + mw + ew))
  | _, _ => None
  end.
(** [Default] (lib.rs:745-751: false; 1786-1791: null; 2788-2792, 4233-4237: [default()] of the value type, 0 and 0.0). *)
Definition default_val (k : kind) : val := match k with KBool => VBool false | _ => VNum 0 end.
(** Reading through the reference of [get_mut] (lib.rs:896-900: [*mut bool] to the byte, 1946-1950, 2978-2982, 4381-4384).
    [None]: undefined behaviour, a bool whose byte is neither 0 nor 1. *)
Definition get_mut_read (k : kind) (x : Z) : option val :=
  match k with
  | KBool => if x =? 0 then Some (VBool false) else if x =? 1 then Some (VBool true) else None
  | KInt t => Some (VNum (of_bits t x))
  | _ => Some (VNum x)
  end.
(** [into_inner] (lib.rs:923-928: transmute to u8, [!= 0]; 1975-1980, 3030-3035, 4399-4404: transmute). *)
Definition into_inner (k : kind) (x : Z) : val :=
  match k with
  | KBool => VBool (negb (x =? 0))
  | KInt t => VNum (of_bits t x)
  | _ => VNum x
  end.
(** Values of the type that may be passed (others do not type-check). *)
Definition val_typed (k : kind) (v : val) : bool :=
  match k, v with
  | KBool, VBool _ => true
  | KInt t, VNum z => in_rangeb t z
  | KPtr w _, VNum z => in_bits w z
  | KFloat mw ew, VNum z => in_bits (1 + mw + ew) z
  | _, _ => false
  end.
Inductive outcome := Undefined | IllTyped | Result (m : Z -> Z) (r : option val).
Definition own_step (kd : Z -> kind) (m : Z -> Z) (a : Z) (o : own_op) : outcome :=
  match o with
  | New v | SetMut v =>
      if val_typed (kd a) v then match new_bits (kd a) v with Some x => Result (setz m a x) None | None => IllTyped end
      else IllTyped
  | GetMut => match get_mut_read (kd a) (m a) with Some v => Result m (Some v) | None => Undefined end
  | IntoInner => Result m (Some (into_inner (kd a) (m a)))
  end.

(** ** A life: phases of shared use, each ending with every call returned (the borrows have ended), and owner's actions *)
Inductive phase := Shared (ls : list (label vop)) | Owner (a : Z) (o : own_op).
Inductive lived (ev : Z -> fop -> list Z -> Z -> Z) (g : cfg) (kd : Z -> kind) : (Z -> Z) -> list phase -> list observation -> (Z -> Z) -> Prop :=
| lived_nil m : lived ev g kd m [] [] m
| lived_shared m ls s h ps es m' :
    asm_run fnext (v_code_of ev g kd) (asm_init m) ls = Some (s, h) ->
    (forall t, athr s t = None) ->
    lived ev g kd (amem s) ps es m' -> lived ev g kd m (Shared ls :: ps) (OShared h :: es) m'
| lived_owner m a o m1 r ps es m' :
    own_step kd m a o = Result m1 r ->
    lived ev g kd m1 ps es m' -> lived ev g kd m (Owner a o :: ps) (OOwner a o r :: es) m'.
