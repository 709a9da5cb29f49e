(** * Model of the trait implementations that format, serialize and convert (utils.rs:148-195, lib.rs)

    Threads run them among operations of any other kind; the operations they make are those of the public types.  Formatting the value itself is one step and the
    value type's own business ([text]): what user code called from a formatter or serializer does meanwhile - it holds nothing of this crate - is left out. *)
From Coq Require Import ZArith List Bool.
From Verif Require Import Words Spec FrontSpec FloatSpec LifeSpec LayerSpec TraitSpec LifeModel LayerModel.
Import ListNotations.
Open Scope Z_scope.

(** The implementations that exist: [impl_debug_and_serde!] for bool (lib.rs:772), integers (lib.rs:2808) and floats (lib.rs:4253), its arms without serde for f16
    and f128 (utils.rs:150-157), [#[cfg(feature = "serde")]] (utils.rs:160, 172); [Debug] and [Pointer] of AtomicPtr: lib.rs:1801-1815. *)
Definition has_impl (serde : bool) (k : kind) (w : trait) : bool :=
  match k, w with
  | _, Debug => true
  | KPtr _ _, Pointer => true
  | KPtr _ _, Serialize => false
  | _, Pointer => false
  | KFloat mw ew, Serialize => if (1 + mw + ew =? 16) || (1 + mw + ew =? 128) then false else serde
  | _, Serialize => serde
  end.
Section Text.
  Context {Out : Type}.
  Variable text : trait -> kind -> val -> Out.
  (** [self.load(Ordering::Relaxed)], a method of the same type: utils.rs:168, 191; lib.rs:1805, 1813. *)
  Definition self_load (k : kind) (o : ordering) : pop :=
    match k with KBool => BoolLoad o | KInt _ | KPtr _ _ => Plain (OLoad o) | KFloat _ _ => FlLoad o end.
  (** The value it returns; [None]: it panicked. *)
  Definition returned (r : option pres) : option val :=
    match r with
    | Some (PBool b) => Some (VBool b)
    | Some (PPlain (RVal v)) | Some (PVal v) => Some (VNum v)
    | _ => None
    end.
  (** [fmt::Debug::fmt(&self.load(Relaxed), f)] (utils.rs:189-192, lib.rs:1803-1806), [fmt::Pointer::fmt] (lib.rs:1811-1814),
      [self.load(Relaxed).serialize(serializer)] (utils.rs:164-169); a panic goes through. *)
  Definition show_code (k : kind) (w : trait) : code (tres Out) pop (option pres) :=
    Ask (self_load k Relaxed) (fun r => Give (match returned r with Some v => Shown (text w k v) | None => Did None end)).
  Definition trait_code (serde : bool) (kd : Z -> kind) (a : Z) (o : top) : option (code (tres Out) pop (option pres)) :=
    match o with
    | Show w => if has_impl serde (kd a) w then Some (show_code (kd a) w) else None
    | Other o => Some (Ask o (fun r => Give (Did r)))
    end.
  (** [From]: lib.rs:753-759, 1794-1799, 2795-2800, 4240-4245: [Self::new(v)], at [a]. *)
  Definition from_impl (kd : Z -> kind) (m : Z -> Z) (a : Z) (v : val) : outcome := own_step kd m a (New v).
  (** [Deserialize]: utils.rs:174-181: [deserialize(deserializer).map(Self::new)]; [parse]: the value type's own, [None]: an error, which is passed on. *)
  Variable parse : kind -> Out -> option val.
  Definition deserialize (kd : Z -> kind) (m : Z -> Z) (a : Z) (s : Out) : option outcome :=
    match parse (kd a) s with Some v => Some (own_step kd m a (New v)) | None => None end.
End Text.
