(** * A weak-memory machine

    Release/acquire memory with relaxed accesses, read-modify-writes and fences, in the usual
    view-based form (Kang et al., "A promising semantics for relaxed-memory concurrency", POPL 2017,
    without promises; C++20 release sequences).  Nothing here models the crate: it is the memory
    under both the code (WeakModel.v) and the specification (WeakSpec.v).

    Every location holds a set of messages, each at its own timestamp: the modification order.  A view
    says, per location, which message is the oldest still readable.  A load may return any message not
    older than the thread's view (stale values are allowed); a store may be placed at any free
    timestamp above the thread's view, also below existing messages; a read-modify-write is placed
    directly after the message it read.
    - acquire: the view of the message read is joined into the thread's view; a relaxed load
      remembers it for a later acquire fence;
    - release: the message carries the thread's view; a relaxed store carries the view of the last
      release fence;
    - a SeqCst fence additionally exchanges views with all other SeqCst fences.
    The choice of timestamps is made by the schedule. *)
From Coq Require Import ZArith List Bool.
Import ListNotations.
Open Scope Z_scope.

Section Memory.
  Context {L : Type}.
  Variable eqb : L -> L -> bool.

  Definition view := L -> Z.
  Definition vjoin (u v : view) : view := fun x => Z.max (u x) (v x).
  Definition vset (v : view) (x : L) (t : Z) : view := fun y => if eqb y x then Z.max (v y) t else v y.
  Definition vle (u v : view) : Prop := forall x, u x <= v x.
  Record msg := mk_msg { mval : Z; mview : view }.
  Definition memory := L -> Z -> option msg.
  Definition mset (m : memory) (x : L) (t : Z) (g : msg) : memory :=
    fun y u => if eqb y x && (u =? t) then Some g else m y u.
  (** [cur]: what the thread knows; [acq]: what it would know after an acquire fence;
      [rel]: what it knew at its last release fence. *)
  Record tview := mk_tview { cur : view; acq : view; rel : view }.
  (** [wsc]: what the SeqCst fences so far know. *)
  Record world := mk_world { wmem : memory; wsc : view }.

  Inductive fence := FAcquire | FRelease | FSeqCst.
  (** [aq], [rl]: acquire / release.  [f] of a read-modify-write returns [None] when it does not write
      (a failing compare_exchange). *)
  Inductive act :=
  | Load (x : L) (aq : bool)
  | Store (x : L) (v : Z) (rl : bool)
  | Rmw (x : L) (f : Z -> option Z) (aq rl : bool)
  | Fence (f : fence).

  Definition see (v : tview) (x : L) (t : Z) (g : msg) (aq : bool) : tview :=
    mk_tview (vset (if aq then vjoin (cur v) (mview g) else cur v) x t) (vset (vjoin (acq v) (mview g)) x t) (rel v).
  Definition wrote (v : tview) (x : L) (t : Z) : tview := mk_tview (vset (cur v) x t) (vset (acq v) x t) (rel v).
  Definition out_view (v : tview) (x : L) (t : Z) (rl : bool) : view := vset (if rl then cur v else rel v) x t.

  (** One action with timestamp [t]: the value read (0 if none), the new world, the new thread view. *)
  Definition perform (a : act) (t : Z) (w : world) (v : tview) : option (Z * world * tview) :=
    match a with
    | Load x aq =>
      match wmem w x t with
      | Some g => if cur v x <=? t then Some (mval g, w, see v x t g aq) else None
      | None => None
      end
    | Store x n rl =>
      match wmem w x t with
      | Some _ => None
      | None => if cur v x <? t
                then Some (0, mk_world (mset (wmem w) x t (mk_msg n (out_view v x t rl))) (wsc w), wrote v x t) else None
      end
    | Rmw x f aq rl =>
      match wmem w x t with
      | Some g =>
        if cur v x <=? t then
          let v1 := see v x t g aq in
          match f (mval g) with
          | None => Some (mval g, w, v1)
          | Some n =>
            match wmem w x (t + 1) with
            | Some _ => None
            | None => Some (mval g,
                mk_world (mset (wmem w) x (t + 1) (mk_msg n (vjoin (out_view v1 x (t + 1) rl) (mview g)))) (wsc w),
                wrote v1 x (t + 1))
            end
          end
        else None
      | None => None
      end
    | Fence FAcquire => Some (0, w, mk_tview (vjoin (cur v) (acq v)) (acq v) (rel v))
    | Fence FRelease => Some (0, w, mk_tview (cur v) (acq v) (cur v))
    | Fence FSeqCst =>
      let c := vjoin (vjoin (cur v) (acq v)) (wsc w) in
      Some (0, mk_world (wmem w) c, mk_tview c c c)
    end.
End Memory.
Arguments view : clear implicits.
Arguments msg : clear implicits.
Arguments memory : clear implicits.
Arguments tview : clear implicits.
Arguments world : clear implicits.
Arguments act : clear implicits.

Definition map_act {L L'} (f : L -> L') (a : act L) : act L' :=
  match a with
  | Load x aq => Load (f x) aq
  | Store x v rl => Store (f x) v rl
  | Rmw x g aq rl => Rmw (f x) g aq rl
  | Fence k => Fence k
  end.

(** Threads that call operations (whose code is a sequence of actions) and, between calls, perform
    arbitrary actions on ordinary locations of their own. *)
Inductive wevent (Op Res : Type) :=
| ECall (t : nat) (a : Z) (o : Op)
| ERet (t : nat) (r : Res)
| EOwn (t : nat) (a : act Z) (v : Z).
Arguments ECall {Op Res}. Arguments ERet {Op Res}. Arguments EOwn {Op Res}.
Inductive wlabel (Op : Type) :=
| LCall (t : nat) (a : Z) (o : Op)
| LStep (t : nat) (ts : Z)
| LOwn (t : nat) (a : act Z) (ts : Z).
Arguments LCall {Op}. Arguments LStep {Op}. Arguments LOwn {Op}.

(** What a configuration does next: an action, continuing with its timestamp and value, or return. *)
Inductive todo (L C Res : Type) :=
| Do (a : act L) (k : Z -> Z -> C)
| Give (r : Res).
Arguments Do {L C Res}. Arguments Give {L C Res}.

Section Run.
  Context {L C Op Res : Type}.
  Variable eqb : L -> L -> bool.
  Variable next : C -> todo L C Res.
  Variable code : Z -> Op -> option C.
  Variable own : Z -> L.
  Record wst := mk_wst { world_of : world L; views : nat -> tview L; confs : nat -> option C }.
  Definition upd {B} (f : nat -> B) (t : nat) (b : B) : nat -> B := fun u => if Nat.eqb u t then b else f u.
  Definition wstep (s : wst) (l : wlabel Op) : option (wst * list (wevent Op Res)) :=
    match l with
    | LCall t a o =>
      match confs s t, code a o with
      | None, Some c => Some (mk_wst (world_of s) (views s) (upd (confs s) t (Some c)), [ECall t a o])
      | _, _ => None
      end
    | LStep t ts =>
      match confs s t with
      | Some c =>
        match next c with
        | Do a k =>
          match perform eqb a ts (world_of s) (views s t) with
          | Some (v, w, tv) => Some (mk_wst w (upd (views s) t tv) (upd (confs s) t (Some (k ts v))), [])
          | None => None
          end
        | Give r => Some (mk_wst (world_of s) (views s) (upd (confs s) t None), [ERet t r])
        end
      | None => None
      end
    | LOwn t a ts =>
      match confs s t with
      | Some _ => None
      | None =>
        match perform eqb (map_act own a) ts (world_of s) (views s t) with
        | Some (v, w, tv) => Some (mk_wst w (upd (views s) t tv) (confs s), [EOwn t a v])
        | None => None
        end
      end
    end.
  Fixpoint wrun (s : wst) (ls : list (wlabel Op)) : option (wst * list (wevent Op Res)) :=
    match ls with
    | [] => Some (s, [])
    | l :: ls' =>
      match wstep s l with
      | Some (s', e) => match wrun s' ls' with Some (s'', es) => Some (s'', e ++ es) | None => None end
      | None => None
      end
    end.
  (** Nobody is running, nobody knows anything, every location holds one message at time 0. *)
  Definition winit (v0 : L -> Z) : wst :=
    let bot : view L := fun _ => 0 in
    mk_wst (mk_world (fun x t => if t =? 0 then Some (mk_msg (v0 x) bot) else None) bot)
      (fun _ => mk_tview bot bot bot) (fun _ => None).
End Run.
Arguments wst : clear implicits.
