(** The simulation relation between the lock-based code and native atomics on weak memory. *)
From Coq Require Import ZArith List Bool Lia PeanoNat.
From Verif Require Import Words Spec WordsFacts OrderingModel FallbackModel FallbackFacts WeakMem WeakFacts WeakSpec WeakModel.
Import ListNotations.
Open Scope Z_scope.

Lemma cloc_spec x y : cloc_eqb x y = true <-> x = y.
Proof.
  destruct x, y; cbn; try (split; discriminate).
  all: try (rewrite Z.eqb_eq; split; [intros ->; reflexivity|congruence]).
  rewrite andb_true_iff, Z.eqb_eq, Nat.eqb_eq. split; [intros [-> ->]; reflexivity|intros [=]; auto].
Qed.
Lemma aloc_spec x y : aloc_eqb x y = true <-> x = y.
Proof. destruct x, y; cbn; try (split; discriminate); rewrite Z.eqb_eq; split; congruence. Qed.

(** Ghosts: [gi k t a] which message of the native variable [a] the release at time [t] of lock [k] left,
    [gc k t] how many releases had written by then, [ge k u] the era of the message at [u] of the high word,
    [tl k] the newest release, [hd k] the holder. *)
Record ghost := mk_ghost {
  gi : Z -> Z -> Z -> Z; gc : Z -> Z -> Z; ge : Z -> Z -> Z; tl : Z -> Z; hd : Z -> option nat }.

Section Inv.
  Variable c : config.
  Local Notation li := lock_index.
  Local Notation cmem := (memory cloc).
  Local Notation amem := (memory aloc).
  Local Notation sb := (state_bits c).

  Definition unl (wm : cmem) (k t : Z) (m : msg cloc) : Prop := wm (Lo k) t = Some m /\ mval m <> LOCKED.
  Definition VR (G : ghost) (wm : cmem) (av : view aloc) (cv : view cloc) : Prop :=
    (forall x, av (Ac x) <= cv (Cl x)) /\
    forall a, exists t m, unl wm (li a) t m /\ t <= cv (Lo (li a)) /\ av (Ad a) <= gi G (li a) t a.
  Definition VRt G wm (av : tview aloc) (cv : tview cloc) : Prop :=
    VR G wm (cur av) (cur cv) /\ VR G wm (acq av) (acq cv) /\ VR G wm (rel av) (rel cv).

  Definition isval (k : Z) (x : cloc) : Prop := x = Hi k \/ exists a i, li a = k /\ x = Ck a i.
  Definition isdat (k : Z) (x : cloc) : Prop := isval k x \/ exists a, li a = k /\ x = Rd a.
  (** chunk values of [a] seen at [vw] *)
  Definition shows (wm : cmem) (vw : view cloc) (a : Z) (i : nat) (v : Z) : Prop :=
    exists x, wm (Ck a i) (vw (Ck a i)) = Some x /\ mval x = nth i (to_chunks c (obj_ty c a) v) 0.
  (** the value of [a] at the newest release of its lock *)
  Definition val_at (am : amem) (G : ghost) (t a v : Z) : Prop :=
    exists V, am (Ad a) (gi G (li a) t a) = Some (mk_msg v V).
  Definition half : Z := 2 ^ (sb - 1).

  Record LI (wm : cmem) (am : amem) (G : ghost) (cv : nat -> view cloc) (k : Z) : Prop := {
    l_tl : exists m, unl wm k (tl G k) m;
    l_above : forall t m, wm (Lo k) t = Some m -> tl G k < t -> mval m = LOCKED /\ hd G k <> None;
    l_chain : forall t m, wm (Lo k) t = Some m -> mval m = LOCKED -> wm (Lo k) (t - 1) <> None;
    l_succ : forall t m, unl wm k t m -> t < tl G k -> wm (Lo k) (t + 1) <> None;
    l_held : hd G k <> None -> wm (Lo k) (tl G k + 1) <> None;
    l_own : forall t m, unl wm k t m -> mview m (Lo k) = t;
    l_mono : forall t m t' m', unl wm k t m -> unl wm k t' m' -> t <= t' ->
      vle (mview m) (mview m') /\ gc G k t <= gc G k t' /\ (forall a, gi G k t a <= gi G k t' a) /\
      (gc G k t = gc G k t' -> (forall a, gi G k t a = gi G k t' a) /\ forall x, isval k x -> mview m x = mview m' x);
    l_cnt : forall t m, unl wm k t m -> 0 <= gc G k t /\ mval m = (2 * gc G k t) mod 2 ^ sb;
    l_pred : forall t m, unl wm k t m -> 0 < gc G k t -> exists t' m', unl wm k t' m' /\ t' < t /\ gc G k t' = gc G k t - 1;
    l_snap : forall t m, unl wm k t m -> forall a ty, objs c a = Some ty -> li a = k ->
      exists v V, am (Ad a) (gi G k t a) = Some (mk_msg v V) /\ VR G wm V (mview m) /\ in_range ty v /\
        forall i, (i < len c ty)%nat -> shows wm (mview m) a i v;
    l_snaphi : wide c = true -> forall t m, unl wm k t m -> ge G k (mview m (Hi k)) = gc G k t / half;
    l_data : forall x u d, isdat k x -> wm x u = Some d -> forall t m, unl wm k t m -> u <= mview m x \/ t < mview d (Lo k);
    l_max : forall x u d, isdat k x -> wm x u = Some d ->
      match hd G k with
      | None => forall m, unl wm k (tl G k) m -> u <= mview m x
      | Some T => u <= cv T x
      end;
    l_era : wide c = true -> forall u d, wm (Hi k) u = Some d ->
      0 <= ge G k u /\ mval d = ge G k u mod 2 ^ 32 /\
      (0 < ge G k u -> exists u', u' < u /\ wm (Hi k) u' <> None /\ ge G k u' = ge G k u - 1);
    l_eramono : wide c = true -> forall u d u' d', wm (Hi k) u = Some d -> wm (Hi k) u' = Some d' -> u < u' -> ge G k u < ge G k u';
    l_last : forall a t m, li a = k -> am (Ad a) t = Some m -> t <= gi G k (tl G k) a
  }.

  (** *** Threads *)
  Section Thread.
    Variables (wm : cmem) (am : amem) (G : ghost) (T : nat) (cv : tview cloc) (av : tview aloc).
    Definition good (a : Z) (o : op) : Prop :=
      exists ty, objs c a = Some ty /\ op_typed ty o /\ order_ok o = true.
    Definition is_load (o : op) : Prop := match o with OLoad _ => True | _ => False end.
    Definition is_store (o : op) : Prop := match o with OStore _ _ => True | _ => False end.
    (** holder of [k] that found stamp [st] *)
    Definition LK (k st : Z) : Prop :=
      hd G k = Some T /\ (exists m, unl wm k (tl G k) m /\ vle (mview m) (cur cv) /\ st = mval m) /\
      tl G k + 1 <= cur cv (Lo k).
    Definition RF (k : Z) : Prop := tl G k + 1 <= rel cv (Lo k).
    (** nothing written yet, except chunks [< i] of [a] *)
    Definition same_but (k a : Z) (i : nat) : Prop := forall m, unl wm k (tl G k) m ->
      forall b j, li b = k -> b <> a \/ (i <= j)%nat -> cur cv (Ck b j) = mview m (Ck b j).
    Definition same_hi (k : Z) : Prop := forall m, unl wm k (tl G k) m -> cur cv (Hi k) = mview m (Hi k).
    Definition same (k : Z) : Prop := same_hi k /\ forall m, unl wm k (tl G k) m ->
      forall b j, li b = k -> cur cv (Ck b j) = mview m (Ck b j).
    Definition put_so_far (a : Z) (i : nat) (v : Z) : Prop := forall j, (j < i)%nat -> (j < len c (obj_ty c a))%nat -> shows wm (cur cv) a j v.
    Definition ran (a : Z) (o : op) (v' : Z) (r : res) : Prop :=
      exists v, val_at am G (tl G (li a)) a v /\ spec_op (obj_ty c a) o v = (v', r).
    (** does the operation, having found [v], write? *)
    Definition writing (o : op) (r : res) : Prop :=
      match o with OLoad _ => False | OCas _ _ _ _ => exists v, r = ROk v | _ => True end.
    (** optimistic reader: [bound] limits the lock times carried by the chunks read *)
    Definition OR (bound : Z) (a sh sl gh g : Z) (rd : list Z) : Prop :=
      (exists m, unl wm (li a) g m /\ mval m = sl /\ vle (mview m) (cur cv) /\
         (wide c = true -> gh <= mview m (Hi (li a)) /\ exists d, wm (Hi (li a)) gh = Some d /\ mval d = sh) /\
         forall i, (i < length rd)%nat -> exists u d, wm (Ck a i) u = Some d /\ mval d = nth i rd 0 /\
            mview m (Ck a i) <= u /\ mview d (Lo (li a)) <= bound) /\
      cur av (Ad a) <= gi G (li a) g a.
    Definition TI (p : wpc) : Prop :=
      match p with
      | Begin a o => good a o /\ asks_sc o = true
      | OptHi a o => good a o /\ is_load o /\ wide c = true
      | OptLo a o sh gh => good a o /\ is_load o /\
          (wide c = true -> exists d, wm (Hi (li a)) gh = Some d /\ mval d = sh /\ mview d (Lo (li a)) <= cur cv (Lo (li a)))
      | OptRead a o sh sl rd gh g => good a o /\ is_load o /\ (length rd < len c (obj_ty c a))%nat /\
          OR (acq cv (Lo (li a))) a sh sl gh g rd
      | ValFence a o sh sl v gh g => good a o /\ is_load o /\ exists rd, length rd = len c (obj_ty c a) /\ v = of_chunks c (obj_ty c a) rd /\
          OR (acq cv (Lo (li a))) a sh sl gh g rd
      | ValLo a o sh sl v gh g => good a o /\ is_load o /\ exists rd, length rd = len c (obj_ty c a) /\ v = of_chunks c (obj_ty c a) rd /\
          OR (cur cv (Lo (li a))) a sh sl gh g rd
      | ValHi a o sh sl lo' v gh g g1 => good a o /\ is_load o /\ wide c = true /\
          (lo' = sl -> exists rd m1, length rd = len c (obj_ty c a) /\ v = of_chunks c (obj_ty c a) rd /\
             unl wm (li a) g1 m1 /\ mval m1 = sl /\ vle (mview m1) (cur cv) /\ g <= g1 /\
             OR g1 a sh sl gh g rd)
      | Acq a o | Spin a o => good a o
      | RelFence a o st => good a o /\ LK (li a) st /\ same (li a)
      | Mark a o st => good a o /\ ~ is_store o /\ LK (li a) st /\ RF (li a) /\ same (li a)
      | LRead a o st rd => good a o /\ ~ is_store o /\ LK (li a) st /\ RF (li a) /\ same (li a) /\ (length rd < len c (obj_ty c a))%nat /\
          exists v, val_at am G (tl G (li a)) a v /\ in_range (obj_ty c a) v /\ rd = firstn (length rd) (to_chunks c (obj_ty c a) v)
      | LWrite a o st new i r => good a o /\ LK (li a) st /\ RF (li a) /\ (i < len c (obj_ty c a))%nat /\ same_hi (li a) /\ same_but (li a) a i /\
          exists v', new = to_chunks c (obj_ty c a) v' /\ in_range (obj_ty c a) v' /\ ran a o v' r /\ writing o r /\ put_so_far a i v'
      | RelHiLd a o st r => good a o /\ LK (li a) st /\ RF (li a) /\ wide c = true /\ next_lo c st = 0 /\ same_hi (li a) /\
          same_but (li a) a (len c (obj_ty c a)) /\
          exists v', in_range (obj_ty c a) v' /\ ran a o v' r /\ writing o r /\ put_so_far a (len c (obj_ty c a)) v'
      | RelHiSt a o st h r => good a o /\ LK (li a) st /\ RF (li a) /\ wide c = true /\ next_lo c st = 0 /\ same_hi (li a) /\
          (exists d, wm (Hi (li a)) (cur cv (Hi (li a))) = Some d /\ mval d = h) /\
          same_but (li a) a (len c (obj_ty c a)) /\
          exists v', in_range (obj_ty c a) v' /\ ran a o v' r /\ writing o r /\ put_so_far a (len c (obj_ty c a)) v'
      | Rel a o nx r => good a o /\ exists st v', LK (li a) st /\ in_range (obj_ty c a) v' /\ ran a o v' r /\
          ((nx = st /\ ~ writing o r /\ same (li a)) \/
           (nx = next_lo c st /\ writing o r /\ same_but (li a) a (len c (obj_ty c a)) /\ put_so_far a (len c (obj_ty c a)) v' /\
            (wide c = true -> ge G (li a) (cur cv (Hi (li a))) = (gc G (li a) (tl G (li a)) + 1) / half)))
      | End r | Ret r => True
      end.
  End Thread.
  (** the native thread at the same place *)
  Definition AP (p : wpc) (q : sconf) : Prop :=
    match p with
    | Begin a o => q = SBegin a o
    | End r => q = SEnd r
    | Ret r => q = SRet r
    | OptHi a o | OptLo a o _ _ | OptRead a o _ _ _ _ _ | ValFence a o _ _ _ _ _ | ValLo a o _ _ _ _ _ | ValHi a o _ _ _ _ _ _ _
    | Acq a o | Spin a o | RelFence a o _ | Mark a o _ | LRead a o _ _ | LWrite a o _ _ _ _ | RelHiLd a o _ _ | RelHiSt a o _ _ _
    | Rel a o _ _ => q = SDo a o
    end.
  Definition holds (p : wpc) : option Z :=
    match p with
    | RelFence a _ _ | Mark a _ _ | LRead a _ _ _ | LWrite a _ _ _ _ _ | RelHiLd a _ _ _ | RelHiSt a _ _ _ _ | Rel a _ _ _ => Some (li a)
    | _ => None
    end.

  Definition own_rel (G : ghost) (wm : cmem) (am : amem) : Prop :=
    forall x t, match wm (Cl x) t, am (Ac x) t with
    | Some g, Some g' => mval g' = mval g /\ VR G wm (mview g') (mview g)
    | None, None => True
    | _, _ => False
    end.
  Record Sim (G : ghost) (s : wst cloc wpc) (A : wst aloc sconf) : Prop := {
    s_lock : forall k, LI (wmem (world_of s)) (wmem (world_of A)) G (fun T => cur (views s T)) k;
    s_closed : closed_w (world_of s) /\ forall T, closed_t (wmem (world_of s)) (views s T);
    s_own : own_rel G (wmem (world_of s)) (wmem (world_of A));
    s_sc : VR G (wmem (world_of s)) (wsc (world_of A)) (wsc (world_of s));
    s_views : forall T, VRt G (wmem (world_of s)) (views A T) (views s T);
    s_confs : forall T, match confs s T, confs A T with
      | None, None => True
      | Some p, Some q => AP p q /\ TI (wmem (world_of s)) (wmem (world_of A)) G T (views s T) (views A T) p
      | _, _ => False
      end;
    s_hd : forall k T, hd G k = Some T -> exists p, confs s T = Some p /\ holds p = Some k
  }.
End Inv.
