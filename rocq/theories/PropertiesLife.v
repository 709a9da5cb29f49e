(** * Property C48: creation, exclusive access and reinterpretation

    The specification is LifeSpec.v: [life_ok] for a whole life of variables, [vsem] for calls in the own type or through an
    integer view of the same bits; [legal_target] (LayoutProofs.v): any pointer width and any alignments Rust permits. *)
From Coq Require Import ZArith List Bool Lia.
From Verif Require Import Words Spec WordsFacts FrontSpec FloatSpec LifeSpec LoopModel AsmModel FrontModel FrontMain
  LayoutModel LayoutProofs LifeModel LifeProofs.
Import ListNotations.
Open Scope Z_scope.

(** ** Layout *)
(** On every target and with every backend, each public atomic type has the size of its value, is aligned to that size, and
    passes the crate's compile-time assertions. *)
Theorem C48_layout : forall tg b p t, legal_target tg -> exists_size p -> public_ty tg b p = Some t ->
  size_of tg t = size_of tg (value_ty tg p) /\ align_of tg t = size_of tg (value_ty tg p) /\
  static_assert_layout tg t (value_ty tg p) = true.
Proof.
  intros tg b p t T X H. destruct (public_laid tg T b p t X H) as (S & A & _). split; [exact S|]. split; [exact A|].
  unfold static_assert_layout. rewrite S, A, Z.eqb_refl. reflexivity.
Qed.
(** [as_ptr] and [get_mut] give the address of the object itself, and the value is there: from_ptr(as_ptr(x)) is x. *)
Theorem C48_as_ptr : forall tg b p t self, legal_target tg -> exists_size p -> public_ty tg b p = Some t ->
  as_ptr tg b p self = Some self /\ get_mut tg b p self = Some self /\ self + value_offset tg t = self /\
  (forall q, as_ptr tg b p self = Some q -> from_ptr q = self).
Proof.
  intros tg b p t self T X H. pose proof (as_ptr_self tg T b p t self X H) as E. destruct (public_laid tg T b p t X H) as (_ & _ & V).
  split; [exact E|]. split; [exact E|]. split; [lia|]. intros q Q. rewrite E in Q. now injection Q as <-.
Qed.
(** A reference made by [from_ptr] from a pointer aligned to the value's size covers exactly the value's bytes, aligned. *)
Theorem C48_from_ptr : forall tg b p t ptr, legal_target tg -> exists_size p -> public_ty tg b p = Some t ->
  (size_of tg (value_ty tg p) | ptr) ->
  (align_of tg t | from_ptr ptr) /\ from_ptr ptr + size_of tg t = ptr + size_of tg (value_ty tg p) /\ as_ptr tg b p (from_ptr ptr) = Some ptr.
Proof.
  intros tg b p t ptr T X H D. destruct (public_laid tg T b p t X H) as (S & A & _). unfold from_ptr. rewrite S, A.
  split; [exact D|]. split; [reflexivity|]. now apply (as_ptr_self tg T b p t).
Qed.
(** Every reinterpretation of a reference in the crate yields a reference to the same bytes that is aligned. *)
Theorem C48_reinterpret : forall tg s d addr, legal_target tg -> reinterpret tg s d -> (align_of tg s | addr) ->
  (align_of tg d | addr) /\ size_of tg d = size_of tg s /\ addr + value_offset tg d = addr + value_offset tg s.
Proof.
  intros tg s d addr T R D. destruct (reinterpret_fits tg T s d R) as (S & A & V). split; [now apply Z.divide_trans with (align_of tg s)|].
  split; [exact S|now rewrite V].
Qed.
(** Every type exists with some backend. *)
Theorem C48_layout_all : forall tg p, legal_target tg -> exists_size p -> exists b t, public_ty tg b p = Some t.
Proof.
  intros tg p T X. exists Interrupt. destruct T as [P _]. destruct p as [| |n| |n]; cbn [exists_size] in X; unfold scalar_size in X; cbn [In] in X, P.
  - eexists; reflexivity.
  - cbn [public_ty imp_ptr]. unfold width_literal, literal_align. destruct P as [<-|[<-|[<-|[<-|[]]]]]; eexists; reflexivity.
  - destruct X as [<-|[<-|[<-|[<-|[<-|[]]]]]]; eexists; reflexivity.
  - cbn [public_ty imp_int]. unfold width_literal. destruct P as [<-|[<-|[<-|[<-|[]]]]]; eexists; reflexivity.
  - destruct X as [<-|[<-|[<-|[<-|[]]]]]; eexists; reflexivity.
Qed.

(** ** Both views at once *)
(** Any number of threads use variables of any types, each also through integer views of their bits ([as_bits]): one atomic
    variable of bits per address. *)
Theorem C48_views_atomic : forall g kd ev m ls s h, (forall a, kind_ok (kd a)) -> float_unit kd ev -> pmem_ok kd m ->
  asm_run fnext (v_code_of ev g kd) (asm_init m) ls = Some (s, h) ->
  linearizable_to (vsem kd) m h (fun a => Some (amem s a)).
Proof. intros g kd ev m ls s h K U M H. exact (proj1 (views_atomic g kd ev K U m ls s h M H)). Qed.
(** At no moment does an AtomicBool hold a byte other than 0 or 1. *)
Theorem C48_bool_valid : forall g kd ev m ls s h a, (forall a, kind_ok (kd a)) -> float_unit kd ev -> pmem_ok kd m ->
  asm_run fnext (v_code_of ev g kd) (asm_init m) ls = Some (s, h) -> kd a = KBool -> amem s a = 0 \/ amem s a = 1.
Proof.
  intros g kd ev m ls s h a K U M H B. pose proof (proj2 (views_atomic g kd ev K U m ls s h M H) a) as R.
  rewrite B in R. cbn in R. lia.
Qed.
Theorem C48_views_solo : forall g kd ev m ls s h t c, (forall a, kind_ok (kd a)) -> float_unit kd ev -> pmem_ok kd m ->
  asm_run fnext (v_code_of ev g kd) (asm_init m) ls = Some (s, h) -> athr s t = Some c ->
  exists j s' r, asm_run fnext (v_code_of ev g kd) s (repeat (mk_label t None false) j) = Some (s', [Return t r]).
Proof. intros g kd ev m ls s h t c K U M. exact (views_solo g kd ev K U m ls s h t c M). Qed.
(** The unsigned integer view of a float, and of a pointer, exists: every load, store, swap through it runs. *)
Theorem C48_bits_total : forall g kd ev a mw ew e, kd a = KFloat mw ew -> 0 <= e -> 1 + mw + ew = 2 ^ e ->
  forall r o, rmw_typed (mk_ity (1 + mw + ew) false) r -> exists c, v_code_of ev g kd a (Bits (mk_ity (1 + mw + ew) false) (Plain (ORmw r o))) = Some c.
Proof.
  intros g kd ev a mw ew e K E W r o R. cbn [v_code_of]. rewrite K. unfold bits_view. cbn [ibits kbits]. rewrite Z.eqb_refl, W, Z.log2_pow2, Z.eqb_refl by exact E.
  cbn [andb p_code_of plain_typed]. rewrite <- W.
  assert (T : nofetch_typed (mk_ity (1 + mw + ew) false) r = true) by (destruct r; cbn [nofetch_typed rmw_typed] in *; try reflexivity; now apply in_rangeb_iff).
  rewrite T. destruct r; eexists; reflexivity.
Qed.
(** A store through the view is what a load of the float returns (the same bits), and conversely. *)
Theorem C48_view_roundtrip : forall (kd : Z -> kind) a mw ew v y out so lo, kd a = KFloat mw ew -> ~ store_panics so -> ~ load_panics lo ->
  let t := mk_ity (1 + mw + ew) false in
  (vsem kd a (Bits t (Plain (OStore v so))) y out -> forall out', vsem kd a (Own (FlLoad lo)) (fst out) out' -> out' = (v, PVal v)) /\
  (vsem kd a (Own (FlStore v so)) y out -> forall out', vsem kd a (Bits t (Plain (OLoad lo))) (fst out) out' -> out' = (v, PPlain (RVal v))).
Proof.
  intros kd a mw ew v y [x r] so lo K S L t. unfold vsem. cbn [fst snd]. rewrite K. cbn [kval]. unfold psem. rewrite K.
  change (Words.of_bits t) with (fun b : Z => b). cbv beta. split; intros [_ H] [x' r'] [_ H']; cbn [fst snd] in *.
  - destruct so; cbn in H; try (exfalso; apply S; unfold store_panics; auto; fail); injection H as -> _; now injection H' as -> ->.
  - injection H as -> _. destruct lo; cbn in H'; try (exfalso; apply L; unfold load_panics; auto; fail); now injection H' as -> ->.
Qed.

(** ** Life *)
(** Any sequence of creations, shared phases (any number of threads, any interleaving, either view) and exclusive accesses
    behaves as one value: an exclusive read and [into_inner] return the value the last shared phase or write left, and a
    shared phase starts from it. *)
Theorem C48_life : forall g kd ev m ps es m', (forall a, kind_ok (kd a)) -> float_unit kd ev -> pmem_ok kd m ->
  lived ev g kd m ps es m' -> life_ok kd m es m'.
Proof. intros g kd ev m ps es m' K U M L. exact (proj1 (life_correct g kd ev K U m ps es m' M L)). Qed.
(** Wherever a life has got to, what the owner does is defined (never an invalid bool), unless the argument is ill-typed. *)
Theorem C48_owner_defined : forall g kd ev m ps es m' a o, (forall a, kind_ok (kd a)) -> float_unit kd ev -> pmem_ok kd m ->
  lived ev g kd m ps es m' ->
  match own_step kd m' a o with
  | Undefined => False
  | IllTyped => exists v, (o = New v \/ o = SetMut v) /\ val_typed (kd a) v = false
  | Result _ _ => True
  end.
Proof.
  intros g kd ev m ps es m' a o K U M L. destruct (life_correct g kd ev K U m ps es m' M L) as [_ M'].
  pose proof (owner_step kd K m' a o M') as O. destruct (own_step kd m' a o); [exact O|exact O|exact I].
Qed.
(** new(v).into_inner() = v, and likewise through [get_mut]; for every type and every value. *)
Theorem C48_new_into_inner : forall (kd : Z -> kind) m a v, (forall a, kind_ok (kd a)) -> pmem_ok kd m -> val_typed (kd a) v = true ->
  exists m1, own_step kd m a (New v) = Result m1 None /\ own_step kd m1 a IntoInner = Result m1 (Some v) /\
             own_step kd m1 a GetMut = Result m1 (Some v) /\ own_step kd m a (SetMut v) = Result m1 None.
Proof.
  intros kd m a v K M T. destruct (new_means kd K a v T) as (x & E & EM). exists (setz m a x).
  pose proof (means_range kd a x v EM) as X. destruct (read_means kd a x X) as (u & E1 & E2 & E3). rewrite EM in E1. injection E1 as <-.
  cbn [own_step]. rewrite T, E. unfold setz. rewrite Z.eqb_refl, E2, E3. repeat split.
Qed.
(** The default value of every type is one it can hold, and is all zeros. *)
Theorem C48_default : forall (kd : Z -> kind) a, (forall a, kind_ok (kd a)) -> val_typed (kd a) (default_val (kd a)) = true /\ new_bits (kd a) (default_val (kd a)) = Some 0.
Proof.
  intros kd a K. pose proof (FrontProofs.wpos kd K a) as W. destruct (kd a) as [t| |w sz|mw ew]; cbn [kbits] in W; cbn [default_val val_typed new_bits].
  - split; [|unfold to_bits; now rewrite Z.mod_0_l by (apply Z.pow_nonzero; lia)]. apply in_rangeb_iff.
    assert (0 < 2 ^ (ibits t - 1)) by (apply Z.pow_pos_nonneg; lia). assert (0 < 2 ^ ibits t) by (apply Z.pow_pos_nonneg; lia).
    unfold in_range, imin, imax. destruct (isigned t); lia.
  - split; reflexivity.
  - assert (0 < 2 ^ w) by (apply Z.pow_pos_nonneg; lia). unfold in_bits. split; [lia|]. now rewrite Z.mod_0_l by lia.
  - assert (0 < 2 ^ (1 + mw + ew)) by (apply Z.pow_pos_nonneg; lia). unfold in_bits. split; [lia|]. now rewrite Z.mod_0_l by lia.
Qed.

(** ** Cases *)
(** x86 (32-bit): u64 and f64 aligned to 4. *)
Definition i686 : target := mk_target 4 (fun n => Z.min n 4) (fun n => Z.min n 4) 4.
(** AVR: everything aligned to 1. *)
Definition avr : target := mk_target 2 (fun _ => 1) (fun _ => 1) 1.
Example C48_targets : legal_target i686 /\ legal_target avr.
Proof.
  unfold legal_target, legal_align, scalar_size. cbn [ptr_bytes ptr_al int_al float_al i686 avr In].
  repeat split; try lia; intros; decompose [or] H; subst; try contradiction; cbn; lia.
Qed.
Example C48_i686 : public_ty i686 Atomic64 (AtomicInt 8) = Some (TReprC 8 [TReprC 8 [TCell (TInt 8)]]) /\ align_of i686 (TInt 8) = 4 /\
  align_of i686 (TReprC 8 [TReprC 8 [TCell (TInt 8)]]) = 8 /\ align_of avr (TReprC 2 [TReprC 2 [TCell (TInt 2)]]) = 2.
Proof. repeat split. Qed.

Definition kd1 (a : Z) : kind := if a =? 0 then KFloat 23 8 else if a =? 8 then KBool else KInt (mk_ity 32 true).
Example kinds1 : forall a, kind_ok (kd1 a).
Proof. intros a. unfold kd1. destruct (a =? 0); [cbn; lia|]. destruct (a =? 8); [exact I|]. exists 5. split; [lia|reflexivity]. Qed.
Definition tick t : label vop := mk_label t None false.
Definition call t a o : label vop := mk_label t (Some (a, o)) false.
(** 1.0f32; one thread negates the float while another adds 1 to its bits; then the owner reads, writes and takes out. *)
Definition shared1 : list (label vop) :=
  [call 0 0 (Own (FlNeg AcqRel)); call 1 0 (Bits (mk_ity 32 false) (Plain (ORmw (Add 1) SeqCst))); tick 1; tick 0; tick 0; tick 1;
   call 1 8 (Own (BoolRmw BNot SeqCst)); tick 1; tick 1]%nat.
Definition m1 : Z -> Z := setz (setz (fun _ => 0) 0 1065353216) 8 1.
Definition run1 := asm_run fnext (v_code_of (fun _ _ _ x => x) (mk_cfg true false false) kd1) (asm_init m1) shared1.
Definition s1 := match run1 with Some (s, _) => s | None => asm_init m1 end.
Definition h1 := match run1 with Some (_, h) => h | None => [] end.
Example run1_ok : run1 = Some (s1, h1).
Proof.
  assert (H : match run1 with Some _ => true | None => false end = true) by (vm_compute; reflexivity).
  unfold s1, h1. destruct run1 as [[s h]|]; [reflexivity|discriminate H].
Qed.
Example C48_life_case : lived (fun _ _ _ x => x) (mk_cfg true false false) kd1 (fun _ => 0)
    [Owner 0 (New (VNum 1065353216)); Owner 8 (New (VBool true)); Shared shared1; Owner 8 GetMut; Owner 0 IntoInner; Owner 8 (SetMut (VBool true))]
    [OOwner 0 (New (VNum 1065353216)) None; OOwner 8 (New (VBool true)) None; OShared h1; OOwner 8 GetMut (Some (VBool false));
     OOwner 0 IntoInner (Some (VNum 3212836865)); OOwner 8 (SetMut (VBool true)) None] (setz (amem s1) 8 1).
Proof.
  assert (E0 : amem s1 0 = 3212836865) by (vm_compute; reflexivity). assert (E8 : amem s1 8 = 0) by (vm_compute; reflexivity).
  assert (Q : forall t, athr s1 t = None) by (intros [|[|t]]; vm_compute; reflexivity).
  eapply lived_owner with (m1 := setz (fun _ => 0) 0 1065353216); [reflexivity|]. eapply lived_owner with (m1 := m1); [reflexivity|].
  eapply lived_shared with (s := s1); [exact run1_ok|exact Q|].
  generalize dependent s1. intros s E0 E8 Q.
  eapply lived_owner with (m1 := amem s); [cbn [own_step]; rewrite E8; reflexivity|].
  eapply lived_owner with (m1 := amem s); [cbn [own_step]; rewrite E0; reflexivity|].
  eapply lived_owner with (m1 := setz (amem s) 8 1); [reflexivity|]. constructor.
Qed.

Print Assumptions C48_layout.
Print Assumptions C48_as_ptr.
Print Assumptions C48_from_ptr.
Print Assumptions C48_reinterpret.
Print Assumptions C48_layout_all.
Print Assumptions C48_views_atomic.
Print Assumptions C48_bool_valid.
Print Assumptions C48_views_solo.
Print Assumptions C48_bits_total.
Print Assumptions C48_view_roundtrip.
Print Assumptions C48_life.
Print Assumptions C48_owner_defined.
Print Assumptions C48_new_into_inner.
Print Assumptions C48_default.
