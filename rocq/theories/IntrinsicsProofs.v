(** intrinsics.rs: the functions refine the abstract loops; orderings. *)
From Coq Require Import ZArith List Bool Lia PeanoNat.
From Verif Require Import FallbackModel FallbackFacts Words Spec WideSpec WordsFacts LoopModel LoopProofs AsmModel AsmProofs BlockProofs AtomicImpls
  AtomicImplsProofs AsmMain RustOps RustOpsProofs RustLoopsProofs IntrinsicsModel.
Import ListNotations.
Open Scope Z_scope.

(** ** An access that never changes the variable may be replaced by a plain read of it *)
Section Quiet.
  Context {C Op Res : Type}.
  Variables next next' : C -> action C Res.
  Variable code_of : Z -> Op -> option C.
  Variable impl_of : Z -> Op -> option (impl Res).
  Variable width : Z -> Z.
  Hypothesis wpos : forall a, 0 <= width a.
  Hypothesis quiet : forall c,
    (next c = next' c /\ match next c with ALoadLinked _ _ _ _ _ | AStoreCond _ _ _ => False | _ => True end) \/
    exists a f kont kont', next c = AAtomic a f kont /\ next' c = ARead a (width a) 0 kont' /\
      forall sp x, LoopProofs.inr width a x ->
        (fst (f sp x) = None \/ fst (f sp x) = Some x) /\ kont (snd (f sp x)) = kont' x.
  Hypothesis code_refines : forall a o c, code_of a o = Some c ->
    exists i, impl_of a o = Some i /\ refines next' width a o c i.

  Definition same (s s' : asm_state C) : Prop :=
    (forall a, amem s a = amem s' a) /\ (forall t, athr s t = athr s' t).
  Lemma setn_same {B} (f f' : nat -> B) t v : (forall u, f u = f' u) -> forall u, setn f t v u = setn f' t v u.
  Proof. intros H u. unfold setn. destruct (Nat.eqb u t); auto. Qed.
  Lemma step_same s s' l s1 e : same s s' -> (forall a, LoopProofs.inr width a (amem s' a)) ->
    asm_step next code_of s l = Some (s1, e) ->
    exists s1', asm_step next' code_of s' l = Some (s1', e) /\ same s1 s1'.
  Proof.
    intros [M T] I. unfold asm_step. rewrite <- (T (tid l)). destruct (athr s (tid l)) as [c|].
    - destruct (quiet c) as [[E NL]|(a & f & kont & kont' & E & E' & Q)].
      + rewrite <- E. destruct (next c) as [c'|a k n kont|a f kont|fi a k n kont|a v kont|r|]; try contradiction; intros H.
        * injection H as <- <-. eexists. split; [reflexivity|]. split; [exact M|]. cbn. now apply setn_same.
        * injection H as <- <-. rewrite (M a). eexists. split; [reflexivity|]. split; [exact M|]. cbn. now apply setn_same.
        * rewrite <- (M a). destruct (f (spurious l) (amem s a)) as [[y|] r]; injection H as <- <-.
          -- eexists. split; [reflexivity|]. split; [|cbn; now apply setn_same].
             intros b. cbn. unfold setz. destruct (b =? a); auto.
          -- eexists. split; [reflexivity|]. split; [exact M|]. cbn. now apply setn_same.
        * injection H as <- <-. eexists. split; [reflexivity|]. split; [exact M|]. cbn. now apply setn_same.
        * discriminate H.
      + rewrite E, E'. pose proof (I a) as Ia. rewrite <- M in Ia. destruct (Q (spurious l) _ Ia) as [Q1 Q2].
        assert (R : amem s' a / 2 ^ (width a * Z.of_nat 0) mod 2 ^ width a = amem s a).
        { rewrite <- M, Z.mul_0_r, Z.pow_0_r, Z.div_1_r. apply Z.mod_small. exact Ia. }
        rewrite R. destruct (f (spurious l) (amem s a)) as [[y|] r] eqn:F; cbn [fst snd] in Q1, Q2; intros H; injection H as <- <-.
        * destruct Q1 as [Q1|Q1]; [discriminate Q1|]. injection Q1 as ->. eexists. split; [reflexivity|]. rewrite Q2.
          split; [|cbn; now apply setn_same]. intros b. cbn. unfold setz. destruct (Z.eqb_spec b a) as [->|]; auto.
        * eexists. split; [reflexivity|]. rewrite Q2. split; [exact M|]. cbn. now apply setn_same.
    - destruct (call l) as [[a o]|]; [|discriminate]. destruct (code_of a o) as [c|]; [|discriminate].
      intros H. injection H as <- <-. eexists. split; [reflexivity|]. split; [exact M|]. cbn. now apply setn_same.
  Qed.
  Lemma run_in_range m ls s h : (forall a, LoopProofs.inr width a (m a)) ->
    asm_run next' code_of (asm_init m) ls = Some (s, h) -> forall a, LoopProofs.inr width a (amem s a).
  Proof.
    intros Hm H. assert (S : Sim next' width (asm_init (C := C) m) (init (Op := Op) (Res := Res) m)).
    { split; [reflexivity|]. split; [exact Hm|]. intros u. split; [reflexivity|reflexivity]. }
    destruct (asm_sim_run next' code_of impl_of width code_refines _ _ _ _ _ S H) as (l' & _ & M & R & _). exact R.
  Qed.
  Lemma run_app m ls ls' s h s' h' : asm_run next' code_of m ls = Some (s, h) -> asm_run next' code_of s ls' = Some (s', h') ->
    asm_run next' code_of m (ls ++ ls') = Some (s', h ++ h').
  Proof.
    revert m h. induction ls as [|l ls IH]; intros m h H1 H2.
    - cbn in H1. injection H1 as <- <-. exact H2.
    - cbn [app asm_run] in *. destruct (asm_step next' code_of m l) as [[m1 e]|]; [|discriminate].
      destruct (asm_run next' code_of m1 ls) as [[m2 e2]|] eqn:E; [|discriminate]. injection H1 as <- <-.
      rewrite (IH _ _ E H2). now rewrite app_assoc.
  Qed.
  Lemma run_same m ls : (forall a, LoopProofs.inr width a (m a)) -> forall ls0 s s' h0 s1 h,
    asm_run next' code_of (asm_init m) ls0 = Some (s', h0) -> same s s' ->
    asm_run next code_of s ls = Some (s1, h) ->
    exists s1', asm_run next' code_of s' ls = Some (s1', h) /\ same s1 s1'.
  Proof.
    intros Hm. induction ls as [|l ls IH]; intros ls0 s s' h0 s1 h R0 E H.
    - cbn in H. injection H as <- <-. exists s'. split; [reflexivity|exact E].
    - cbn [asm_run] in *. destruct (asm_step next code_of s l) as [[s2 e]|] eqn:ES; [|discriminate].
      destruct (asm_run next code_of s2 ls) as [[s3 h3]|] eqn:ER; [|discriminate]. injection H as <- <-.
      destruct (step_same _ _ _ _ _ E (run_in_range _ _ _ _ Hm R0) ES) as (s2' & ES' & E2).
      assert (R1 : asm_run next' code_of (asm_init m) (ls0 ++ [l]) = Some (s2', h0 ++ (e ++ []))).
      { eapply run_app; [exact R0|]. cbn [asm_run]. now rewrite ES'. }
      destruct (IH _ _ _ _ _ _ R1 E2 ER) as (s3' & ER' & E3). exists s3'. rewrite ES', ER'. auto.
  Qed.
  Lemma run_same_init m ls s h : (forall a, LoopProofs.inr width a (m a)) ->
    asm_run next code_of (asm_init m) ls = Some (s, h) ->
    exists s', asm_run next' code_of (asm_init m) ls = Some (s', h) /\ same s s'.
  Proof.
    intros Hm H. eapply (run_same m ls Hm []); [reflexivity|split; reflexivity|exact H].
  Qed.
  Lemma quiet_never_stuck m ls s h t c : (forall a, LoopProofs.inr width a (m a)) ->
    asm_run next code_of (asm_init m) ls = Some (s, h) -> athr s t = Some c ->
    forall sp, exists s' e, asm_step next code_of s (mk_label t None sp) = Some (s', e).
  Proof.
    intros Hm H E sp. destruct (run_same_init _ _ _ _ Hm H) as (s' & H' & M & T).
    rewrite T in E. destruct (asm_never_stuck next' code_of impl_of width code_refines m ls s' h t c Hm H' E sp) as (s2 & e & S).
    revert S. unfold asm_step. cbn [tid spurious]. rewrite T, E.
    destruct (quiet c) as [[EQ NL]|(a & f & kont & kont' & EQ & E' & Q)].
    - rewrite <- EQ. destruct (next c) as [c'|a k n kont|a f kont|fi a k n kont|a v kont|r|]; try contradiction; eauto.
      intros _. destruct (f sp (amem s a)) as [[y|] r]; eauto.
    - rewrite EQ. intros _. destruct (f sp (amem s a)) as [[y|] r]; eauto.
  Qed.
End Quiet.

(** ** The intrinsics compute the closures *)
Lemma ones128 : Z.ones 128 = 2 ^ 128 - 1. Proof. reflexivity. Qed.
Lemma lxor_ones y : 0 <= y < 2 ^ 128 -> Z.lxor y (Z.ones 128) = 2 ^ 128 - 1 - y.
Proof.
  intros H. assert (E : 2 ^ 128 - 1 - y = (Z.lnot y) mod 2 ^ 128).
  { unfold Z.lnot. rewrite <- (Z.mod_small (2 ^ 128 - 1 - y) (2 ^ 128)) by lia.
    replace (2 ^ 128 - 1 - y) with (Z.pred (- y) + 1 * 2 ^ 128) by lia. rewrite Z_mod_plus_full. reflexivity. }
  rewrite E, <- Z.land_ones by lia. apply Z.bits_inj'. intros n Hn.
  rewrite Z.lxor_spec, Z.land_spec, Z.lnot_spec by lia.
  destruct (Z.ltb_spec n 128) as [L|L].
  - rewrite Z.ones_spec_low by lia. destruct (Z.testbit y n); reflexivity.
  - rewrite Z.ones_spec_high by lia. rewrite andb_false_r, xorb_false_r.
    destruct (Z.eq_dec y 0) as [->|N]; [apply Z.bits_0|]. apply Z.bits_above_log2; [lia|].
    assert (Z.log2 y < 128) by (apply Z.log2_lt_pow2; lia). lia.
Qed.
Definition fn_of (op : fetch_op) (v : Z) : backend_fn :=
  match op with
  | KXchg => FSwap v | KXadd => FAdd v | KXsub => FSub v | KAnd => FAnd v | KNand => FNand v | KOr => FOr v
  | KXor => FXor v | KMax => FMax v | KMin => FMin v | KUmax => FUmax v | KUmin => FUmin v
  end.
Lemma land_range x v : 0 <= x < 2 ^ 128 -> 0 <= Z.land x v < 2 ^ 128.
Proof.
  intros H. assert (E : Z.land x v = Z.land x v mod 2 ^ 128).
  { rewrite <- Z.land_ones by lia. rewrite <- Z.land_assoc, (Z.land_comm v), Z.land_assoc.
    rewrite (Z.land_ones x) by lia. rewrite (Z.mod_small x) by exact H. reflexivity. }
  rewrite E. apply Z.mod_pos_bound. lia.
Qed.
Lemma cast_i128 x : 0 <= x < 2 ^ 128 -> cast (mk_ity 128 true) x = as_i128 x.
Proof. intros H. unfold cast, to_bits, of_bits. cbn [ibits isigned]. rewrite Z.mod_small by exact H. reflexivity. Qed.
Lemma as_i128_mod x : 0 <= x < 2 ^ 128 -> as_i128 x mod 2 ^ 128 = x.
Proof.
  intros H. unfold as_i128. destruct (Z.leb_spec (2 ^ 127) x); [|now apply Z.mod_small].
  replace (x - 2 ^ 128) with (x + (-1) * 2 ^ 128) by lia. rewrite Z_mod_plus_full. now apply Z.mod_small.
Qed.
Lemma fetch_closure op v x : 0 <= v < 2 ^ 128 -> 0 <= x < 2 ^ 128 -> fetch_sem op v x = closure 128 (fn_of op v) x.
Proof.
  intros V X. destruct op; cbn [fetch_sem fn_of closure].
  - reflexivity.
  - unfold wrapping_add, to_bits, of_bits. cbn [ibits isigned andb]. now rewrite <- Zplus_mod.
  - unfold wrapping_sub, to_bits, of_bits. cbn [ibits isigned andb]. now rewrite <- Zminus_mod.
  - unfold bit_and, to_bits, of_bits. cbn [ibits isigned andb]. now rewrite !Z.mod_small.
  - unfold bit_not, bit_and, to_bits, of_bits. cbn [ibits isigned andb]. rewrite (Z.mod_small x), (Z.mod_small v) by assumption.
    pose proof (land_range x v X) as L. rewrite Z.mod_small by exact L. now rewrite lxor_ones.
  - unfold bit_or, to_bits, of_bits. cbn [ibits isigned andb]. now rewrite !Z.mod_small.
  - unfold bit_xor, to_bits, of_bits. cbn [ibits isigned andb]. now rewrite !Z.mod_small.
  - rewrite !cast_i128 by assumption. unfold cast, cmp_max, to_bits, of_bits. cbn [ibits isigned andb].
    destruct (Z.ltb_spec (as_i128 x) (as_i128 v)) as [L|L]; destruct (Z.leb_spec (as_i128 x) (as_i128 v)) as [K|K];
      rewrite ?as_i128_mod by assumption; auto; [lia|].
    assert (E : as_i128 x = as_i128 v) by lia. rewrite <- (as_i128_mod x X), E, as_i128_mod; auto.
  - rewrite !cast_i128 by assumption. unfold cast, cmp_min, to_bits, of_bits. cbn [ibits isigned andb].
    destruct (Z.ltb_spec (as_i128 x) (as_i128 v)) as [L|L]; destruct (Z.leb_spec (as_i128 x) (as_i128 v)) as [K|K];
      rewrite ?as_i128_mod by assumption; auto; [lia|].
    assert (E : as_i128 x = as_i128 v) by lia. rewrite <- (as_i128_mod v V), <- E, as_i128_mod; auto.
  - unfold cmp_max. destruct (Z.ltb_spec x v); destruct (Z.leb_spec x v); auto; lia.
  - unfold cmp_min. destruct (Z.ltb_spec x v); destruct (Z.leb_spec x v); auto; lia.
Qed.

Section Refine128.
  Variable g : icfg.
  Variable ty : Z -> ity.
  Hypothesis tyok : forall a, wf_ity (ty a).
  Local Notation width := (fun a => ibits (ty a)).

  (** atomic_update's first load as a plain read *)
  Definition inext' (c : iconf) : action iconf res :=
    match c with
    | IUpdLoad a f order fin => ARead a (ibits (ty a)) 0 (fun x => IUpdTry a f order fin x)
    | _ => inext g c
    end.
  Lemma load_sem k sp x : i_load g Relaxed = Some k ->
    (fst (isem k sp x) = None \/ fst (isem k sp x) = Some x) /\ fst (snd (isem k sp x)) = x.
  Proof.
    unfold i_load, i_cas. destruct (is_x86 g); cbn [strongest_failure_ordering]; intros E; injection E as <-; cbn [isem].
    - destruct (Z.eqb_spec x 0) as [->|N]; cbn [fst snd]; auto.
    - cbn [fst snd]. auto.
  Qed.
  Lemma inext_quiet c : (inext g c = inext' c /\ match inext g c with ALoadLinked _ _ _ _ _ | AStoreCond _ _ _ => False | _ => True end) \/
    exists a f kont kont', inext g c = AAtomic a f kont /\ inext' c = ARead a (ibits (ty a)) 0 kont' /\
      forall sp x, LoopProofs.inr width a x ->
        (fst (f sp x) = None \/ fst (f sp x) = Some x) /\ kont (snd (f sp x)) = kont' x.
  Proof.
    destruct c as [a k fin|a f order fin|a f order fin prev| |r].
    - left. split; [reflexivity|exact Logic.I].
    - right. destruct (i_load g Relaxed) as [k|] eqn:E.
      + exists a, (isem k), (fun out : Z * bool => IUpdTry a f order fin (fst out)), (fun x => IUpdTry a f order fin x).
        cbn [inext]. rewrite E. split; [reflexivity|]. split; [reflexivity|]. intros sp x _.
        destruct (load_sem k sp x E) as [L1 L2]. split; [exact L1|]. now rewrite L2.
      + exfalso. revert E. unfold i_load, i_cas. destruct (is_x86 g); discriminate.
    - left. split; [reflexivity|]. cbn [inext]. destruct (i_cas_weak _ _ _ _); exact Logic.I.
    - left. split; [reflexivity|exact Logic.I].
    - left. split; [reflexivity|exact Logic.I].
  Qed.

  Lemma weak_some old new s : exists k, i_cas_weak g old new s Relaxed = Some k /\
    forall sp x, isem k sp x = if (x =? old) && negb (negb (is_x86 g) && sp) then (Some new, (x, true)) else (None, (x, false)).
  Proof.
    unfold i_cas_weak, i_cas. destruct (is_x86 g).
    - eexists. split; [reflexivity|]. intros sp x. cbn [isem negb andb]. destruct (x =? old); reflexivity.
    - destruct s; (eexists; split; [reflexivity|]; reflexivity).
  Qed.

  Lemma i_upd_refines a (o : wop) f order fin nxt ok : ibits (ty a) = 128 ->
    (forall x, 0 <= x < 2 ^ 128 -> closure 128 f x = nxt x /\ 0 <= nxt x < 2 ^ 128 /\ fin (x, true) = ok x) ->
    refines (Op := wop) inext' width a o (IUpdLoad a f order fin)
      (CasLoop (ibits (ty a)) [0%nat] false (fun _ x => Some (nxt x)) ok ok).
  Proof.
    intros W H.
    apply casloop_refines with
      (AtRd := fun n acc c => n = 0%nat /\ acc = 0 /\ c = IUpdLoad a f order fin)
      (AtTry := fun x c => 0 <= x < 2 ^ 128 /\ c = IUpdTry a f order fin x).
    - pose proof (tyok a) as T. unfold wf_ity in T. lia.
    - eexists. split; [constructor|]. auto.
    - intros n acc c (-> & -> & ->). exists 0%nat, (fun x => IUpdTry a f order fin x).
      split; [reflexivity|]. split; [reflexivity|]. intros v V. cbn [length Nat.eqb]. cbv zeta.
      rewrite Z.mul_0_r, Z.pow_0_r, Z.mul_1_r, Z.add_0_l. eexists. split; [constructor|]. rewrite W in V. auto.
    - intros x c (X & ->). destruct (H x X) as (H1 & H2 & H3).
      destruct (weak_some x (closure 128 f x) order) as (k & E & K).
      exists (isem k), (fun out : Z * bool => if snd out then IRet (fin out) else IUpdTry a f order fin (fst out)).
      cbn [inext' inext]. rewrite E. split; [reflexivity|]. intros sp y Y. unfold LoopProofs.inr in Y. rewrite W in Y. rewrite !K, H1.
      destruct (Z.eqb_spec y x) as [->|N]; [destruct (negb (is_x86 g) && sp) eqn:Q|]; cbn [andb negb fst snd].
      + right. split; [right; now apply andb_true_iff in Q|]. split; [reflexivity|]. eexists. split; [constructor|]. auto.
      + left. split; [reflexivity|]. split; [reflexivity|]. split; [unfold LoopProofs.inr; now rewrite W|].
        eexists. split; [constructor|]. cbn. now rewrite H3.
      + right. split; [auto|]. split; [reflexivity|]. eexists. split; [constructor|]. auto.
  Qed.

  Definition native (r : rmw) : bool :=
    match r with
    | Neg => false
    | Max _ | Min _ => negb (cmp_by_update g)
    | _ => negb (by_update g)
    end.
  Definition i_impl (a : Z) (o : wop) : option (impl res) :=
    let t := ty a in
    if negb ((ibits t =? 128) && callable t o) then None else
    Some match o with
    | WOp (OLoad _) => if is_x86 g then d_load_cas t else d_load t
    | WOp (OStore v _) => if is_x86 g then c_store t (ibits t) [0%nat] false v else d_store t v
    | WOp (ORmw r _) => if native r then d_rmw t r else c_rmw t (ibits t) [0%nat] false r
    | WOp (OCas c n _ _) => d_cas t c n
    | WCasWeak c n _ _ => if is_x86 g then d_cas t c n else d_cas_weak t c n
    end.

  Lemma do_refines a (o : wop) k fin f :
    (forall sp x, LoopProofs.inr width a x -> fst (isem k sp x) = fst (f sp x) /\
       (forall y, fst (isem k sp x) = Some y -> LoopProofs.inr width a y) /\ fin (snd (isem k sp x)) = snd (f sp x)) ->
    refines (Op := wop) inext' width a o (IDo a k fin) (Direct f).
  Proof.
    intros H. eapply single_refines; [constructor|reflexivity|]. intros sp x X.
    destruct (H sp x X) as (H1 & H2 & H3). split; [exact H1|]. split; [exact H2|].
    eexists. split; [constructor|]. cbn [inext' inext]. now rewrite H3.
  Qed.
  Lemma fetch_some op v order : exists o', i_fetch op v order = Some (KFetch op v o').
  Proof. destruct order; eexists; reflexivity. Qed.
  Lemma fetch_refines a (o : wop) op v order r : ibits (ty a) = 128 -> 0 <= v < 2 ^ 128 ->
    (forall x, 0 <= x < 2 ^ 128 -> closure 128 (fn_of op v) x = next_bits (ty a) r x) ->
    refines (Op := wop) inext' width a o (do_ a (i_fetch op v order) (fin_value (ty a))) (d_rmw (ty a) r).
  Proof.
    intros W V H. destruct (fetch_some op v order) as (o' & E). rewrite E. cbn [do_]. apply do_refines.
    intros sp x X. unfold LoopProofs.inr in *. cbn [isem fst snd]. pose proof X as X'. rewrite W in X'.
    rewrite fetch_closure, H by assumption. split; [reflexivity|]. split.
    - intros y Hy. injection Hy as <-. apply to_bits_range. apply tyok.
    - unfold fin_value, fin_val. cbn [fst]. now rewrite cast_in.
  Qed.
  Lemma not_closure a : ibits (ty a) = 128 -> forall x, 0 <= x < 2 ^ 128 ->
    closure 128 (fn_of KXor (bit_not u128 0)) x = next_bits (ty a) Not x.
  Proof.
    intros W x X. transitivity (closure 128 FNot x).
    - cbn [closure fn_of]. unfold bit_xor, bit_not, to_bits, of_bits. cbn [ibits isigned andb u128].
      rewrite (Z.mod_small 0) by lia. rewrite Z.lxor_0_l, (Z.mod_small (Z.ones 128)) by (rewrite ones128; lia). reflexivity.
    - assert (X' : 0 <= x < 2 ^ ibits (ty a)) by (now rewrite W).
      pose proof (closure_correct (ty a) (tyok a) Not x Logic.I X') as C. rewrite W in C. exact C.
  Qed.

  Lemma i_refines a o c : i_code_of g ty a o = Some c ->
    exists i, i_impl a o = Some i /\ refines inext' width a o c i.
  Proof.
    unfold i_code_of, i_impl. destruct ((ibits (ty a) =? 128) && callable (ty a) o) eqn:EC; cbn [negb]; [|discriminate].
    apply andb_true_iff in EC as [E1 E2]. apply Z.eqb_eq in E1. pose proof (tyok a) as WF.
    assert (SW : forall v order (o : wop), refines inext' width a o
      (IUpdLoad a (FSwap (cast (mk_ity (ibits (ty a)) false) v)) order (fun _ => RUnit)) (c_store (ty a) (ibits (ty a)) [0%nat] false v)).
    { intros v order o'. apply i_upd_refines; [exact E1|]. intros x X. cbn [closure]. rewrite castu. split; [reflexivity|].
      split; [rewrite <- E1; now apply to_bits_range|reflexivity]. }
    destruct o as [[ord|v ord|r ord|cu nw sc fl]|cu nw sc fl]; intros E; injection E as <-; eexists; (split; [reflexivity|]).
    - unfold i_load, i_cas. destruct (is_x86 g).
      + assert (exists s f, match strongest_failure_ordering ord with
            | Some fail_order => Some (KCmpxchg16b 0 0 ord fail_order) | None => None end = Some (KCmpxchg16b 0 0 s f)) as (s & f & ->)
          by (destruct ord; eexists _, _; reflexivity).
        cbn [do_]. apply do_refines. intros sp x X. cbn [isem]. unfold LoopProofs.inr in *.
        destruct (Z.eqb_spec x 0) as [->|N]; cbn [fst snd].
        * split; [reflexivity|]. split; [intros y Hy; injection Hy as <-; exact X|]. unfold fin_value. cbn [fst]. unfold fin_val. now rewrite cast_in.
        * split; [reflexivity|]. split; [discriminate|]. unfold fin_value. cbn [fst]. unfold fin_val. now rewrite cast_in.
      + assert (exists s, match ord with Acquire => Some (KLoad Acquire) | Relaxed => Some (KLoad Relaxed)
            | SeqCst => Some (KLoad SeqCst) | _ => None end = Some (KLoad s)) as (s & ->)
          by (cbn in E2; destruct ord; try discriminate E2; eexists; reflexivity).
        cbn [do_]. apply do_refines. intros sp x X. cbn [isem fst snd].
        split; [reflexivity|]. split; [discriminate|]. unfold fin_value. cbn [fst]. unfold fin_val. now rewrite cast_in.
    - destruct (is_x86 g) eqn:EX.
      + cbn [i_rmw]. assert (B : by_update g = true) by (unfold is_x86 in EX; unfold by_update; destruct (iarch_of g); auto; discriminate).
        rewrite B. apply SW.
      + assert (exists s, i_store (cast (mk_ity (ibits (ty a)) false) v) ord = Some (KStore (to_bits (ty a) v) s)) as (s & ->).
        { unfold i_store. rewrite castu. cbn in E2. destruct ord; try (rewrite andb_false_r in E2; discriminate E2); eexists; reflexivity. }
        cbn [do_]. apply do_refines. intros sp x X. cbn [isem fst snd]. split; [reflexivity|].
        split; [|reflexivity]. intros y Hy. injection Hy as <-. now apply to_bits_range.
    - cbn in E2. apply rmw_typedb_ok in E2.
      assert (CL : forall x, 0 <= x < 2 ^ 128 -> closure 128 (select_fn (ty a) r) x = next_bits (ty a) r x).
      { intros x X. rewrite <- E1 in *. now apply closure_correct. }
      assert (UP : refines inext' width a (WOp (ORmw r ord)) (IUpdLoad a (select_fn (ty a) r) ord (fin_value (ty a)))
         (c_rmw (ty a) (ibits (ty a)) [0%nat] false r)).
      { apply i_upd_refines; [exact E1|]. intros x X. split; [now apply CL|]. split; [rewrite <- E1; now apply to_bits_range|].
        unfold fin_value, fin_val. cbn [fst]. rewrite cast_in; [reflexivity|now rewrite E1]. }
      assert (FE : forall op v, fn_of op v = select_fn (ty a) r -> 0 <= v < 2 ^ 128 ->
         refines inext' width a (WOp (ORmw r ord)) (do_ a (i_fetch op v ord) (fin_value (ty a))) (d_rmw (ty a) r)).
      { intros op v Q V. apply fetch_refines; auto. intros x X. rewrite Q. now apply CL. }
      assert (RG : forall v, 0 <= cast (mk_ity (ibits (ty a)) false) v < 2 ^ 128).
      { intros v. rewrite castu, <- E1. now apply to_bits_range. }
      destruct r as [v|v|v|v|v|v|v| | |v|v]; unfold native; cbn [select_fn i_rmw] in *; cbv zeta in *.
      1-7: destruct (by_update g); cbn [negb]; [exact UP|apply FE; [reflexivity|apply RG]].
      + destruct (by_update g); cbn [negb]; [exact UP|]. apply fetch_refines; [exact E1| |now apply not_closure].
        unfold bit_not, to_bits, of_bits. cbn [ibits isigned andb u128]. rewrite Z.mod_0_l, Z.lxor_0_l, ones128 by lia. lia.
      + exact UP.
      + destruct (isigned (ty a)); cbn [i_rmw]; destruct (cmp_by_update g); cbn [negb]; try exact UP; apply FE; auto; reflexivity.
      + destruct (isigned (ty a)); cbn [i_rmw]; destruct (cmp_by_update g); cbn [negb]; try exact UP; apply FE; auto; reflexivity.
    - rewrite !castu.
      assert (exists k, i_cas g (to_bits (ty a) cu) (to_bits (ty a) nw) sc fl = Some k /\
        forall sp x, isem k sp x = if x =? to_bits (ty a) cu then (Some (to_bits (ty a) nw), (x, true)) else (None, (x, false))) as (k & -> & K).
      { unfold i_cas. destruct (is_x86 g).
        - eexists. split; [reflexivity|]. intros sp x. cbn [isem]. destruct (x =? _); reflexivity.
        - cbn in E2. destruct fl; try (rewrite andb_false_r in E2; discriminate E2); destruct sc; (eexists; split; [reflexivity|]);
            intros sp x; cbn [isem andb negb]; rewrite andb_true_r; reflexivity. }
      cbn [do_]. apply do_refines. intros sp x X. rewrite K. destruct (x =? to_bits (ty a) cu); cbn [fst snd].
      + split; [reflexivity|]. split; [intros y Hy; injection Hy as <-; now apply to_bits_range|].
        unfold fin_cas. cbn [fst snd]. now rewrite cast_in.
      + split; [reflexivity|]. split; [discriminate|]. unfold fin_cas. cbn [fst snd]. now rewrite cast_in.
    - rewrite !castu.
      assert (exists k, i_cas_weak g (to_bits (ty a) cu) (to_bits (ty a) nw) sc fl = Some k /\
        forall sp x, isem k sp x = if (x =? to_bits (ty a) cu) && negb (negb (is_x86 g) && sp) then (Some (to_bits (ty a) nw), (x, true)) else (None, (x, false))) as (k & -> & K).
      { unfold i_cas_weak, i_cas. destruct (is_x86 g).
        - eexists. split; [reflexivity|]. intros sp x. cbn [isem negb andb]. destruct (x =? _); reflexivity.
        - cbn in E2. destruct fl; try (rewrite andb_false_r in E2; discriminate E2); destruct sc; (eexists; split; [reflexivity|]; reflexivity). }
      cbn [do_]. destruct (is_x86 g); apply do_refines; intros sp x X; rewrite K; cbn [negb andb].
      + rewrite andb_true_r. destruct (x =? to_bits (ty a) cu); cbn [fst snd].
        * split; [reflexivity|]. split; [intros y Hy; injection Hy as <-; now apply to_bits_range|].
          unfold fin_cas. cbn [fst snd]. now rewrite cast_in.
        * split; [reflexivity|]. split; [discriminate|]. unfold fin_cas. cbn [fst snd]. now rewrite cast_in.
      + destruct ((x =? to_bits (ty a) cu) && negb sp); cbn [fst snd].
        * split; [reflexivity|]. split; [intros y Hy; injection Hy as <-; now apply to_bits_range|].
          unfold fin_cas. cbn [fst snd]. now rewrite cast_in.
        * split; [reflexivity|]. split; [discriminate|]. unfold fin_cas. cbn [fst snd]. now rewrite cast_in.
  Qed.
  Lemma i_impl_ok : forall a o i, i_impl a o = Some i ->
    impl_correct width (fun a x => of_bits (ty a) x) (sem ty) a o i.
  Proof.
    intros a o i. unfold i_impl. destruct ((ibits (ty a) =? 128) && callable (ty a) o) eqn:EC; cbn [negb]; [|discriminate].
    apply andb_true_iff in EC as [E1 E2].
    destruct o as [[ord|v ord|r ord|cu nw sc fl]|cu nw sc fl]; intros E; injection E as <-.
    - destruct (is_x86 g); [now apply d_load_cas_ok|now apply d_load_ok].
    - destruct (is_x86 g); [apply c_store_ok; auto; discriminate|now apply d_store_ok].
    - destruct (native r); [now apply d_rmw_ok|apply c_rmw_ok; auto; discriminate].
    - now apply d_cas_ok.
    - destruct (is_x86 g); [now apply d_cas_strong_for_weak_ok|now apply d_cas_weak_ok].
  Qed.

  Theorem intrinsics_atomic m ls s h : mem_ok ty m ->
    asm_run (inext g) (i_code_of g ty) (asm_init m) ls = Some (s, h) -> atomic_history ty m h (amem s).
  Proof.
    intros Hm H.
    destruct (run_same_init (inext g) inext' (i_code_of g ty) i_impl width inext_quiet i_refines m ls s h Hm H) as (s' & H' & M & _).
    destruct (blocks_atomic inext' (i_code_of g ty) i_impl ty i_refines i_impl_ok m ls s' h Hm H') as (A & L1 & L2).
    exists A. split; [exact L1|]. intros a v E. injection E as <-. rewrite M. now apply L2.
  Qed.
  Theorem intrinsics_never_stuck m ls s h t c : mem_ok ty m ->
    asm_run (inext g) (i_code_of g ty) (asm_init m) ls = Some (s, h) -> athr s t = Some c ->
    forall sp, exists s' e, asm_step (inext g) (i_code_of g ty) s (mk_label t None sp) = Some (s', e).
  Proof. exact (quiet_never_stuck (inext g) inext' (i_code_of g ty) i_impl width inext_quiet i_refines m ls s h t c). Qed.
End Refine128.
