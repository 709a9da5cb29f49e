(** Proofs for LayoutModel and LifeModel. *)
From Coq Require Import ZArith List Bool Lia PeanoNat.
From Verif Require Import Words Spec WordsFacts FrontSpec FloatSpec LifeSpec LoopModel LoopProofs LoopProgress AsmModel AsmProofs AsmProgress LockFree
  BlockProofs FrontModel FrontProofs FloatProofs FrontMain LifeModel.
Import ListNotations.
Open Scope Z_scope.

(** ** Views *)
Section V.
  Variable g : cfg.
  Variable kd : Z -> kind.
  Variable ev : Z -> fop -> list Z -> Z -> Z.
  Hypothesis kok : forall a, kind_ok (kd a).
  Hypothesis unit_ok : float_unit kd ev.
  Local Notation width := (fun a => kbits (kd a)).
  Local Notation ab := (fun (a : Z) (x : Z) => x).
  Local Notation sem := (vsem kd).
  Local Notation code := (v_code_of ev g kd).
  Local Notation inr := (LoopProofs.inr width).

  Definition vconf_ok (a : Z) (o : vop) (c : fconf) : Prop :=
    match c with
    | FAccess a' f k => a' = a /\ forall sp x, inr a x ->
        match fst (f sp x) with
        | Some y => inr a y /\ sem a o x (y, k (snd (f sp x)))
        | None => sem a o x (x, k (snd (f sp x)))
        end
    | FUpdLoad a' k dec f ok err => a' = a /\ k = kbits (kd a) /\ (forall x, inr a x -> dec x = x) /\
        (forall hist x y, inr a x -> f hist x = Some y -> inr a y /\ sem a o x (y, ok x)) /\
        (forall hist x, inr a x -> f hist x = None -> sem a o x (x, err x))
    | _ => False
    end.

  Lemma v_refines a o c : vconf_ok a o c -> refines fnext width a o c (f_impl c).
  Proof.
    pose proof (wpos kd kok a) as W. destruct c as [a' f k|a' k dec f ok err| |]; cbn [vconf_ok f_impl]; try contradiction.
    - intros (-> & H). eapply single_refines; [constructor|reflexivity|]. intros sp x X. specialize (H sp x X).
      destruct (f sp x) as [w r]. cbn [fst snd] in *. split; [reflexivity|]. split.
      + intros y ->. apply H.
      + eexists. split; [constructor|]. reflexivity.
    - intros (-> & -> & HD & HS & HN). cbv beta in *.
      apply casloop_refines_gen with
        (AtRd := fun hist n acc c => hist = [] /\ n = 0%nat /\ acc = 0 /\ c = FUpdLoad a (kbits (kd a)) dec f ok err)
        (AtTry := fun hist x c => inr a x /\ c = FUpdTry a dec f ok err hist x).
      + lia.
      + eexists. split; [constructor|]. auto.
      + intros hist n acc c (-> & -> & -> & ->). exists 0%nat, (fun x => FUpdTry a dec f ok err [] (dec x)).
        split; [reflexivity|]. split; [reflexivity|]. intros v V. cbn [length Nat.eqb]. cbv zeta.
        rewrite Z.mul_0_r, Z.pow_0_r, Z.mul_1_r, Z.add_0_l. eexists. split; [constructor|].
        split; [exact V|]. now rewrite HD by assumption.
      + intros hist x c (X & ->). cbn [fnext]. destruct (f hist x) as [y|] eqn:EF; [|reflexivity].
        eexists _, _. split; [reflexivity|]. intros sp z Zr. cbv beta.
        destruct (Z.eqb_spec z x) as [->|N]; [destruct sp|]; cbn [andb negb fst snd].
        * right. split; [auto|]. split; [reflexivity|]. eexists. split; [constructor|]. split; [exact Zr|]. now rewrite HD by assumption.
        * left. split; [reflexivity|]. split; [reflexivity|]. split; [exact (proj1 (HS hist x y Zr EF))|].
          eexists. split; [constructor|]. cbn. now rewrite HD by assumption.
        * right. split; [auto|]. split; [reflexivity|]. eexists. split; [constructor|]. split; [exact Zr|]. now rewrite HD by assumption.
  Qed.
  Lemma v_correct a o c : vconf_ok a o c -> impl_correct width ab sem a o (f_impl c).
  Proof.
    pose proof (wpos kd kok a) as W. destruct c as [a' f k|a' k dec f ok err| |]; cbn [vconf_ok f_impl]; try contradiction.
    - intros (-> & H). split; [exact I|]. intros sp x X. specialize (H sp x X).
      destruct (f sp x) as [[y|] r]; cbn [fst snd] in H; exact H.
    - intros (-> & -> & HD & HS & HN). split; [discriminate|]. split; [exact HS|].
      intros hist x E. split; [split; [reflexivity|split; [lia|exact W]]|]. intros X. now apply (HN hist).
  Qed.

  Lemma own_ok a o c : p_code_of ev g kd a o = Some c -> vconf_ok a (Own o) c.
  Proof.
    intros H. apply (front_code_ok g kd ev kok unit_ok) in H.
    destruct c as [a' f k|a' k dec f ok err| |]; cbn [conf_ok vconf_ok] in *; try contradiction.
    - destruct H as (-> & H). split; [reflexivity|]. intros sp x X. specialize (H sp x X).
      destruct (fst (f sp x)); [destruct H as [R H]; split; [exact R|]; split; [exact R|exact H]|split; [exact X|exact H]].
    - destruct H as (-> & -> & HD & HS & HN). split; [reflexivity|]. split; [reflexivity|]. split; [exact HD|]. split.
      + intros hist x y X E. destruct (HS hist x y X E) as [R H]. split; [exact R|]. split; [exact R|exact H].
      + intros hist x X E. split; [exact X|]. exact (HN hist x X E).
  Qed.
  Lemma bits_view_ok k t : bits_view k t = true -> ibits t = kbits k /\ kind_ok k -> kind_ok (KInt t).
  Proof.
    intros B [E KO]. assert (P : 2 ^ Z.log2 (ibits t) = ibits t) by (destruct k; try discriminate; cbn in B; lia).
    exists (Z.log2 (ibits t)). split; [apply Z.log2_nonneg|now rewrite P].
  Qed.
  Lemma bits_ok a t o c : code a (Bits t o) = Some c -> vconf_ok a (Bits t o) c.
  Proof.
    cbn [v_code_of]. destruct (bits_view (kd a) t) eqn:B; [|discriminate]. intros H.
    assert (W : ibits t = kbits (kd a)) by (destruct (kd a); try discriminate; cbn [bits_view] in B; lia).
    assert (KO : forall b : Z, kind_ok ((fun _ => KInt t) b)) by (intros b; apply (bits_view_ok (kd a) t B); split; [exact W|apply kok]).
    assert (C : conf_ok (fun _ => KInt t) (fun _ _ _ _ => False) a o c).
    { eapply (p_code_ok g (fun _ => KInt t) ev (fun _ _ _ _ => False) KO); [discriminate|discriminate|exact H]. }
    assert (I : forall x, inr a x <-> 0 <= x < 2 ^ ibits t) by (intros x; unfold LoopProofs.inr; cbv beta; now rewrite W).
    destruct c as [a' f k|a' k dec f ok err| |]; cbn [conf_ok vconf_ok] in *; try contradiction; unfold LoopProofs.inr in C; cbv beta in C; cbn [kbits kval] in C.
    - destruct C as (-> & C). split; [reflexivity|]. intros sp x X. specialize (C sp x (proj1 (I x) X)).
      destruct (fst (f sp x)).
      + destruct C as [R C]. apply I in R. split; [exact R|]. split; [exact R|exact C].
      + split; [exact X|exact C].
    - destruct C as (-> & -> & HD & HS & HN). split; [reflexivity|]. split; [exact W|]. split; [intros x X; apply HD; now apply I|]. split.
      + intros hist x y X E. destruct (HS hist x y (proj1 (I x) X) E) as [R C]. apply I in R. split; [exact R|]. split; [exact R|exact C].
      + intros hist x X E. split; [exact X|]. exact (HN hist x (proj1 (I x) X) E).
  Qed.
  Lemma v_code_ok a o c : code a o = Some c -> vconf_ok a o c.
  Proof. destruct o as [o|t o]; [apply own_ok|apply bits_ok]. Qed.

  Definition v_impl (a : Z) (o : vop) : option (impl pres) := option_map f_impl (code a o).
  Lemma v_impl_refines a o c : code a o = Some c -> exists i, v_impl a o = Some i /\ refines fnext width a o c i.
  Proof. intros E. exists (f_impl c). unfold v_impl. rewrite E. split; [reflexivity|]. apply v_refines. now apply v_code_ok. Qed.
  Lemma v_impl_ok a o i : v_impl a o = Some i -> impl_correct width ab sem a o i.
  Proof.
    unfold v_impl. destruct (code a o) as [c|] eqn:E; [|discriminate]. intros H. injection H as <-.
    apply v_correct. now apply v_code_ok.
  Qed.
  Lemma v_reads a o i : v_impl a o = Some i -> reads_all width a i.
  Proof.
    unfold v_impl. destruct (code a o) as [c|] eqn:E; [|discriminate]. intros H. injection H as <-.
    pose proof (v_code_ok a o c E) as C. pose proof (wpos kd kok a) as W.
    destruct c as [a' f k|a' k dec f ok err| |]; try contradiction; [exact I|].
    destruct C as (-> & -> & _). cbn [f_impl reads_all]. exists 1%nat. split; [lia|]. split; [exact W|]. split; [reflexivity|lia].
  Qed.

  Theorem views_atomic m ls s h : pmem_ok kd m -> asm_run fnext code (asm_init m) ls = Some (s, h) ->
    linearizable_to sem m h (fun a => Some (amem s a)) /\ pmem_ok kd (amem s).
  Proof.
    intros Hm H.
    destruct (asm_refines_loops fnext code v_impl width v_impl_refines m ls s h Hm H) as (ls' & s' & H' & M).
    destruct (loops_linearizable_range v_impl width ab sem v_impl_ok m ls' s' h Hm H') as ((A & L1 & L2) & L3).
    split.
    - exists A. split; [exact L1|]. intros a v E. injection E as <-. rewrite <- M. now apply L2.
    - intros a. rewrite <- M. apply L3.
  Qed.
  Theorem views_never_stuck m ls s h t c : pmem_ok kd m -> asm_run fnext code (asm_init m) ls = Some (s, h) -> athr s t = Some c ->
    forall sp, exists s' e, asm_step fnext code s (mk_label t None sp) = Some (s', e).
  Proof. intros Hm. eapply (asm_never_stuck _ code v_impl width); [exact v_impl_refines|exact Hm]. Qed.
  Theorem views_solo m ls s h t c : pmem_ok kd m -> asm_run fnext code (asm_init m) ls = Some (s, h) -> athr s t = Some c ->
    exists j s' r, asm_run fnext code s (repeat (mk_label t None false) j) = Some (s', [Return t r]).
  Proof.
    apply (asm_solo_finishes _ _ v_impl width ab sem v_impl_ok v_reads).
    intros. now apply v_impl_refines.
  Qed.

  (** ** Owner *)
  Lemma means_range a x v : means (kd a) x = Some v -> 0 <= x < 2 ^ kbits (kd a).
  Proof.
    destruct (kd a) as [t| |w sz|mw ew]; cbn [means kbits].
    - destruct ((0 <=? x) && (x <? 2 ^ ibits t)) eqn:E; [|discriminate]. lia.
    - destruct (Z.eqb_spec x 0) as [->|]; [lia|]. destruct (Z.eqb_spec x 1) as [->|]; [lia|discriminate].
    - destruct ((0 <=? x) && (x <? 2 ^ w)) eqn:E; [|discriminate]. lia.
    - destruct ((0 <=? x) && (x <? 2 ^ (1 + mw + ew))) eqn:E; [|discriminate]. lia.
  Qed.
  Lemma in_bits_means w z : in_bits w z = true -> (0 <=? z mod 2 ^ w) && (z mod 2 ^ w <? 2 ^ w) = true /\ z mod 2 ^ w = z.
  Proof. unfold in_bits. intros H. rewrite Z.mod_small by lia. split; [exact H|reflexivity]. Qed.
  Lemma new_means a v : val_typed (kd a) v = true -> exists x, new_bits (kd a) v = Some x /\ means (kd a) x = Some v.
  Proof.
    pose proof (kok a) as KO. pose proof (wpos kd kok a) as W. destruct (kd a) as [t| |w sz|mw ew], v as [b|z]; cbn [val_typed]; try discriminate; intros T; eexists; (split; [reflexivity|]); cbn [means].
    - pose proof (to_bits_range t z W) as R. destruct ((0 <=? to_bits t z) && (to_bits t z <? 2 ^ ibits t)) eqn:E; [|lia].
      rewrite of_to_bits; [reflexivity|exact W|now apply in_rangeb_iff].
    - destruct b; reflexivity.
    - destruct (in_bits_means w z T) as [-> ->]. reflexivity.
    - destruct (in_bits_means _ z T) as [-> ->]. reflexivity.
  Qed.
  Lemma read_means a x : 0 <= x < 2 ^ kbits (kd a) -> exists v, means (kd a) x = Some v /\ get_mut_read (kd a) x = Some v /\ into_inner (kd a) x = v.
  Proof.
    destruct (kd a) as [t| |w sz|mw ew]; cbn [means kbits get_mut_read into_inner]; intros X.
    - replace ((0 <=? x) && (x <? 2 ^ ibits t)) with true by lia. eauto.
    - assert (x = 0 \/ x = 1) as [-> | ->] by lia; eexists; repeat split.
    - replace ((0 <=? x) && (x <? 2 ^ w)) with true by lia. eauto.
    - replace ((0 <=? x) && (x <? 2 ^ (1 + mw + ew))) with true by lia. eauto.
  Qed.
  Lemma setz_ok m a x v : pmem_ok kd m -> means (kd a) x = Some v -> pmem_ok kd (setz m a x).
  Proof.
    intros M E b. unfold setz. destruct (Z.eqb_spec b a) as [->|N]; [now apply means_range with v|apply M].
  Qed.
  Theorem owner_step m a o : pmem_ok kd m ->
    match own_step kd m a o with
    | Undefined => False
    | IllTyped => exists v, (o = New v \/ o = SetMut v) /\ val_typed (kd a) v = false
    | Result m' r => pmem_ok kd m' /\ obs_ok kd m (OOwner a o r) m'
    end.
  Proof.
    intros M. pose proof (M a) as X. destruct (read_means a (m a) X) as (v & E1 & E2 & E3).
    assert (NW : forall u, match (if val_typed (kd a) u then match new_bits (kd a) u with Some x => Result (setz m a x) None | None => IllTyped end else IllTyped) with
              | Undefined => False
              | IllTyped => val_typed (kd a) u = false
              | Result m' r => pmem_ok kd m' /\ (forall b, b <> a -> m' b = m b) /\ means (kd a) (m' a) = Some u /\ r = None end).
    { intros u. destruct (val_typed (kd a) u) eqn:T; [|reflexivity]. destruct (new_means a u T) as (x & -> & E).
      split; [eapply setz_ok; eauto|]. split; [intros b N; now apply setz_other|]. split; [now rewrite setz_same|reflexivity]. }
    destruct o as [u| |u|]; cbn [own_step].
    - specialize (NW u). destruct (if val_typed (kd a) u then _ else _); [exact NW|exists u; auto|]. exact NW.
    - rewrite E2. split; [exact M|]. split; [reflexivity|]. split; [reflexivity|]. rewrite E1. split; [reflexivity|discriminate].
    - specialize (NW u). destruct (if val_typed (kd a) u then _ else _); [exact NW|exists u; auto|]. exact NW.
    - rewrite E3. split; [exact M|]. split; [reflexivity|]. split; [reflexivity|]. rewrite E1. split; [reflexivity|discriminate].
  Qed.

  Theorem life_correct m ps es m' : pmem_ok kd m -> lived ev g kd m ps es m' -> life_ok kd m es m' /\ pmem_ok kd m'.
  Proof.
    intros M L. induction L as [m|m ls s h ps es m' R Q L IH|m a o m1 r ps es m' E L IH].
    - split; [constructor|exact M].
    - destruct (views_atomic m ls s h M R) as [H M1]. destruct (IH M1) as [L1 M2]. split; [|exact M2].
      eapply life_cons; [|exact L1]. exact H.
    - pose proof (owner_step m a o M) as O. rewrite E in O. destruct O as [M1 O]. destruct (IH M1) as [L1 M2]. split; [|exact M2].
      eapply life_cons; [|exact L1]. exact O.
  Qed.
End V.
