(** Backends with their ordering checks: atomicity for all calls, forbidden ones included. *)
From Coq Require Import ZArith List Bool Lia PeanoNat.
From Verif Require Import Words Spec WordsFacts WideSpec OrderingModel LoopModel AsmModel CoreModel UpdateSpec FrontSpec EntrySpec EntryModel EntryProofs.
Import ListNotations.
Open Scope Z_scope.

Section E.
  Context {C Op Res : Type}.
  Variable next : C -> action C Res.
  Variable code_of : Z -> Op -> option C.
  Variable check : Op -> option unit.
  Variable panic : Res.
  Variable forbidden : Op -> Prop.
  Hypothesis check_ok : forall o, check o = None <-> forbidden o.
  Local Notation enext := (enext next panic).
  Local Notation ecode := (ecode code_of check).
  Local Notation estep := (asm_step enext ecode).
  Local Notation bstep := (asm_step next code_of).

  Definition base_thr (c : option (econf C)) : option C := match c with Some (ERun c) => Some c | _ => None end.
  Definition rel (s : asm_state (econf C)) (b : asm_state C) : Prop :=
    (forall a, amem s a = amem b a) /\ (forall t, athr b t = base_thr (athr s t)) /\ (forall t, aresv s t = aresv b t).
  Definition whoof (s : asm_state (econf C)) (t : nat) : who :=
    match athr s t with None => WIdle | Some (ERun _) => WBusy | Some EPanic => WPanic end.

  Lemma setn_at {B} (f : nat -> B) t v : setn f t v t = v. Proof. unfold setn. now rewrite Nat.eqb_refl. Qed.
  Lemma setn_off {B} (f : nat -> B) t v u : u <> t -> setn f t v u = f u.
  Proof. unfold setn. intros H. apply Nat.eqb_neq in H. now rewrite H. Qed.
  Lemma rel_goto s b t c : rel s b -> rel (agoto s t c) (agoto b t (base_thr c)).
  Proof.
    intros (M & T & V). split; [exact M|]. split; [|exact V]. intros u. cbn.
    destruct (Nat.eq_dec u t) as [->|D]; [now rewrite !setn_at|]. rewrite !setn_off by exact D. apply T.
  Qed.
  Lemma rel_goto_none s b t c : rel s b -> athr b t = None -> base_thr c = None -> rel (agoto s t c) b.
  Proof.
    intros (M & T & V) N BC. split; [exact M|]. split; [|exact V]. intros u. cbn.
    destruct (Nat.eq_dec u t) as [->|D]; [rewrite setn_at; congruence|]. rewrite setn_off by exact D. apply T.
  Qed.
  Lemma rel_write s b a y : rel s b -> rel (awrite s a y) (awrite b a y).
  Proof.
    intros (M & T & V). split; [|split; [exact T|]].
    - intros x. cbn. unfold setz. destruct (x =? a); auto.
    - intros t. cbn. unfold drop_all. now rewrite V.
  Qed.
  Lemma rel_resv s b t r : rel s b -> rel (aset_resv s t r) (aset_resv b t r).
  Proof.
    intros (M & T & V). split; [exact M|]. split; [exact T|]. intros u. cbn.
    destruct (Nat.eq_dec u t) as [->|D]; [now rewrite !setn_at|]. rewrite !setn_off by exact D. apply V.
  Qed.
  Lemma rel_has s b t a : rel s b -> ahas_resv s t a = ahas_resv b t a.
  Proof. intros (_ & _ & V). unfold ahas_resv. now rewrite V. Qed.

  (** One instruction of the body. *)
  Lemma run_step s b l c : rel s b -> athr s (tid l) = Some (ERun c) ->
    match bstep b l with
    | Some (b', e) => exists s', estep s l = Some (s', e) /\ rel s' b' /\
        ((e = [] /\ exists c', athr s' = setn (athr s) (tid l) (Some (ERun c'))) \/
         (exists r, e = [Return (tid l) r] /\ athr s' = setn (athr s) (tid l) None))
    | None => estep s l = None
    end.
  Proof.
    intros R T. pose proof R as (M & TH & V). unfold asm_step. rewrite TH, T. cbn [base_thr EntryModel.enext].
    destruct (next c) as [c'|a k p kont|a f kont|fi a k p kont|a v kont|r|]; cbn [lift].
    - eexists. split; [reflexivity|]. split; [now apply (rel_goto s b (tid l) (Some (ERun c')))|]. left. split; [reflexivity|eexists; reflexivity].
    - rewrite M. eexists. split; [reflexivity|].
      split; [now apply (rel_goto s b (tid l) (Some (ERun (kont (amem b a / 2 ^ (k * Z.of_nat p) mod 2 ^ k)))))|].
      left. split; [reflexivity|eexists; reflexivity].
    - rewrite M. destruct (f (spurious l) (amem b a)) as [[y|] r].
      + eexists. split; [reflexivity|].
        split; [apply (rel_goto _ _ (tid l) (Some (ERun (kont r)))); now apply rel_write|].
        left. split; [reflexivity|eexists; reflexivity].
      + eexists. split; [reflexivity|]. split; [now apply (rel_goto _ _ (tid l) (Some (ERun (kont r))))|].
        left. split; [reflexivity|eexists; reflexivity].
    - rewrite M. eexists. split; [reflexivity|].
      split; [apply (rel_goto _ _ (tid l) (Some (ERun (kont (amem b a / 2 ^ (k * Z.of_nat p) mod 2 ^ k))))); destruct fi; [now apply rel_resv|exact R]|].
      left. split; [reflexivity|]. destruct fi; eexists; reflexivity.
    - rewrite (rel_has s b _ _ R). destruct (ahas_resv b (tid l) a && negb (spurious l)).
      + eexists. split; [reflexivity|].
        split; [apply (rel_goto _ _ (tid l) (Some (ERun (kont true)))); now apply rel_write|].
        left. split; [reflexivity|eexists; reflexivity].
      + eexists. split; [reflexivity|].
        split; [apply (rel_goto _ _ (tid l) (Some (ERun (kont false)))); now apply rel_resv|].
        left. split; [reflexivity|eexists; reflexivity].
    - eexists. split; [reflexivity|]. split; [now apply (rel_goto _ _ (tid l) None)|]. right. exists r. split; reflexivity.
    - reflexivity.
  Qed.

  Lemma setn_same_val {B} (f g : nat -> B) t v : g = setn f t v -> forall u, g u = setn f t v u. Proof. now intros ->. Qed.
  Lemma who_upd (f : nat -> option (econf C)) t v (g : nat -> option (econf C)) s s' w :
    athr s = f -> athr s' = g -> g = setn f t v ->
    match v with None => WIdle | Some (ERun _) => WBusy | Some EPanic => WPanic end = w ->
    fun_upd_eq (whoof s) t w (whoof s').
  Proof.
    intros Hf Hg HE Hw. split.
    - unfold whoof. rewrite Hg, HE, setn_at. exact Hw.
    - intros u D. unfold whoof. now rewrite Hg, HE, setn_off, Hf.
  Qed.
  Lemma shuf_ext (W W' : nat -> who) h (h0 : list (event Op Res)) : shuf forbidden panic W h h0 -> (forall t, W' t = W t) ->
    shuf forbidden panic W' h h0.
  Proof.
    intros H E. destruct H as [W|W W1 t a o h h0 Wt F U H|W W1 t h h0 Wt U H|W W1 t a o h h0 Wt F U H|W W1 t r h h0 Wt U H].
    - constructor.
    - apply sh_pcall with (W' := W1); auto; [now rewrite E|]. destruct U as [U1 U2]. split; [exact U1|]. intros u D. now rewrite E, U2.
    - apply sh_pret with (W' := W1); auto; [now rewrite E|]. destruct U as [U1 U2]. split; [exact U1|]. intros u D. now rewrite E, U2.
    - apply sh_call with (W' := W1); auto; [now rewrite E|]. destruct U as [U1 U2]. split; [exact U1|]. intros u D. now rewrite E, U2.
    - apply sh_ret with (W' := W1); auto; [now rewrite E|]. destruct U as [U1 U2]. split; [exact U1|]. intros u D. now rewrite E, U2.
  Qed.

  Lemma entry_run ls : forall s b s' h, rel s b -> asm_run enext ecode s ls = Some (s', h) ->
    exists ls0 b' h0, asm_run next code_of b ls0 = Some (b', h0) /\ rel s' b' /\ shuf forbidden panic (whoof s) h h0.
  Proof.
    induction ls as [|l ls IH]; intros s b s' h R H.
    - cbn in H. injection H as <- <-. exists [], b, []. split; [reflexivity|]. split; [exact R|]. constructor.
    - cbn [asm_run] in H. destruct (estep s l) as [[s1 e]|] eqn:ES; [|discriminate].
      destruct (asm_run enext ecode s1 ls) as [[s2 es]|] eqn:ER; [|discriminate]. injection H as <- <-.
      destruct (athr s (tid l)) as [[c|]|] eqn:ET.
      + (* body *)
        pose proof (run_step s b l c R ET) as RS. destruct (bstep b l) as [[b1 e1]|] eqn:EB; [|congruence].
        destruct RS as (s1' & ES' & R1 & SH). rewrite ES in ES'. injection ES' as <- <-.
        destruct (IH s1 b1 s2 es R1 ER) as (ls0 & b' & h0 & H0 & R2 & S2).
        exists (l :: ls0), b', (e ++ h0). cbn [asm_run]. rewrite EB, H0. split; [reflexivity|]. split; [exact R2|].
        destruct SH as [(-> & c' & TE)|(r & -> & TE)].
        * cbn [app]. apply shuf_ext with (W := whoof s1); [exact S2|]. intros u. unfold whoof. rewrite TE.
          destruct (Nat.eq_dec u (tid l)) as [->|D]; [now rewrite setn_at, ET|now rewrite setn_off].
        * cbn [app]. apply sh_ret with (W' := whoof s1); [unfold whoof; now rewrite ET| |exact S2].
          now apply (who_upd (athr s) (tid l) None (athr s1) s s1).
      + (* leaving by the panic *)
        unfold asm_step in ES. rewrite ET in ES. cbn in ES. injection ES as <- <-.
        assert (R1 : rel (agoto s (tid l) None) b).
        { apply rel_goto_none; auto. destruct R as (_ & T & _). now rewrite T, ET. }
        destruct (IH _ b s2 es R1 ER) as (ls0 & b' & h0 & H0 & R2 & S2).
        exists ls0, b', h0. split; [exact H0|]. split; [exact R2|]. cbn [app].
        apply sh_pret with (W' := whoof (agoto s (tid l) None)); [unfold whoof; now rewrite ET| |exact S2].
        now apply (who_upd (athr s) (tid l) None (athr (agoto s (tid l) None)) s).
      + (* call *)
        pose proof ES as ES0. unfold asm_step in ES. rewrite ET in ES. destruct (call l) as [[a o]|] eqn:EC; [|discriminate].
        unfold EntryModel.ecode in ES. destruct (check o) as [[]|] eqn:EK.
        * destruct (code_of a o) as [c|] eqn:EO; cbn [option_map] in ES; [|discriminate]. injection ES as <- <-.
          assert (EB : bstep b l = Some (agoto b (tid l) (Some c), [Call (tid l) a o])).
          { unfold asm_step. destruct R as (_ & T & _). now rewrite T, ET, EC, EO. }
          destruct (IH (agoto s (tid l) (Some (ERun c))) (agoto b (tid l) (Some c)) s2 es) as (ls0 & b' & h0 & H0 & R2 & S2);
            [now apply (rel_goto s b (tid l) (Some (ERun c)))|exact ER|].
          exists (l :: ls0), b', ([Call (tid l) a o] ++ h0). cbn [asm_run]. rewrite EB, H0. split; [reflexivity|]. split; [exact R2|].
          cbn [app]. apply sh_call with (W' := whoof (agoto s (tid l) (Some (ERun c)))); [unfold whoof; now rewrite ET| | |exact S2].
          -- intros F. apply check_ok in F. congruence.
          -- now apply (who_upd (athr s) (tid l) (Some (ERun c)) (athr (agoto s (tid l) (Some (ERun c)))) s).
        * injection ES as <- <-.
          assert (R1 : rel (agoto s (tid l) (Some EPanic)) b).
          { apply rel_goto_none; auto. destruct R as (_ & T & _). now rewrite T, ET. }
          destruct (IH _ b s2 es R1 ER) as (ls0 & b' & h0 & H0 & R2 & S2).
          exists ls0, b', h0. split; [exact H0|]. split; [exact R2|]. cbn [app].
          apply sh_pcall with (W' := whoof (agoto s (tid l) (Some EPanic))); [unfold whoof; now rewrite ET| | |exact S2].
          -- now apply check_ok.
          -- now apply (who_upd (athr s) (tid l) (Some EPanic) (athr (agoto s (tid l) (Some EPanic))) s).
  Qed.

  Lemma rel_init m : rel (asm_init m) (asm_init m).
  Proof. split; [reflexivity|]. split; reflexivity. Qed.

  Theorem entry_linearizable sem init fin m ls s h :
    (forall ls b h0, asm_run next code_of (asm_init m) ls = Some (b, h0) -> linearizable_to sem init h0 (fin (amem b))) ->
    (forall f g, (forall a, f a = g a) -> forall a v, fin f a = Some v -> fin g a = Some v) ->
    asm_run enext ecode (asm_init m) ls = Some (s, h) -> linearizable_to (with_panics forbidden panic sem) init h (fin (amem s)).
  Proof.
    intros HB HF H. destruct (entry_run ls _ _ s h (rel_init m) H) as (ls0 & b & h0 & H0 & (M & _) & S).
    destruct (shuf_linearizable forbidden panic sem (whoof (asm_init m)) init h h0 (fin (amem b))) as (A & SA & FA);
      [reflexivity|exact S|now apply HB with (ls := ls0)|].
    exists A. split; [exact SA|]. intros a v Ev. apply FA. apply (HF (amem s) (amem b)); auto.
  Qed.

  Theorem entry_never_stuck m ls s h t c :
    (forall ls b h0 t c, asm_run next code_of (asm_init m) ls = Some (b, h0) -> athr b t = Some c ->
       forall sp, exists b' e, bstep b (mk_label t None sp) = Some (b', e)) ->
    asm_run enext ecode (asm_init m) ls = Some (s, h) -> athr s t = Some c ->
    forall sp, exists s' e, estep s (mk_label t None sp) = Some (s', e).
  Proof.
    intros HB H T sp. destruct c as [c|].
    - destruct (entry_run ls _ _ s h (rel_init m) H) as (ls0 & b & h0 & H0 & R & _).
      assert (TB : athr b t = Some c) by (destruct R as (_ & TT & _); now rewrite TT, T).
      destruct (HB ls0 b h0 t c H0 TB sp) as (b' & e & EB).
      pose proof (run_step s b (mk_label t None sp) c R T) as RS. rewrite EB in RS. destruct RS as (s' & ES & _). eauto.
    - unfold asm_step. cbn [tid]. rewrite T. cbn. eauto.
  Qed.
End E.

Lemma check_op_ok o : check_op o = None <-> forbidden_op o.
Proof.
  destruct o as [ord|v ord|r ord|c n s f]; cbn; unfold load_panics, store_panics, cas_panics.
  - destruct ord; cbn; intuition congruence.
  - destruct ord; cbn; intuition congruence.
  - intuition congruence.
  - destruct s, f; cbn; intuition congruence.
Qed.
Lemma check_w_ok o : check_w o = None <-> forbidden_w o.
Proof.
  destruct o as [o|c n s f]; cbn; [apply check_op_ok|]. unfold cas_panics. destruct s, f; cbn; intuition congruence.
Qed.
Lemma check_u_ok o : check_u o = None <-> forbidden_u o.
Proof.
  destruct o as [o|c s f]; cbn; [apply check_w_ok|]. unfold cas_panics. destruct f; cbn; intuition congruence.
Qed.
Lemma check_p_ok o : check_p o = None <-> forbidden_p o.
Proof.
  destruct o as [o|c n s f|k b ord|r ord|ord|b ord|op ord|op ord|c n s f|c n s f|fn s f|op ord|ord|v ord|v ord|c n s f|c n s f
                |ord|ord|op ord|fn s f]; cbn; unfold load_panics, store_panics, cas_panics;
    try apply check_op_ok; try (destruct ord; cbn; intuition congruence); try (destruct s, f; cbn; intuition congruence);
    destruct f; cbn; intuition congruence.
Qed.

(** For every machine of the shape used by the backends. *)
Theorem entry_atomic {C} (next : C -> action C res) code_of ty m ls s h :
  (forall ls b h0, asm_run next code_of (asm_init m) ls = Some (b, h0) -> atomic_history ty m h0 (amem b)) ->
  asm_run (enext next RPanic) (ecode code_of check_w) (asm_init m) ls = Some (s, h) -> atomic_history_all ty m h (amem s).
Proof.
  intros HB H. apply (entry_linearizable next code_of check_w RPanic forbidden_w check_w_ok (sem ty) _
    (fun mm a => Some (of_bits (ty a) (mm a))) m ls s h HB); [|exact H]. intros f g E a v. now rewrite E.
Qed.
Theorem entry_atomic_u {C} (next : C -> action C res) code_of ty m ls s h :
  (forall ls b h0, asm_run next code_of (asm_init m) ls = Some (b, h0) -> atomic_history_u ty m h0 (amem b)) ->
  asm_run (enext next RPanic) (ecode code_of check_u) (asm_init m) ls = Some (s, h) -> atomic_history_u_all ty m h (amem s).
Proof.
  intros HB H. apply (entry_linearizable next code_of check_u RPanic forbidden_u check_u_ok (usem ty) _
    (fun mm a => Some (of_bits (ty a) (mm a))) m ls s h HB); [|exact H]. intros f g E a v. now rewrite E.
Qed.
Theorem entry_atomic_p {C} (next : C -> action C pres) code_of kd arith m ls s h :
  (forall ls b h0, asm_run next code_of (asm_init m) ls = Some (b, h0) -> atomic_history_p kd arith m h0 (amem b)) ->
  asm_run (enext next (PPlain RPanic)) (ecode code_of check_p) (asm_init m) ls = Some (s, h) ->
  atomic_history_p_all kd arith m h (amem s).
Proof.
  intros HB H. apply (entry_linearizable next code_of check_p (PPlain RPanic) forbidden_p check_p_ok (psem kd arith) _
    (fun mm a => Some (kval (kd a) (mm a))) m ls s h HB); [|exact H]. intros f g E a v. now rewrite E.
Qed.

(** ** Who panics *)
Lemma asteps_panic_free {Op Res} (S : Z -> Op -> Z -> Z * Res -> Prop) (bad : Op -> Prop) (panic : Res) A h A' :
  asteps S A h A' -> (forall a o x y r, ~ bad o -> S a o x (y, r) -> r <> panic) ->
  (forall t, aphases A t <> Spec.ADone panic /\ forall a o, aphases A t = APending a o -> ~ bad o) ->
  (forall t a o, In (Call t a o) h -> ~ bad o) ->
  (forall t, aphases A' t <> Spec.ADone panic /\ forall a o, aphases A' t = APending a o -> ~ bad o) /\ forall t, ~ In (Return t panic) h.
Proof.
  intros H HS. induction H as [s s' V P|s h s' e s'' H IH ST]; intros HI HC.
  - split; [intros t; rewrite P; apply HI|auto].
  - destruct IH as [I1 I2]; [exact HI|intros t a o X; apply HC with (t := t) (a := a); apply in_or_app; auto|].
    assert (TD : forall t u : nat, t = u \/ t <> u) by (intros t u; destruct (Nat.eq_dec t u); auto).
    inversion ST as [s0 s1 t a o P1 V UP|s0 s1 t a o v' r P1 M UV UP|s0 s1 t r P1 V UP]; subst.
    + split.
      * intros u. destruct (TD u t) as [->|D]; [rewrite (upd_at _ _ _ _ UP)|rewrite (upd_off _ _ _ _ _ UP D); apply I1].
        split; [discriminate|]. intros a1 o1 E. injection E as <- <-. apply HC with (t := t) (a := a). apply in_or_app. right. now left.
      * intros u X. apply in_app_or in X. destruct X as [X|[X|[]]]; [now apply (I2 u)|discriminate].
    + split.
      * intros u. destruct (TD u t) as [->|D]; [rewrite (upd_at _ _ _ _ UP)|rewrite (upd_off _ _ _ _ _ UP D); apply I1].
        split; [|discriminate]. intros E. injection E as ->. apply (HS a o (avals s' a) v' panic); auto. now apply (proj2 (I1 t) a o).
      * rewrite app_nil_r. exact I2.
    + split.
      * intros u. destruct (TD u t) as [->|D]; [rewrite (upd_at _ _ _ _ UP)|rewrite (upd_off _ _ _ _ _ UP D); apply I1].
        split; discriminate.
      * intros u X. apply in_app_or in X. destruct X as [X|[X|[]]]; [now apply (I2 u)|]. injection X as -> ->. now apply (proj1 (I1 u)).
Qed.
Lemma idle_not_done {Op Res} (panic : Res) : @AIdle Op Res <> Spec.ADone panic. Proof. discriminate. Qed.
Lemma idle_not_pending {Op Res} a (o : Op) (bad : Op -> Prop) : @AIdle Op Res = APending a o -> ~ bad o. Proof. discriminate. Qed.
Lemma lin_panic_free {Op Res} (S : Z -> Op -> Z -> Z * Res -> Prop) (bad : Op -> Prop) (panic : Res) init h fin :
  (forall a o x y r, ~ bad o -> S a o x (y, r) -> r <> panic) -> linearizable_to S init h fin ->
  (forall t a o, In (Call t a o) h -> ~ bad o) -> forall t, ~ In (Return t panic) h.
Proof.
  intros HS (A & H & _) HC. apply (proj2 (asteps_panic_free S bad panic _ h A H HS
    (fun t => conj (fun e => idle_not_done panic e) (fun a o e => idle_not_pending a o bad e)) HC)).
Qed.
Lemma spec_op_no_panic t o x y r : ~ forbidden_op o -> (y, r) = spec_op t o x -> r <> RPanic.
Proof.
  destruct o as [ord|v ord|rm ord|c n s f]; cbn; unfold load_panics, store_panics, cas_panics; intros N E.
  - destruct ord; try (exfalso; auto; fail); injection E as _ ->; discriminate.
  - destruct ord; try (exfalso; auto; fail); injection E as _ ->; discriminate.
  - injection E as _ ->. discriminate.
  - destruct f; try (exfalso; auto; fail); destruct (x =? c); injection E as _ ->; discriminate.
Qed.
Lemma sem_no_panic ty a o x y r : ~ forbidden_w o -> sem ty a o x (y, r) -> r <> RPanic.
Proof.
  destruct o as [o|c n s f]; cbn [forbidden_w sem].
  - apply spec_op_no_panic.
  - intros N [E|E]; [now apply (spec_op_no_panic (ty a) (OCas c n s f) x y r)|]. injection E as _ ->. discriminate.
Qed.
Lemma usem_no_panic ty a o x y r : ~ forbidden_u o -> usem ty a o x (y, r) -> r <> RPanic.
Proof.
  destruct o as [o|fn s f]; cbn [forbidden_u usem]; [apply sem_no_panic|].
  intros N (hist & E). destruct (typed_closure (ty a) fn hist x); injection E as _ ->; discriminate.
Qed.
Lemma plain_no_panic t o x y r : ~ forbidden_op o -> (y, r) = (fst (spec_op t o x), PPlain (snd (spec_op t o x))) ->
  r <> PPlain RPanic.
Proof.
  intros N E. injection E as E1 E2. rewrite E2. intros Q. injection Q as Q. revert Q.
  apply (spec_op_no_panic t o x (fst (spec_op t o x))); [exact N|apply eq_sym, surjective_pairing].
Qed.
Lemma psem_no_panic kd arith a o x y r : ~ forbidden_p o -> psem kd arith a o x (y, r) -> r <> PPlain RPanic.
Proof.
  unfold psem. destruct (kd a) as [t| |w size|mw ew];
  destruct o as [o|c n s f|k b ord|rm ord|ord|b ord|op ord|op ord|c n s f|c n s f|fn s f|op ord|ord|v ord|v ord|c n s f|c n s f
                |ord|ord|op ord|fn s f]; cbn [forbidden_p]; intros N E; try contradiction;
  repeat match goal with
  | H : exists _, _ |- _ => destruct H
  | H : _ /\ _ |- _ => destruct H
  | H : _ \/ _ |- _ => destruct H
  end;
  try exact (plain_no_panic _ _ _ _ _ N E);
  repeat match goal with
  | H : _ = (if ?b then _ else _) |- _ => destruct b
  | H : _ = (match ?b with Some _ => _ | None => _ end) |- _ => destruct b
  end; match goal with H : (_, _) = (_, _) |- _ => injection H as _ ->; discriminate end.
Qed.
Theorem all_no_panic {Op Res} (S : Z -> Op -> Z -> Z * Res -> Prop) (bad : Op -> Prop) (panic : Res) init h fin :
  (forall a o x y r, ~ bad o -> S a o x (y, r) -> r <> panic) ->
  linearizable_to (with_panics bad panic S) init h fin ->
  (forall t a o, In (Call t a o) h -> ~ bad o) -> forall t, ~ In (Return t panic) h.
Proof.
  intros HS. apply lin_panic_free. intros a o x y r N [[F _]|[_ M]]; [contradiction|]. now apply (HS a o x y r).
Qed.
Theorem panics_at_once {C Op Res} (next : C -> action C Res) (code_of : Z -> Op -> option C) check panic s t a o :
  athr s t = None -> check o = None -> exists s',
  asm_run (enext next panic) (ecode code_of check) s [mk_label t (Some (a, o)) false; mk_label t None false] =
    Some (s', [Call t a o; Return t panic]) /\ (forall x, amem s' x = amem s x) /\ (forall u, athr s' u = athr s u).
Proof.
  intros T K. cbn [asm_run]. unfold asm_step at 1. cbn [tid call]. rewrite T. unfold ecode at 1. rewrite K.
  unfold asm_step, agoto at 1. cbn [tid athr]. rewrite setn_at. cbn [enext asm_run app].
  eexists. split; [reflexivity|]. split; [reflexivity|].
  intros u. unfold agoto. cbn [athr]. destruct (Nat.eq_dec u t) as [->|D]; [rewrite setn_at; auto|]. now rewrite !setn_off.
Qed.
Lemma typed_callable t o : w_typed t o -> ~ forbidden_w o -> callable t o = true.
Proof.
  assert (R : forall v, in_range t v -> in_rangeb t v = true) by (intros v; apply WordsFacts.in_rangeb_iff).
  destruct o as [[ord|v ord|r ord|c n s f]|c n s f]; cbn; unfold load_panics, store_panics, cas_panics; intros T N.
  - destruct ord; auto; exfalso; auto.
  - rewrite (R v T). destruct ord; auto; exfalso; auto.
  - destruct r; cbn in *; auto.
  - destruct T as [T1 T2]. rewrite (R _ T1), (R _ T2). destruct f; auto; exfalso; auto.
  - destruct T as [T1 T2]. rewrite (R _ T1), (R _ T2). destruct f; auto; exfalso; auto.
Qed.
Theorem entry_total {C} (code_of : Z -> wop -> option C) t a o :
  (callable t o = true -> exists c, code_of a o = Some c) -> w_typed t o ->
  exists c, ecode code_of check_w a o = Some c /\ (c = EPanic <-> forbidden_w o).
Proof.
  intros HT T. unfold ecode. destruct (check_w o) as [[]|] eqn:K.
  - assert (N : ~ forbidden_w o) by (intros F; apply check_w_ok in F; congruence).
    destruct (HT (typed_callable t o T N)) as (c & E). rewrite E. exists (ERun c). split; [reflexivity|].
    split; [discriminate|contradiction].
  - exists EPanic. split; [reflexivity|]. split; auto. intros _. now apply check_w_ok.
Qed.
