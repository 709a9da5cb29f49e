(** Assembly blocks refine the loops of [LoopModel]. *)
From Coq Require Import ZArith List Bool PeanoNat Lia.
From Verif Require Import Words Spec WordsFacts LinFacts LoopModel LoopProofs AsmModel.
Import ListNotations.
Open Scope Z_scope.

Section Refine.
  Context {C Op Res : Type}.
  Variable next : C -> action C Res.
  Variable code_of : Z -> Op -> option C.
  Variable impl_of : Z -> Op -> option (impl Res).
  Variable width : Z -> Z.

  Local Notation pc := (pc Op Res).
  Local Notation lstate := (state Op Res).
  Local Notation inr := (inr width).

  (** Steps of the loop machine that touch no memory. *)
  Definition local (p q : pc) : Prop :=
    match p with
    | Begin a o i => match i with Direct _ => False | _ => q = Rd a o i [] 0 0 end
    | Try a o i hist g =>
      match i with
      | CasLoop _ _ _ body _ err => body hist g = None /\ q = Fin (err g)
      | LlSc _ _ body _ err _ => body g = None /\ q = Fin (err g)
      | Direct _ => False
      end
    | _ => False
    end.
  Inductive locals : pc -> pc -> Prop :=
  | l_refl p : locals p p
  | l_step p q r : local p q -> locals q r -> locals p r.

  (** After loading a piece. *)
  Definition after_rd (a : Z) (o : Op) (i : impl Res) (hist : list Z) (n : nat) (acc : Z) : pc :=
    if Nat.eqb (S n) (length (snd (impl_reads i))) then Try a o i hist acc else Rd a o i hist (S n) acc.

  (** What the memory instruction at [c] does is what the loop does next. *)
  Definition act (R : C -> pc -> Prop) (c : C) (p : pc) : Prop :=
    match next c with
    | ALocal c' => False
    | ARead a k n kont =>
        (exists o i hist m acc, locals p (Rd a o i hist m acc) /\ is_ll i = false /\
        fst (impl_reads i) = k /\ 0 <= k /\ nth_error (snd (impl_reads i)) m = Some n /\
        forall v, 0 <= v < 2 ^ k -> R (kont v) (after_rd a o i hist m (acc + v * 2 ^ (k * Z.of_nat n)))) \/
        (* the whole variable, untorn *)
        (exists o g, locals p (Begin a o (Direct g)) /\ k = width a /\ n = 0%nat /\
           forall sp x, inr a x -> fst (g sp x) = None /\ R (kont x) (Fin (snd (g sp x))))
    | AAtomic a f kont =>
        (exists o g, locals p (Begin a o (Direct g)) /\
           forall sp x, inr a x -> fst (f sp x) = fst (g sp x) /\ (forall y, fst (f sp x) = Some y -> inr a y) /\
             R (kont (snd (f sp x))) (Fin (snd (g sp x)))) \/
        (exists o k rs rr body ok err hist g y, let i := CasLoop k rs rr body ok err in
           locals p (Try a o i hist g) /\ body hist g = Some y /\
           forall sp x, inr a x ->
             (x = g /\ fst (f sp x) = Some y /\ inr a y /\ R (kont (snd (f sp x))) (Fin (ok g))) \/
             ((x <> g \/ sp = true) /\ fst (f sp x) = None /\
              R (kont (snd (f sp x))) (if rr then Rd a o i (hist ++ [g]) 0 0 else Try a o i (hist ++ [g]) x)))
    | ALoadLinked first a k n kont => exists o i hist m acc, locals p (Rd a o i hist m acc) /\ is_ll i = true /\
        first = Nat.eqb m 0 /\
        fst (impl_reads i) = k /\ 0 <= k /\ nth_error (snd (impl_reads i)) m = Some n /\
        forall v, 0 <= v < 2 ^ k -> R (kont v) (after_rd a o i hist m (acc + v * 2 ^ (k * Z.of_nat n)))
    | AStoreCond a v kont => exists o k rs body ok err weak hist g, let i := LlSc k rs body ok err weak in
        locals p (Try a o i hist g) /\ body g = Some v /\ (forall x, inr a x -> inr a v) /\
        R (kont true) (Fin (ok g)) /\
        R (kont false) (match weak with Some w => Fin (w g) | None => Rd a o i (hist ++ [g]) 0 0 end)
    | ADone r => locals p (Fin r)
    | AStuck => False
    end.

  (** After finitely many register instructions, and loads whose result does not matter. *)
  Inductive settle (R : C -> pc -> Prop) : C -> pc -> Prop :=
  | st_act c p : act R c p -> settle R c p
  | st_local c c' p q : next c = ALocal c' -> locals p q -> settle R c' q -> settle R c p
  | st_read c a k n kont p : next c = ARead a k n kont -> 0 <= k ->
      (forall v, 0 <= v < 2 ^ k -> settle R (kont v) p) -> settle R c p.

  (** The block started in [c] behaves like the loop [i]. *)
  Definition refines (a : Z) (o : Op) (c : C) (i : impl Res) : Prop :=
    exists R : C -> pc -> Prop, settle R c (Begin a o i) /\ forall c p, R c p -> settle R c p.

  Hypothesis code_refines : forall a o c, code_of a o = Some c ->
    exists i, impl_of a o = Some i /\ refines a o c i.

  (** Everything reachable is related (largest relation). *)
  Definition similar (c : C) (p : pc) : Prop :=
    exists R : C -> pc -> Prop, settle R c p /\ forall c p, R c p -> settle R c p.

  Lemma act_mono (R R' : C -> pc -> Prop) c p :
    (forall c p, R c p -> R' c p) -> act R c p -> act R' c p.
  Proof.
    intros H. unfold act. destruct (next c) as [c'|a k n kont|a f kont|fi a k n kont|a v kont|r|]; auto.
    - intros [(o & i & hist & m & acc & L & X1 & X2 & X3 & X4 & X5)|(o & g & L & K & N & X)].
      + left. exists o, i, hist, m, acc. auto 9.
      + right. exists o, g. do 3 (split; [assumption|]). intros sp x Hx. destruct (X sp x Hx). auto.
    - intros [(o & g & L & X)|(o & k & rs & rr & body & ok & err & hist & g & y & L & X1 & X2)].
      + left. exists o, g. split; [exact L|]. intros sp x Hx. destruct (X sp x Hx) as (A & B & D). auto.
      + right. exists o, k, rs, rr, body, ok, err, hist, g, y. split; [exact L|]. split; [exact X1|].
        intros sp x Hx. destruct (X2 sp x Hx) as [(Y1 & Y2 & Y3 & Y4)|(Y1 & Y2 & Y3)]; [left|right]; auto 6.
    - intros (o & i & hist & m & acc & L & X1 & X2 & X3 & X4 & X5 & X6). exists o, i, hist, m, acc. auto 10.
    - intros (o & k & rs & body & ok & err & weak & hist & g & L & X1 & X2 & X3 & X4).
      exists o, k, rs, body, ok, err, weak, hist, g. auto 8.
  Qed.
  Lemma settle_mono (R R' : C -> pc -> Prop) c p :
    (forall c p, R c p -> R' c p) -> settle R c p -> settle R' c p.
  Proof.
    intros H S. induction S as [c p A|c c' p q N L S IH|c a k n kont p N K S IH].
    - apply st_act. now apply act_mono with (R := R).
    - eapply st_local; eauto.
    - eapply st_read; eauto.
  Qed.
  Lemma settle_similar (R : C -> pc -> Prop) c p : (forall c p, R c p -> settle R c p) -> settle R c p -> settle similar c p.
  Proof. intros H. apply settle_mono. intros c1 p1 H1. exists R. auto. Qed.
  Lemma similar_settle c p : similar c p -> settle similar c p.
  Proof. intros (R & H & HR). now apply settle_similar with (R := R). Qed.
  Lemma settle_is_similar c p : settle similar c p -> similar c p.
  Proof. intros H. exists similar. split; [exact H|]. apply similar_settle. Qed.

  (** Relation between the two machines. *)
  Definition resv_matters (p : pc) : bool :=
    match p with
    | Rd _ _ i _ n _ => is_ll i && negb (Nat.eqb n 0)
    | Try _ _ i _ _ => is_ll i
    | _ => false
    end.
  Definition Sim (s : asm_state C) (l : lstate) : Prop :=
    (forall a, amem s a = mem l a) /\ (forall a, inr a (amem s a)) /\
    forall t, (resv_matters (pcs l t) = true -> aresv s t = resv l t) /\
      match athr s t with
      | None => pcs l t = Idle
      | Some c => similar c (pcs l t)
      end.

  Definition reach (l : lstate) (e : list (event Op Res)) (l' : lstate) : Prop :=
    exists ls, run impl_of l ls = Some (l', e).
  (** by steps of thread [t] only; spurious failures only if [sp]; at least one step if [b] *)
  Definition reach_by (t : nat) (sp b : bool) (l : lstate) (e : list (event Op Res)) (l' : lstate) : Prop :=
    exists ls, run impl_of l ls = Some (l', e) /\
      Forall (fun x => tid x = t /\ (spurious x = true -> sp = true)) ls /\ (b = true -> ls <> []).
  Lemma run_app l ls1 ls2 l1 e1 : run impl_of l ls1 = Some (l1, e1) ->
    run impl_of l (ls1 ++ ls2) = match run impl_of l1 ls2 with Some (l2, e2) => Some (l2, e1 ++ e2) | None => None end.
  Proof.
    revert l l1 e1. induction ls1 as [|x ls1 IH]; intros l l1 e1 H; cbn in *.
    - injection H as <- <-. destruct (run impl_of l ls2) as [[]|]; reflexivity.
    - destruct (step impl_of l x) as [[l' e]|]; [|discriminate].
      destruct (run impl_of l' ls1) as [[l'' e']|] eqn:E; [|discriminate]. injection H as <- <-.
      rewrite (IH _ _ _ E). destruct (run impl_of l'' ls2) as [[]|]; auto. now rewrite app_assoc.
  Qed.
  Lemma reach_trans l e1 l1 e2 l2 : reach l e1 l1 -> reach l1 e2 l2 -> reach l (e1 ++ e2) l2.
  Proof.
    intros [ls1 H1] [ls2 H2]. exists (ls1 ++ ls2). rewrite (run_app _ _ _ _ _ H1). now rewrite H2.
  Qed.
  Lemma reach_refl l : reach l [] l.
  Proof. exists []. reflexivity. Qed.
  Lemma by_trans t sp b b' l e1 l1 e2 l2 : reach_by t sp b' l e1 l1 -> reach_by t sp b l1 e2 l2 -> reach_by t sp b l (e1 ++ e2) l2.
  Proof.
    intros (ls1 & H1 & F1 & _) (ls2 & H2 & F2 & N2). exists (ls1 ++ ls2). split.
    - rewrite (run_app _ _ _ _ _ H1). now rewrite H2.
    - split; [now apply Forall_app|]. intros E. specialize (N2 E). destruct ls1; [exact N2|discriminate].
  Qed.
  Lemma by_step t sp l x e l' : step impl_of l x = Some (l', e) -> tid x = t -> (spurious x = true -> sp = true) -> reach_by t sp true l e l'.
  Proof. intros H T P. exists [x]. split; [cbn; rewrite H; now rewrite app_nil_r|]. split; [auto|discriminate]. Qed.
  Lemma by_refl t sp l : reach_by t sp false l [] l.
  Proof. exists []. split; [reflexivity|]. split; [constructor|discriminate]. Qed.
  Lemma by_reach t sp b l e l' : reach_by t sp b l e l' -> reach l e l'.
  Proof. intros (ls & H & _). exists ls. exact H. Qed.
  Lemma by_weak t sp b l e l' : reach_by t sp b l e l' -> reach_by t sp false l e l'.
  Proof. intros (ls & H & F & _). exists ls. split; [exact H|]. split; [exact F|discriminate]. Qed.

  Definition lab (t : nat) (sp : bool) : label Op := mk_label t None sp.

  (** Local loop steps can be taken at once. *)
  Lemma locals_reach (l : lstate) t sp p q :
    pcs l t = p -> locals p q ->
    exists l', reach_by t sp false l [] l' /\ pcs l' t = q /\ (forall u, u <> t -> pcs l' u = pcs l u) /\
               (forall a, mem l' a = mem l a) /\ (forall u, resv l' u = resv l u) /\
               (resv_matters q = true -> resv_matters p = true).
  Proof.
    intros E L. revert l E. induction L as [p|p q r Hl L IH]; intros l E.
    - exists l. split; [apply by_refl|]. auto 6.
    - destruct (IH (go l t q)) as (l' & A1 & A2 & A3 & A4 & A5 & A6).
      { cbn. apply setn_same. }
      exists l'. split; [|split; [exact A2|split; [|split; [exact A4|split; [exact A5|]]]]].
      + change (@nil (event Op Res)) with (@nil (event Op Res) ++ []). eapply by_trans; [|exact A1].
        eapply by_weak, (by_step t _ l (lab t false)); [|reflexivity|discriminate]. unfold step. cbn [tid lab]. rewrite E.
        destruct p as [|a o i|a o i hist n acc|a o i hist g|x]; cbn in Hl; try contradiction.
        * destruct i; [contradiction| |]; now subst q.
        * destruct i as [f|k rs rr body ok err|k rs body ok err w]; [contradiction| |];
            destruct Hl as [-> ->]; reflexivity.
      + intros u Hu. rewrite A3 by assumption. cbn. now apply setn_other.
      + intros H. apply A6 in H.
        destruct p as [|a o i|a o i hist n acc|a o i hist g|x]; cbn in Hl; try contradiction.
        * destruct i; [contradiction| |]; subst q; cbn in *; auto.
        * destruct i; [contradiction| |]; destruct Hl as [_ ->]; cbn in *; auto.
  Qed.

  Lemma piece_eq k n m : piece k n m = (m / 2 ^ (k * Z.of_nat n) mod 2 ^ k) * 2 ^ (k * Z.of_nat n).
  Proof. reflexivity. Qed.

  (** Rebuilding [Sim] after a step of [t]. *)
  Lemma Sim_intro (s s' : asm_state C) (l l' : lstate) t c q :
    Sim s l ->
    (forall a, amem s' a = mem l' a) -> (forall a, inr a (amem s' a)) ->
    (forall u, u <> t -> athr s' u = athr s u) -> (forall u, u <> t -> pcs l' u = pcs l u) ->
    (forall u, u <> t -> aresv s u = resv l u -> aresv s' u = resv l' u) ->
    athr s' t = c -> pcs l' t = q ->
    match c with None => q = Idle | Some c => similar c q end ->
    (resv_matters q = true -> aresv s' t = resv l' t) ->
    Sim s' l'.
  Proof.
    intros (M & I & T) M' I' A P V Ec Eq Hm Hr. split; [exact M'|]. split; [exact I'|].
    intros u. destruct (Nat.eq_dec u t) as [->|Hu].
    - rewrite Ec, Eq. auto.
    - rewrite A, P by assumption. destruct (T u) as [T1 T2]. auto.
  Qed.

  Lemma drop_all_eq (r1 r2 : nat -> option Z) a u : r1 u = r2 u -> drop_all r1 a u = drop_all r2 a u.
  Proof. unfold drop_all. now intros ->. Qed.

  Ltac simi s l t S c q :=
    apply (Sim_intro s _ l _ t c q S); cbn;
    [| |intros; try (rewrite setn_other by assumption); auto; now apply setn_other
       |intros; try (rewrite setn_other by assumption); auto; now apply setn_other
       | |try apply setn_same; auto|try apply setn_same; auto| |].

  (** One step of a thread inside a block. *)
  Lemma sim_act s l x s' e c : Sim s l -> athr s (tid x) = Some c -> act similar c (pcs l (tid x)) ->
    asm_step next code_of s x = Some (s', e) ->
    exists l', reach_by (tid x) (spurious x) true l e l' /\ Sim s' l'.
  Proof.
    intros S EA HM H. pose proof S as (M & I & T). unfold asm_step in H. set (t := tid x) in *.
    destruct (T t) as [T1 T2]. rewrite EA in H, T2. unfold act in HM.
    destruct (next c) as [c'|a k n kont|a f kont|fi a k n kont|a v kont|r|] eqn:EN.
    - contradiction.
    - (* read *)
      injection H as <- <-. destruct HM as [(o & i & hist & m & acc & L & X1 & X2 & Hk & X3 & X4)|(o & g & L & Ek & En & X)].
      + destruct (locals_reach l t (spurious x) _ _ eq_refl L) as (l1 & R1 & P1 & P2 & P3 & P4 & P5).
        set (v := amem s a / 2 ^ (k * Z.of_nat n) mod 2 ^ k) in *.
        assert (Hv : 0 <= v < 2 ^ k) by (apply Z.mod_pos_bound; now apply pow2_pos).
        exists (go l1 t (after_rd a o i hist m (acc + v * 2 ^ (k * Z.of_nat n)))). split.
        * change (@nil (event Op Res)) with (@nil (event Op Res) ++ []). eapply by_trans; [exact R1|].
          apply (by_step t _ l1 (lab t false)); [|reflexivity|discriminate]. unfold step. cbn [tid lab]. rewrite P1.
          destruct (impl_reads i) as [k' rs] eqn:ER. cbn [fst snd] in *. subst k'. rewrite X3.
          rewrite X1. cbn [andb]. unfold after_rd. rewrite ER. cbn [snd]. rewrite piece_eq, P3, <- M. fold v.
          destruct (Nat.eqb (Datatypes.S m) (length rs)); reflexivity.
        * simi s l t S (Some (kont v)) (after_rd a o i hist m (acc + v * 2 ^ (k * Z.of_nat n))).
          { intros; rewrite P3; auto. }
          { exact I. }
          { intros u Hu E; rewrite P4; auto. }
          { auto. }
          { unfold after_rd. destruct (Nat.eqb _ _); cbn; rewrite X1; discriminate. }
      + destruct (locals_reach l t (spurious x) _ _ eq_refl L) as (l1 & R1 & P1 & P2 & P3 & P4 & P5). subst k n.
        assert (EV : amem s a / 2 ^ (width a * Z.of_nat 0) mod 2 ^ width a = amem s a).
        { rewrite Z.mul_0_r, Z.pow_0_r, Z.div_1_r. apply Z.mod_small. apply I. }
        rewrite EV. destruct (X (spurious x) (amem s a) (I a)) as [XA XB].
        destruct (g (spurious x) (amem s a)) as [w r'] eqn:EG. cbn [fst snd] in *. subst w.
        exists (go l1 t (Fin r')). split.
        * change (@nil (event Op Res)) with (@nil (event Op Res) ++ []). eapply by_trans; [exact R1|].
          apply (by_step t _ l1 (lab t (spurious x))); [|reflexivity|auto]. unfold step. cbn [tid lab]. rewrite P1. cbn [spurious lab].
          now rewrite P3, <- M, EG.
        * simi s l t S (Some (kont (amem s a))) (@Fin Op Res r'); auto.
          { intros b. now rewrite P3. }
          { intros u Hu E. now rewrite P4. }
          { discriminate. }
    - (* atomic access *)
      destruct HM as [(o & g & L & X)|(o & k & rs & rr & body & ok & err & hist & g & y & L & X1 & X2)].
      + destruct (locals_reach l t (spurious x) _ _ eq_refl L) as (l1 & R1 & P1 & P2 & P3 & P4 & P5).
        specialize (X (spurious x) (amem s a) (I a)). destruct X as (XA & XB & XC).
        destruct (f (spurious x) (amem s a)) as [w r] eqn:EF. cbn [fst snd] in *.
        destruct (g (spurious x) (amem s a)) as [w' r'] eqn:EG. cbn [fst snd] in *. subst w'.
        assert (ST : exists l2, step impl_of l1 (lab t (spurious x)) = Some (l2, []) /\
                       l2 = match w with Some y => go (write l1 a y) t (Fin r') | None => go l1 t (Fin r') end).
        { eexists. split; [|reflexivity]. unfold step. cbn [tid lab]. rewrite P1. cbn [spurious lab].
          rewrite P3, <- M, EG. destruct w; reflexivity. }
        destruct ST as (l2 & ST & E2). exists l2. split.
        { assert (e = @nil (event Op Res) ++ []) as -> by (destruct w; injection H as <- <-; reflexivity).
          eapply by_trans; [exact R1|eapply by_step; [exact ST|reflexivity|auto]]. }
        destruct w as [y|]; injection H as <- <-; subst l2.
        * simi s l t S (Some (kont r)) (@Fin Op Res r'); auto.
          { intros b. unfold setz. destruct (b =? a); auto. now rewrite P3. }
          { intros b. unfold setz. destruct (Z.eqb_spec b a) as [->|]; auto. }
          { intros u Hu E. apply drop_all_eq. now rewrite P4. }
          { discriminate. }
        * simi s l t S (Some (kont r)) (@Fin Op Res r'); auto.
          { intros b. now rewrite P3. }
          { intros u Hu E. now rewrite P4. }
          { discriminate. }
      + destruct (locals_reach l t (spurious x) _ _ eq_refl L) as (l1 & R1 & P1 & P2 & P3 & P4 & P5).
        specialize (X2 (spurious x) (amem s a) (I a)).
        destruct (f (spurious x) (amem s a)) as [w r] eqn:EF. cbn [fst snd] in *.
        set (i := CasLoop k rs rr body ok err) in *.
        destruct X2 as [(EB & -> & Iy & XR)|(EB & -> & XR)].
        * injection H as <- <-.
          exists (go (write l1 a y) t (Fin (ok g))). split.
          { change (@nil (event Op Res)) with (@nil (event Op Res) ++ []). eapply by_trans; [exact R1|].
            apply (by_step t _ l1 (lab t false)); [|reflexivity|discriminate]. unfold step. cbn [tid lab]. rewrite P1. unfold i.
            rewrite X1. cbn [spurious lab]. rewrite P3, <- M, EB, Z.eqb_refl. reflexivity. }
          simi s l t S (Some (kont r)) (@Fin Op Res (ok g)); auto.
          { intros b. unfold setz. destruct (b =? a); auto. now rewrite P3. }
          { intros b. unfold setz. destruct (Z.eqb_spec b a) as [->|]; auto. }
          { intros u Hu E. apply drop_all_eq. now rewrite P4. }
          { discriminate. }
        * injection H as <- <-.
          assert (EB' : (amem s a =? g) && negb (spurious x) = false).
          { destruct EB as [EB|EB]; [now rewrite (proj2 (Z.eqb_neq _ _) EB)|now rewrite EB, andb_false_r]. }
          set (q := if rr then Rd a o i (hist ++ [g]) 0 0 else Try a o i (hist ++ [g]) (amem s a)) in *.
          exists (go (count_fail l1 t (spurious x)) t q). split.
          { change (@nil (event Op Res)) with (@nil (event Op Res) ++ []). eapply by_trans; [exact R1|].
            apply (by_step t _ l1 (lab t (spurious x))); [|reflexivity|auto]. unfold step. cbn [tid lab]. rewrite P1. unfold i.
            rewrite X1. cbn [spurious lab]. rewrite P3, <- M, EB'. reflexivity. }
          simi s l t S (Some (kont r)) q; auto.
          { intros b. now rewrite P3. }
          { intros u Hu E. now rewrite P4. }
          { unfold q. destruct rr; cbn; discriminate. }
    - (* load linked *)
      injection H as <- <-. destruct HM as (o & i & hist & m & acc & L & X1 & X0 & X2 & Hk & X3 & X4).
      destruct (locals_reach l t (spurious x) _ _ eq_refl L) as (l1 & R1 & P1 & P2 & P3 & P4 & P5).
      set (v := amem s a / 2 ^ (k * Z.of_nat n) mod 2 ^ k) in *.
      assert (Hv : 0 <= v < 2 ^ k) by (apply Z.mod_pos_bound; now apply pow2_pos).
      exists (go (if fi then set_resv l1 t (Some a) else l1) t (after_rd a o i hist m (acc + v * 2 ^ (k * Z.of_nat n)))). split.
      + change (@nil (event Op Res)) with (@nil (event Op Res) ++ []). eapply by_trans; [exact R1|].
        apply (by_step t _ l1 (lab t false)); [|reflexivity|discriminate]. unfold step. cbn [tid lab]. rewrite P1.
        destruct (impl_reads i) as [k' rs] eqn:ER. cbn [fst snd] in *. subst k'. rewrite X3.
        rewrite X1. cbn [andb]. unfold after_rd. rewrite ER. cbn [snd]. rewrite piece_eq, P3, <- M. fold v.
        rewrite <- X0. destruct (Nat.eqb (Datatypes.S m) (length rs)); reflexivity.
      + apply (Sim_intro s _ l _ t (Some (kont v)) (after_rd a o i hist m (acc + v * 2 ^ (k * Z.of_nat n))) S); cbn;
          auto using setn_same.
        * intros; destruct fi; cbn; rewrite P3; auto.
        * intros b; destruct fi; cbn; auto.
        * intros u Hu. rewrite setn_other by assumption. destruct fi; reflexivity.
        * intros u Hu. rewrite setn_other by assumption. destruct fi; cbn; auto.
        * intros u Hu E. destruct fi; cbn; rewrite ?setn_other by assumption; rewrite P4; auto.
        * intros _. destruct fi; cbn; [now rewrite !setn_same|]. rewrite P4. apply T1, P5.
          cbn. now rewrite X1, <- X0.
    - (* store conditional *)
      destruct HM as (o & k & rs & body & ok & err & weak & hist & g & L & X1 & X2 & X3 & X4).
      destruct (locals_reach l t (spurious x) _ _ eq_refl L) as (l1 & R1 & P1 & P2 & P3 & P4 & P5).
      set (i := LlSc k rs body ok err weak) in *.
      assert (V : aresv s t = resv l1 t) by (rewrite P4; apply T1, P5; reflexivity).
      destruct (ahas_resv s t a && negb (spurious x)) eqn:EB; injection H as <- <-.
      + exists (go (write l1 a v) t (Fin (ok g))). split.
        { change (@nil (event Op Res)) with (@nil (event Op Res) ++ []). eapply by_trans; [exact R1|].
          apply (by_step t _ l1 (lab t (spurious x))); [|reflexivity|auto]. unfold step. cbn [tid lab]. rewrite P1. unfold i.
          rewrite X1. cbn [spurious lab]. unfold has_resv. unfold ahas_resv in EB. rewrite <- V, EB. reflexivity. }
        simi s l t S (Some (kont true)) (@Fin Op Res (ok g)); auto.
        { intros b. unfold setz. destruct (b =? a); auto. now rewrite P3. }
        { intros b. unfold setz. destruct (Z.eqb_spec b a) as [->|]; eauto. }
        { intros u Hu E. apply drop_all_eq. now rewrite P4. }
        { discriminate. }
      + set (q := match weak with Some w => Fin (w g) | None => Rd a o i (hist ++ [g]) 0 0 end) in *.
        exists (go (set_resv (count_fail l1 t (spurious x)) t None) t q). split.
        { change (@nil (event Op Res)) with (@nil (event Op Res) ++ []). eapply by_trans; [exact R1|].
          apply (by_step t _ l1 (lab t (spurious x))); [|reflexivity|auto]. unfold step. cbn [tid lab]. rewrite P1. unfold i.
          rewrite X1. cbn [spurious lab]. unfold has_resv. unfold ahas_resv in EB. rewrite <- V, EB.
          unfold q. destruct weak; reflexivity. }
        simi s l t S (Some (kont false)) q; auto.
        { intros b. now rewrite P3. }
        { intros u Hu E. rewrite !setn_other by assumption. now rewrite P4. }
        { intros _. now rewrite !setn_same. }
    - (* done *)
      injection H as <- <-.
      destruct (locals_reach l t (spurious x) _ _ eq_refl HM) as (l1 & R1 & P1 & P2 & P3 & P4 & P5).
      exists (go l1 t Idle). split.
      + change [@Return Op Res t r] with ([] ++ [@Return Op Res t r]). eapply by_trans; [exact R1|].
        apply (by_step t _ l1 (lab t false)); [|reflexivity|discriminate]. unfold step. cbn [tid lab]. now rewrite P1.
      + simi s l t S (@None C) (@Idle Op Res); auto.
        * intros; rewrite P3; auto.
        * intros u Hu E; rewrite P4; auto.
        * discriminate.
    - contradiction.
  Qed.


  Lemma sim_local s l x s' e c c' q : Sim s l -> athr s (tid x) = Some c -> next c = ALocal c' ->
    locals (pcs l (tid x)) q -> similar c' q -> asm_step next code_of s x = Some (s', e) ->
    e = [] /\ athr s' (tid x) = Some c' /\
    exists l', reach_by (tid x) (spurious x) false l [] l' /\ pcs l' (tid x) = q /\ Sim s' l'.
  Proof.
    intros S EA EN L Q H. pose proof S as (M & I & T). unfold asm_step in H. set (t := tid x) in *.
    destruct (T t) as [T1 T2]. rewrite EA, EN in H. rewrite EA in T2. injection H as <- <-. split; [reflexivity|].
    split; [cbn; apply setn_same|].
    destruct (locals_reach l t (spurious x) _ q eq_refl L) as (l1 & R1 & P1 & P2 & P3 & P4 & P5).
    exists l1. split; [exact R1|]. split; [exact P1|].
    simi s l t S (Some c') q; auto.
    + intros; rewrite P3; auto.
    + intros u Hu E; rewrite P4; auto.
    + intros; rewrite P4; auto.
  Qed.
  Lemma sim_read s l x s' e c a k n kont : Sim s l -> athr s (tid x) = Some c -> next c = ARead a k n kont ->
    0 <= k -> (forall v, 0 <= v < 2 ^ k -> similar (kont v) (pcs l (tid x))) -> asm_step next code_of s x = Some (s', e) ->
    e = [] /\ Sim s' l /\ exists v, 0 <= v < 2 ^ k /\ athr s' (tid x) = Some (kont v).
  Proof.
    intros S EA EN Hk X H. pose proof S as (M & I & T). unfold asm_step in H. set (t := tid x) in *.
    destruct (T t) as [T1 T2]. rewrite EA, EN in H. rewrite EA in T2. injection H as <- <-. split; [reflexivity|].
    set (v := amem s a / 2 ^ (k * Z.of_nat n) mod 2 ^ k) in *.
    assert (Hv : 0 <= v < 2 ^ k) by (apply Z.mod_pos_bound; now apply pow2_pos).
    split.
    - simi s l t S (Some (kont v)) (pcs l t); auto.
    - exists v. split; [exact Hv|]. cbn. apply setn_same.
  Qed.

  Theorem asm_sim_step s l x s' e : Sim s l -> asm_step next code_of s x = Some (s', e) ->
    exists l', reach l e l' /\ Sim s' l'.
  Proof.
    intros S H. pose proof S as (M & I & T). destruct (T (tid x)) as [T1 T2].
    destruct (athr s (tid x)) as [c|] eqn:EA.
    2:{ (* call *)
      unfold asm_step in H. set (t := tid x) in *. rewrite EA in H.
      destruct (call x) as [[a o]|]; [|discriminate]. destruct (code_of a o) as [c|] eqn:EC; [|discriminate].
      injection H as <- <-. destruct (code_refines _ _ _ EC) as (i & EI & R & R0 & HR).
      exists (go (start_count l t a) t (Begin a o i)). split.
      - apply (by_reach t false true), (by_step t _ l (mk_label t (Some (a, o)) false)); [|reflexivity|discriminate].
        unfold step. cbn [tid call]. now rewrite T2, EI.
      - simi s l t S (Some c) (Begin a o i).
        + exact M.
        + exact I.
        + auto.
        + exists R. auto.
        + discriminate. }
    pose proof (similar_settle _ _ T2) as HS. inversion HS as [c0 p0 A|c0 c' p0 q N L Q|c0 a k n kont p0 N K Q]; subst c0 p0.
    - destruct (sim_act _ _ _ _ _ _ S EA A H) as (l' & R & S'). exists l'. split; [exact (by_reach _ _ _ _ _ _ R)|exact S'].
    - destruct (sim_local _ _ _ _ _ _ _ _ S EA N L (settle_is_similar _ _ Q) H) as (-> & _ & l' & R & _ & S').
      exists l'. split; [exact (by_reach _ _ _ _ _ _ R)|exact S'].
    - destruct (sim_read _ _ _ _ _ _ _ _ _ _ S EA N K (fun v Hv => settle_is_similar _ _ (Q v Hv)) H) as (-> & S' & _).
      exists l. split; [apply reach_refl|exact S'].
  Qed.

  Lemma asm_sim_run ls : forall s l s' h, Sim s l -> asm_run next code_of s ls = Some (s', h) ->
    exists l', reach l h l' /\ Sim s' l'.
  Proof.
    induction ls as [|x ls IH]; intros s l s' h S H; cbn in H.
    - injection H as <- <-. exists l. split; [apply reach_refl|exact S].
    - destruct (asm_step next code_of s x) as [[s1 e]|] eqn:ES; [|discriminate].
      destruct (asm_run next code_of s1 ls) as [[s2 es]|] eqn:ER; [|discriminate]. injection H as <- <-.
      destruct (asm_sim_step _ _ _ _ _ S ES) as (l1 & H1 & S1).
      destruct (IH _ _ _ _ S1 ER) as (l2 & H2 & S2). exists l2. split; [|exact S2].
      eapply reach_trans; eauto.
  Qed.

  (** Every execution of the blocks is one of the loop machine. *)
  Theorem asm_refines_loops m ls s h : (forall a, inr a (m a)) ->
    asm_run next code_of (asm_init m) ls = Some (s, h) ->
    exists ls' s', run impl_of (init m) ls' = Some (s', h) /\ forall a, mem s' a = amem s a.
  Proof.
    intros Hm H. assert (S : Sim (asm_init m) (init m)).
    { split; [reflexivity|]. split; [exact Hm|]. intros t. split; [reflexivity|reflexivity]. }
    destruct (asm_sim_run _ _ _ _ _ S H) as (l' & [ls' H'] & M & _). exists ls', l'. split; auto.
  Qed.

  (** A thread inside a block can always take its next step. *)
  Theorem asm_never_stuck m ls s h t c : (forall a, inr a (m a)) ->
    asm_run next code_of (asm_init m) ls = Some (s, h) -> athr s t = Some c ->
    forall sp, exists s' e, asm_step next code_of s (mk_label t None sp) = Some (s', e).
  Proof.
    intros Hm H E sp. assert (S : Sim (asm_init m) (init m)).
    { split; [reflexivity|]. split; [exact Hm|]. intros u. split; [reflexivity|reflexivity]. }
    destruct (asm_sim_run _ _ _ _ _ S H) as (l' & _ & _ & _ & T). destruct (T t) as [_ T2]. rewrite E in T2.
    apply similar_settle in T2. unfold asm_step. cbn [tid spurious call]. rewrite E.
    assert (NS : next c <> AStuck).
    { inversion T2 as [c0 p0 A|c0 c' p0 q N L Q|c0 a k n kont p0 N K Q]; try congruence. unfold act in A. intros X. now rewrite X in A. }
    destruct (next c) as [c'|a k n kont|a f kont|fi a k n kont|a v kont|r|]; eauto; [| |congruence].
    - destruct (f sp (amem s a)) as [[y|] r]; eauto.
    - destruct (ahas_resv s t a && negb sp); eauto.
  Qed.
End Refine.
