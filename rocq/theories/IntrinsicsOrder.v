(** intrinsics.rs: the orderings of the intrinsics a call makes. *)
From Coq Require Import ZArith List Bool Lia.
From Verif Require Import Words Spec WideSpec LoopModel AsmModel RustOps TraceSpec IntrinsicsModel IntrinsicsSpec.
Import ListNotations.
Open Scope Z_scope.

Section Order.
  Variable g : icfg.
  Definition core_trace (tr : list (intrinsic * (Z * bool))) : Prop := Forall (fun p => in_core (fst p)) tr.
  Lemma weak_core old new s k : i_cas_weak g old new s Relaxed = Some k -> in_core k /\ forall out, snd out = true -> used k out = s.
  Proof.
    unfold i_cas_weak, i_cas. destruct (is_x86 g).
    - intros E. injection E as <-. cbn. split; [split; discriminate|]. intros out ->. reflexivity.
    - destruct s; intros E; injection E as <-; cbn; (split; [split; discriminate|]); intros out ->; reflexivity.
  Qed.
  Lemma load_core k : i_load g Relaxed = Some k -> in_core k.
  Proof.
    unfold i_load, i_cas. destruct (is_x86 g); cbn; intros E; injection E as <-; cbn; split; discriminate.
  Qed.
  Lemma do_trace a k fin tr c r : calls g (IDo a k fin) tr c -> inext g c = ADone r ->
    exists out, tr = [(k, out)] /\ r = fin out.
  Proof.
    intros T D.
    assert (K : (c = IDo a k fin /\ tr = []) \/ exists out, c = IRet (fin out) /\ tr = [(k, out)]).
    { clear D. induction T as [|tr c1 k1 a1 f1 kont sp x T IH E1 E2]; [left; auto|].
      destruct IH as [[-> ->]|(out & -> & ->)]; [|discriminate E2].
      right. cbn in E1, E2. injection E1 as ->. injection E2 as <- <- <-. eexists. split; reflexivity. }
    destruct K as [[-> ->]|(out & -> & ->)]; [discriminate D|]. injection D as <-. eauto.
  Qed.
  Lemma upd_trace a f order fin tr c r : calls g (IUpdLoad a f order fin) tr c -> inext g c = ADone r ->
    exists tr' k out, tr = tr' ++ [(k, out)] /\ used k out = order /\ core_trace tr /\ r = fin out.
  Proof.
    intros T D.
    assert (K : core_trace tr /\
      ((c = IUpdLoad a f order fin /\ tr = []) \/ (exists prev, c = IUpdTry a f order fin prev) \/
       exists tr' k out, c = IRet (fin out) /\ tr = tr' ++ [(k, out)] /\ used k out = order)).
    { clear D. induction T as [|tr c1 k1 a1 f1 kont sp x T [IC IH] E1 E2]; [split; [constructor|left; auto]|].
      destruct IH as [[-> ->]|[[prev ->]|(tr' & k' & out & -> & _)]]; [| |discriminate E1].
      - cbn [intrinsic_at inext] in E1, E2. rewrite E1 in E2. injection E2 as <- <- <-. split.
        + apply Forall_app. split; [constructor|]. constructor; [|constructor]. now apply load_core.
        + right. left. eauto.
      - cbn [intrinsic_at inext] in E1, E2. rewrite E1 in E2. injection E2 as <- <- <-. destruct (weak_core _ _ _ _ E1) as [W1 W2]. split.
        + apply Forall_app. split; [exact IC|]. constructor; [exact W1|constructor].
        + right. destruct (snd (snd (isem k1 sp x))) eqn:EO.
          * right. exists tr, k1, (snd (isem k1 sp x)). split; [reflexivity|]. split; [reflexivity|]. now apply W2.
          * left. eauto. }
    destruct K as [KC [[-> ->]|[[prev ->]|(tr' & k & out & -> & -> & U)]]].
    - revert D. cbn [inext]. destruct (i_load g Relaxed); discriminate.
    - revert D. cbn [inext]. destruct (i_cas_weak _ _ _ _ _); discriminate.
    - injection D as <-. exists tr', k, out. auto.
  Qed.
  Lemma rmw_shape a f order fin : i_rmw g a f order fin = IUpdLoad a f order fin \/
    exists op v, i_rmw g a f order fin = IDo a (KFetch op v order) fin.
  Proof.
    assert (F : forall op v, do_ a (i_fetch op v order) fin = IDo a (KFetch op v order) fin) by (intros; destruct order; reflexivity).
    destruct f; cbn [i_rmw]; rewrite ?F; auto; try (destruct (by_update g); eauto; fail); destruct (cmp_by_update g); eauto.
  Qed.
  Lemma rmw_trace a f order fin tr c r : calls g (i_rmw g a f order fin) tr c -> inext g c = ADone r ->
    exists tr' k out, tr = tr' ++ [(k, out)] /\ used k out = order /\ core_trace tr /\ r = fin out.
  Proof.
    intros T D. destruct (rmw_shape a f order fin) as [E|(op & v & E)]; rewrite E in T.
    - eapply upd_trace; eauto.
    - destruct (do_trace _ _ _ _ _ _ T D) as (out & -> & ->). exists [], (KFetch op v order), out.
      split; [reflexivity|]. split; [reflexivity|]. split; [|reflexivity]. constructor; [exact Logic.I|constructor].
  Qed.
  Lemma cas_core weak old new s f : f <> Release -> f <> AcqRel ->
    exists k, (if weak : bool then i_cas_weak g old new s f else i_cas g old new s f) = Some k /\ in_core k /\
      forall out, used k out = if snd out then s else f.
  Proof.
    intros F1 F2. unfold i_cas_weak, i_cas. destruct weak, (is_x86 g); try (eexists; split; [reflexivity|]; split; [split; assumption|reflexivity]);
      destruct f; try congruence; destruct s; (eexists; split; [reflexivity|]; split; [split; discriminate|reflexivity]).
  Qed.

  Theorem orderings ty o tr r : performs g ty o tr r ->
    core_trace tr /\ exists tr' k out, tr = tr' ++ [(k, out)] /\ used k out = asked o r.
  Proof.
    intros (a & c & c' & E & T & D). unfold i_code_of in E. destruct ((_ =? _) && _) eqn:EC in E; [|discriminate E].
    cbn [negb] in E. apply andb_true_iff in EC as [_ EC].
    assert (CAS : forall weak cu nw s f fin, match f with Release | AcqRel => false | _ => true end = true ->
      calls g (do_ a (if weak : bool then i_cas_weak g cu nw s f else i_cas g cu nw s f) fin) tr c' ->
      core_trace tr /\ exists tr' k out, tr = tr' ++ [(k, out)] /\ used k out = (if snd out then s else f) /\ r = fin out).
    { intros weak cu nw s f fin F T'. destruct (cas_core weak cu nw s f) as (k & EK & K1 & K2); [now destruct f|now destruct f|].
      rewrite EK in T'. cbn [do_] in T'. destruct (do_trace _ _ _ _ _ _ T' D) as (out & -> & ->).
      split; [constructor; [exact K1|constructor]|]. exists [], k, out. split; [reflexivity|]. split; [apply K2|reflexivity]. }
    destruct o as [[ord|v ord|q ord|cu nw sc fl]|cu nw sc fl]; injection E as <-.
    - unfold i_load in T. destruct (is_x86 g) eqn:X.
      + cbn in EC. assert (S : exists fo, strongest_failure_ordering ord = Some fo /\ fo = ord).
        { destruct ord; try discriminate EC; eexists; split; reflexivity. }
        destruct S as (fo & ES & ->). rewrite ES in T.
        destruct (CAS false 0 0 ord ord (fin_value (ty a)) EC T) as (K1 & tr' & k & out & K2 & K3 & _).
        split; [exact K1|]. exists tr', k, out. split; [exact K2|]. cbn [asked]. rewrite K3. now destruct (snd out).
      + cbn in EC. destruct ord; try discriminate EC; cbn [do_] in T; destruct (do_trace _ _ _ _ _ _ T D) as (out & -> & _);
          (split; [constructor; [split; discriminate|constructor]|]); eexists [], _, out; (split; [reflexivity|reflexivity]).
    - destruct (is_x86 g).
      + destruct (rmw_trace a (FSwap (cast (mk_ity (ibits (ty a)) false) v)) ord (fun _ => RUnit) tr c' r T D) as (tr' & k & out & K1 & K2 & K3 & _). split; [exact K3|]. exists tr', k, out. auto.
      + cbn in EC. destruct ord; try (rewrite andb_false_r in EC; discriminate EC); cbn [i_store do_] in T; destruct (do_trace _ _ _ _ _ _ T D) as (out & -> & _);
          (split; [constructor; [split; discriminate|constructor]|]); eexists [], _, out; (split; [reflexivity|reflexivity]).
    - destruct (rmw_trace _ _ _ _ _ _ _ T D) as (tr' & k & out & K1 & K2 & K3 & _). split; [exact K3|]. exists tr', k, out. auto.
    - cbn in EC. apply andb_true_iff in EC as [_ EC].
      destruct (CAS false _ _ _ _ _ EC T) as (K1 & tr' & k & out & K2 & K3 & ->). split; [exact K1|]. exists tr', k, out.
      split; [exact K2|]. rewrite K3. cbn [asked]. unfold fin_cas. now destruct (snd out).
    - cbn in EC. apply andb_true_iff in EC as [_ EC].
      destruct (CAS true _ _ _ _ _ EC T) as (K1 & tr' & k & out & K2 & K3 & ->). split; [exact K1|]. exists tr', k, out.
      split; [exact K2|]. rewrite K3. cbn [asked]. unfold fin_cas. now destruct (snd out).
  Qed.
End Order.
