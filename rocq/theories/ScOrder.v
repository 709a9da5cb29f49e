(** * From an order of the operations to a linearization (proofs for C38) *)
From Coq Require Import ZArith List Bool Lia PeanoNat Permutation.
From Verif Require Import Words Spec LinFacts.
Import ListNotations.

Section Sort.
  Context {X : Type}.
  Variable leb : X -> X -> bool.
  Hypothesis leb_total : forall x y, leb x y = false -> leb y x = true.
  Hypothesis leb_trans : forall x y z, leb x y = true -> leb y z = true -> leb x z = true.
  Fixpoint insert (x : X) (l : list X) : list X :=
    match l with [] => [x] | y :: l' => if leb x y then x :: l else y :: insert x l' end.
  Fixpoint isort (l : list X) : list X := match l with [] => [] | x :: l' => insert x (isort l') end.
  Inductive sorted : list X -> Prop :=
  | sorted_nil : sorted []
  | sorted_cons x l : (forall y, In y l -> leb x y = true) -> sorted l -> sorted (x :: l).
  Lemma insert_perm x l : Permutation (x :: l) (insert x l).
  Proof.
    induction l as [|y l IH]; cbn; [reflexivity|]. destruct (leb x y); [reflexivity|].
    rewrite perm_swap. now constructor.
  Qed.
  Lemma isort_perm l : Permutation l (isort l).
  Proof. induction l as [|x l IH]; cbn; [constructor|]. rewrite <- insert_perm. now constructor. Qed.
  Lemma insert_sorted x l : sorted l -> sorted (insert x l).
  Proof.
    induction 1 as [|y l H S IH]; cbn; [constructor; [easy|constructor]|].
    destruct (leb x y) eqn:E.
    - constructor; [|constructor; auto]. intros z [<-|Hz]; [exact E|]. eapply leb_trans; eauto.
    - constructor; [|exact IH]. intros z Hz. apply (Permutation_in _ (Permutation_sym (insert_perm x l))) in Hz as [<-|Hz]; auto.
  Qed.
  Lemma isort_sorted l : sorted (isort l).
  Proof. induction l; cbn; [constructor|now apply insert_sorted]. Qed.
  Lemma sorted_app l1 l2 x : sorted (l1 ++ x :: l2) -> (forall y, In y l1 -> leb y x = true) /\ (forall y, In y l2 -> leb x y = true).
  Proof.
    induction l1 as [|z l1 IH]; cbn; intros H; inversion H as [|? ? A B]; subst.
    - split; [easy|exact A].
    - destruct (IH B) as [I1 I2]. split; [|exact I2]. intros y [<-|Hy]; [apply A, in_or_app; right; now left|auto].
  Qed.
End Sort.

Section Order.
  Context {Op Res : Type}.
  Variable sem : Z -> Op -> Z -> Z * Res -> Prop.
  Local Notation event := (event Op Res).
  Local Notation astate := (astate Op Res).
  (** one entry per step; a return names the step of its call *)
  Inductive item := ICall (t : nat) (a : Z) (o : Op) | IRet (t c : nat) (r : Res) | ISkip.
  Definition ev_of (i : item) : list event :=
    match i with ICall t a o => [Call t a o] | IRet t _ r => [Return t r] | ISkip => [] end.
  Record orec := mk_orec { oc : nat; ot : nat; oa : Z; oo : Op; orr : Res }.
  Inductive wfh : list item -> (nat -> option nat) -> Prop :=
  | wf_nil : wfh [] (fun _ => None)
  | wf_call evs f t a o : wfh evs f -> f t = None -> wfh (evs ++ [ICall t a o]) (updn f t (Some (length evs)))
  | wf_ret evs f t c r : wfh evs f -> f t = Some c -> wfh (evs ++ [IRet t c r]) (updn f t None)
  | wf_skip evs f : wfh evs f -> wfh (evs ++ [ISkip]) f.
  Definition updz (v : Z -> Z) (a x : Z) : Z -> Z := fun b => if Z.eqb b a then x else v b.
  Inductive exec : (Z -> Z) -> list orec -> (Z -> Z) -> Prop :=
  | ex_nil v : exec v [] v
  | ex_cons v r l x v' : sem (oa r) (oo r) (v (oa r)) (x, orr r) -> exec (updz v (oa r) x) l v' -> exec v (r :: l) v'.

  Variable init : Z -> Z.
  Variable evs : list item.
  Variable ops : list orec.
  Variable vF : Z -> Z.
  Hypothesis ops_calls : forall r, In r ops -> nth_error evs (oc r) = Some (ICall (ot r) (oa r) (oo r)).
  Hypothesis ops_nodup : NoDup (map oc ops).
  Hypothesis ops_exec : exec init ops vF.
  Hypothesis rets : forall n t c r, nth_error evs n = Some (IRet t c r) -> exists p, In p ops /\ oc p = c /\ orr p = r.
  Hypothesis real_time : forall l1 p l2 n t r, ops = l1 ++ p :: l2 -> nth_error evs n = Some (IRet t (oc p) r) ->
    (forall p', In p' l1 -> (oc p' < n)%nat).

  Lemma oc_inj p q : In p ops -> In q ops -> oc p = oc q -> p = q.
  Proof.
    clear -ops_nodup. induction ops as [|x l IH]; [easy|]. cbn in ops_nodup. inversion ops_nodup as [|? ? N D]; subst.
    intros [<-|Hp] [<-|Hq] E; auto.
    - exfalso. apply N. rewrite E. now apply in_map.
    - exfalso. apply N. rewrite <- E. now apply in_map.
  Qed.

  Record Inv (pre : list item) (f : nat -> option nat) (done rest : list orec) (s : astate) : Prop := {
    iv_split : ops = done ++ rest;
    iv_steps : asteps sem (mk_astate init (fun _ => AIdle)) (flat_map ev_of pre) s;
    iv_vals : exists v, exec v rest vF /\ forall a, avals s a = v a;
    iv_done : forall r, In r done -> (oc r < length pre)%nat;
    iv_phase : forall t, match f t with
      | None => aphases s t = AIdle
      | Some c => (exists r, In r done /\ oc r = c /\ ot r = t /\ aphases s t = ADone (orr r)) \/
                  ((forall r, In r done -> oc r <> c) /\ exists a o, nth_error evs c = Some (ICall t a o) /\ aphases s t = APending a o)
      end;
    iv_pend : forall r, In r rest -> (oc r < length pre)%nat -> f (ot r) = Some (oc r) }.

  Lemma asteps_one s h s' s'' : asteps sem s h s' -> astep sem s' [] s'' -> asteps sem s h s''.
  Proof. intros A B. rewrite <- (app_nil_r h). eapply as_snoc; eauto. Qed.

  Lemma take1 pre f done p rest s : Inv pre f done (p :: rest) s -> (oc p < length pre)%nat ->
    exists s', Inv pre f (done ++ [p]) rest s'.
  Proof.
    intros [IS IT (v & IX & IV) ID IP IQ] L.
    pose proof (IQ p (or_introl eq_refl) L) as F.
    assert (Pi : In p ops) by (rewrite IS; apply in_or_app; right; now left).
    assert (ND : forall r, In r done -> oc r <> oc p).
    { intros r Hr E. assert (r = p) as -> by (apply oc_inj; auto; rewrite IS; apply in_or_app; auto).
      pose proof ops_nodup as N. rewrite IS, map_app in N. cbn in N. apply NoDup_remove_2 in N. apply N, in_or_app. left. now apply in_map. }
    pose proof (IP (ot p)) as P. rewrite F in P. destruct P as [(r & Hr & E & _)|(_ & a & o & E & P)]; [now apply ND in Hr|].
    rewrite (ops_calls p Pi) in E. injection E as <- <-.
    inversion IX as [|? ? ? x ? X2 X]; subst.
    exists (mk_astate (updz v (oa p) x) (updn (aphases s) (ot p) (ADone (orr p)))). constructor.
    - rewrite <- app_assoc. exact IS.
    - eapply asteps_one; [exact IT|]. eapply a_take_effect; [exact P| | |].
      + rewrite IV. exact X2.
      + split; cbn; [unfold updz; now rewrite Z.eqb_refl|]. intros y Ny. unfold updz. destruct (Z.eqb_spec y (oa p)); [easy|]. symmetry. apply IV.
      + split; cbn; [apply updn_same|]. intros y Ny. now apply updn_other.
    - exists (updz v (oa p) x). split; [exact X|reflexivity].
    - intros r Hr. apply in_app_or in Hr as [Hr|[<-|[]]]; auto.
    - intros t. cbn [aphases]. destruct (Nat.eq_dec t (ot p)) as [->|N].
      + rewrite F. left. exists p. rewrite updn_same. repeat split. apply in_or_app. right. now left.
      + rewrite updn_other by exact N. specialize (IP t). destruct (f t) as [c|]; [|exact IP].
        destruct IP as [(r & Hr & E)|(Hn & a & o & E & Ph)].
        * left. exists r. split; [apply in_or_app; auto|exact E].
        * right. split; [|eauto]. intros r Hr Ec. apply in_app_or in Hr as [Hr|[<-|[]]]; [now apply Hn in Hr|].
          subst c. rewrite (ops_calls p Pi) in E. injection E as E _ _. now subst t.
    - intros r Hr Lr. apply IQ; [now right|exact Lr].
  Qed.
  Lemma take_all pre f m : forall done rest s, Inv pre f done (m ++ rest) s -> (forall r, In r m -> (oc r < length pre)%nat) ->
    exists s', Inv pre f (done ++ m) rest s'.
  Proof.
    induction m as [|p m IH]; intros done rest s Hi L; [rewrite app_nil_r; eauto|].
    destruct (take1 _ _ _ _ _ _ Hi) as (s1 & H1); [apply L; now left|].
    replace (done ++ p :: m) with ((done ++ [p]) ++ m) by now rewrite <- app_assoc.
    eapply IH; [exact H1|]. intros r Hr. apply L. now right.
  Qed.
  Lemma simulate : forall pre f, wfh pre f -> forall suf, evs = pre ++ suf -> exists done rest s, Inv pre f done rest s.
  Proof.
    induction 1 as [|pre f t a o W IH F|pre f t c r W IH F|pre f W IH]; intros suf E.
    - exists [], ops, (mk_astate init (fun _ => AIdle)). constructor.
      + reflexivity.
      + apply as_nil; reflexivity.
      + exists init. auto.
      + easy.
      + reflexivity.
      + intros r _ L. cbn in L. lia.
    - rewrite <- app_assoc in E. destruct (IH _ E) as (done & rest & s & [IS IT IX ID IP IQ]).
      assert (En : nth_error evs (length pre) = Some (ICall t a o)) by (rewrite E, nth_error_app2, Nat.sub_diag by lia; reflexivity).
      exists done, rest, (mk_astate (avals s) (updn (aphases s) t (APending a o))). constructor; auto.
      + rewrite flat_map_app. cbn. eapply as_snoc; [exact IT|]. pose proof (IP t) as P. rewrite F in P.
        eapply a_call; [exact P|reflexivity|]. split; cbn; [apply updn_same|]. intros y Ny. now apply updn_other.
      + intros r Hr. rewrite app_length. specialize (ID r Hr). lia.
      + intros u. cbn [aphases]. destruct (Nat.eq_dec u t) as [->|N].
        * rewrite !updn_same. right. split; [|eauto]. intros r Hr Er. specialize (ID r Hr). lia.
        * rewrite !updn_other by exact N. apply IP.
      + intros r Hr Lr. rewrite app_length in Lr. cbn in Lr.
        assert (Ri : In r ops) by (rewrite IS; apply in_or_app; auto). pose proof (ops_calls r Ri) as Er.
        destruct (Nat.eq_dec (oc r) (length pre)) as [Eq|Ne].
        * rewrite Eq, En in Er. injection Er as -> _ _. rewrite updn_same. now rewrite Eq.
        * assert (f (ot r) = Some (oc r)) as Fr by (apply IQ; [exact Hr|lia]).
          rewrite updn_other; [exact Fr|]. intros Et. rewrite Et in Fr. congruence.
    - rewrite <- app_assoc in E. destruct (IH _ E) as (done & rest & s & Hi). pose proof Hi as [IS IT IX ID IP IQ].
      assert (En : nth_error evs (length pre) = Some (IRet t c r)) by (rewrite E, nth_error_app2, Nat.sub_diag by lia; reflexivity).
      destruct (rets _ _ _ _ En) as (p & Pi & Pc & Pr).
      assert (G : exists done' rest' s', Inv pre f done' rest' s' /\ In p done').
      { rewrite IS in Pi. apply in_app_or in Pi as [Pi|Pi]; [exists done, rest, s; auto|].
        apply in_split in Pi as (m1 & m2 & ->).
        destruct (take_all pre f (m1 ++ [p]) done m2 s) as (s' & Hs').
        - rewrite <- app_assoc. exact Hi.
        - intros q Hq. apply in_app_or in Hq as [Hq|[<-|[]]].
          + apply (real_time (done ++ m1) p m2 _ t r); [rewrite <- app_assoc; exact IS|now rewrite Pc|apply in_or_app; auto].
          + rewrite Pc. clear -W F. revert t c F. induction W; intros t' c' F'; try easy.
            * rewrite app_length. cbn. unfold updn in F'. destruct (Nat.eqb t' t); [injection F' as <-; lia|apply IHW in F'; lia].
            * rewrite app_length. cbn. unfold updn in F'. destruct (Nat.eqb t' t); [easy|apply IHW in F'; lia].
            * rewrite app_length. cbn. apply IHW in F'. lia.
        - exists (done ++ m1 ++ [p]), m2, s'. split; [exact Hs'|]. apply in_or_app. right. apply in_or_app. right. now left. }
      clear done rest s Hi IS IT IX ID IP IQ. destruct G as (done & rest & s & [IS IT IX ID IP IQ] & Pd).
      pose proof (IP t) as P. rewrite F in P. destruct P as [(q & Hq & Eq & Et & P)|(Hn & _)]; [|exfalso; exact (Hn p Pd Pc)].
      assert (q = p) as -> by (apply oc_inj; [rewrite IS; apply in_or_app; auto|rewrite IS; apply in_or_app; auto|congruence]).
      rewrite Pr in P.
      exists done, rest, (mk_astate (avals s) (updn (aphases s) t AIdle)). constructor; auto.
      + rewrite flat_map_app. cbn. eapply as_snoc; [exact IT|].
        eapply a_return; [exact P|reflexivity|]. split; cbn; [apply updn_same|]. intros y Ny. now apply updn_other.
      + intros q Hq'. rewrite app_length. specialize (ID q Hq'). lia.
      + intros u. cbn [aphases]. destruct (Nat.eq_dec u t) as [->|N].
        * now rewrite !updn_same.
        * rewrite !updn_other by exact N. apply IP.
      + intros q Hq' Lr. rewrite app_length in Lr. cbn in Lr.
        assert (Ri : In q ops) by (rewrite IS; apply in_or_app; auto). pose proof (ops_calls q Ri) as Er.
        destruct (Nat.eq_dec (oc q) (length pre)) as [Eq'|Ne]; [rewrite Eq', En in Er; easy|].
        assert (f (ot q) = Some (oc q)) as Fr by (apply IQ; [exact Hq'|lia]).
        rewrite updn_other; [exact Fr|]. intros Eo. rewrite Eo, F in Fr. injection Fr as Fr.
        assert (q = p) as -> by (apply oc_inj; [exact Ri|rewrite IS; apply in_or_app; auto|congruence]).
        pose proof ops_nodup as ND. rewrite IS, map_app in ND. apply in_split in Hq' as (m1 & m2 & ->).
        rewrite map_app in ND. cbn in ND. rewrite app_assoc in ND. apply NoDup_remove_2 in ND. apply ND.
        apply in_or_app. left. apply in_or_app. left. now apply in_map.
    - rewrite <- app_assoc in E. destruct (IH _ E) as (done & rest & s & [IS IT IX ID IP IQ]).
      exists done, rest, s. constructor; auto.
      + rewrite flat_map_app. cbn. now rewrite app_nil_r.
      + intros r Hr. rewrite app_length. specialize (ID r Hr). lia.
      + intros r Hr Lr. rewrite app_length in Lr. cbn in Lr. apply IQ; [exact Hr|].
        assert (En : nth_error evs (length pre) = Some ISkip) by (rewrite E, nth_error_app2, Nat.sub_diag by lia; reflexivity).
        assert (Ri : In r ops) by (rewrite IS; apply in_or_app; auto). pose proof (ops_calls r Ri) as Er.
        destruct (Nat.eq_dec (oc r) (length pre)) as [Eq'|Ne]; [rewrite Eq', En in Er; easy|lia].
  Qed.
  Theorem order_linearizable f : wfh evs f -> linearizable sem init (flat_map ev_of evs).
  Proof.
    intros W. destruct (simulate _ _ W [] (eq_sym (app_nil_r _))) as (done & rest & s & Hi). exists s. apply Hi.
  Qed.
End Order.
Arguments item : clear implicits.
Arguments orec : clear implicits.
