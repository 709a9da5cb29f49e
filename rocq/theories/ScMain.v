(** * Variables used with SeqCst only are linearizable under weak memory (proofs for C38) *)
From Coq Require Import ZArith List Bool Lia PeanoNat Permutation.
From Verif Require Import Words Spec LinFacts ScOrder ScLog WeakMem WeakFacts WeakSpec WeakInv WeakFrame WeakSim WeakUse.
Import ListNotations.
Open Scope Z_scope.

Section Main.
  Variable ty : Z -> ity.
  Variable objs : Z -> option ity.
  Variables vars own : Z -> Z.
  Variable P : Z -> bool.
  Local Notation mem_of s := (wmem (world_of s)).
  Local Notation arun := (wrun aloc_eqb (s_next ty) (s_code objs) Ac).
  Local Notation astep := (wstep aloc_eqb (s_next ty) (s_code objs) Ac).
  Local Notation hist := (list (wevent op res)).
  Local Notation rc r := (oc (r_o r)).
  Definition absM (A : wst aloc sconf) (a ts : Z) : option Z := option_map mval (mem_of A (Ad a) ts).
  Definition absW (A : wst aloc sconf) (a : Z) : Z := wsc (world_of A) (Ad a).
  Definition absC (A : wst aloc sconf) (t : nat) (a : Z) : Z := cur (views A t) (Ad a).
  Definition conf_ok (q : option sconf) (pd : option (Z * op)) (g : gph) : Prop :=
    match g with
    | Out => match pd with Some (a, _) => P a = false | None => True end
    | Called _ a o => q = Some (SBegin a o)
    | Fenced _ _ a o => q = Some (SDo a o) /\ asks_sc o = true
    | Accd r => q = Some (SEnd (orr (r_o r))) /\ pd = Some (oa (r_o r), oo (r_o r))
    | Ended r => q = Some (SRet (orr (r_o r))) /\ pd = Some (oa (r_o r), oo (r_o r))
    end.
  Record MInv (h : hist) (A : wst aloc sconf) (its : list (item op res)) (G : nat -> gph) (log : list rec) (E : nat -> option nat) : Prop := {
    m_log : LInv ty vars P its G log E (absM A) (absW A) (absC A);
    m_part : flat_map ev_of its = calls_on P h;
    m_conf : forall t, conf_ok (confs A t) (pending h t) (G t);
    m_base : Base h A }.
  Definition only_sc (h : hist) : Prop := forall t a o, In (ECall t a o) h -> P a = true -> asks_sc o = true /\ panics o = false.

  Lemma part_app h : forall f e, part P f (h ++ [e]) = part P f h ++ piece P (fold_left pend1 h f) e.
  Proof.
    induction h as [|x h IH]; intros f e; cbn; [now rewrite app_nil_r|]. now rewrite IH, app_assoc.
  Qed.
  Lemma calls_on_app h e : calls_on P (h ++ [e]) = calls_on P h ++ piece P (pending h) e.
  Proof. apply part_app. Qed.
  Lemma flat_snoc (its : list (item op res)) i : flat_map ev_of (its ++ [i]) = flat_map ev_of its ++ ev_of i.
  Proof. rewrite flat_map_app. cbn. now rewrite app_nil_r. Qed.

  Lemma minv_init : MInv [] (s_init vars own) [] (fun _ => Out) [] (fun _ => None).
  Proof.
    constructor; [|reflexivity|intros t; exact I|apply base_init].
    constructor; try easy.
    - exists (fun _ => None). split; [constructor|reflexivity].
    - intros m t c q En. now destruct m.
    - constructor.
    - intros a ts x _. unfold absM. cbn. destruct (Z.eqb_spec ts 0); [|easy]. cbn. intros [= <-]. auto.
  Qed.
  Lemma minv_step h A l A' e its G log E : only_sc (h ++ e) -> MInv h A its G log E -> astep A l = Some (A', e) ->
    exists its' G' log' E', MInv (h ++ e) A' its' G' log' E'.
  Proof.
    intros OK [LI MP MC MB] S. pose proof (base_step _ _ _ _ _ _ _ MB S) as B'.
    destruct (step_kind _ _ _ _ _ _ S) as (T & K & O).
    destruct (b_closed _ _ MB) as [CW CT]. destruct (kind_tle _ _ _ _ _ _ K CW (CT T)) as (GR & CW' & CT' & TL).
    pose proof (kind_pending _ _ _ _ _ _ _ MB K) as KP. pose proof (step_wsc _ _ _ _ _ _ K) as WS.
    assert (HC : forall t a, absC A t a <= absC A' t a).
    { intros t a. unfold absC. destruct (Nat.eq_dec t T) as [->|N]; [apply TL|]. destruct (O t N) as [-> _]. lia. }
    assert (HW : forall a, absW A a <= absW A' a) by (intros a; apply WS).
    pose proof (b_conf _ _ MB T) as BC. pose proof (MC T) as CT0.
    (* other threads *)
    assert (OC : forall g, conf_ok (confs A' T) (pending (h ++ e) T) g -> forall t, conf_ok (confs A' t) (pending (h ++ e) t) (updn G T g t)).
    { intros g Hg t. destruct (Nat.eq_dec t T) as [->|N]; [now rewrite updn_same|]. rewrite updn_other by exact N.
      destruct (O t N) as [_ ->]. rewrite KP by exact N. apply MC. }
    assert (NN : forall b, P b = true -> 0 <= absC A T b).
    { intros b Pb. destruct (CT T) as ((CC & _) & _). destruct (CC (Ad b)) as [g Eg]. unfold absC.
      destruct (l_mem _ _ _ _ _ _ _ _ _ _ LI b (cur (views A T) (Ad b)) (mval g) Pb) as [(-> & _)|(r & Hr & _ & Wr & Tr & _)].
      - unfold absM. rewrite Eg. reflexivity.
      - lia.
      - destruct (l_wr _ _ _ _ _ _ _ _ _ _ LI r Hr) as (_ & L0 & _). lia. }
    (* a step that is not part of an operation on [P] *)
    assert (SKIP : G T = Out -> (forall a ts, P a = true -> absM A' a ts = absM A a ts) -> calls_on P (h ++ e) = calls_on P h ->
      conf_ok (confs A' T) (pending (h ++ e) T) Out -> exists its' G' log' E', MInv (h ++ e) A' its' G' log' E').
    { intros GT HM HP HO. exists (its ++ [ISkip]), (updn G T Out), log, E. constructor; [|rewrite flat_snoc, MP, HP; apply app_nil_r|now apply OC|exact B'].
      apply (step_gen ty vars P its G log E (absM A) (absW A) (absC A) ISkip Out T E (absM A') (absW A') (absC A') (fun f => f)); auto.
      - intros f F _. now constructor.
      - intros f F t. rewrite F. rewrite <- GT. now rewrite updn_id.
      - easy.
      - intros t r N Gt. pose proof (l_thr _ _ _ _ _ _ _ _ _ _ LI t) as Q. rewrite Gt in Q. apply Q. }
    assert (GOUT : forall b o, confs A T = Some (SDo b o) -> G T = Out /\ P b = false \/
        exists c ll, G T = Fenced c ll b o /\ asks_sc o = true /\ P b = true).
    { intros b o Q. rewrite Q in *. destruct (G T) as [|c a1 o1|c ll a1 o1|r|r] eqn:GT; cbn in CT0; try easy.
      - rewrite BC in CT0. auto.
      - destruct CT0 as [[= <- <-] As]. right. exists c, ll. repeat split; auto.
        pose proof (l_thr _ _ _ _ _ _ _ _ _ _ LI T) as Q'. rewrite GT in Q'. apply Q'. }
    (* the access *)
    assert (ACC : forall c ll b o r ts w v, G T = Fenced c ll b o -> asks_sc o = true -> e = [] -> confs A' T = Some (s_finish o r) ->
      pending h T = Some (b, o) ->
      ts <= absC A' T b -> absC A T b <= ts -> (w = true -> absC A T b < ts) ->
      (forall a u, P a = true -> absM A' a u = if w && (a =? b) && (u =? ts) then Some v else absM A a u) ->
      (if w then absM A b ts = None else absM A b ts = Some v) -> absW A' = absW A ->
      result_ok ty (absM A) (mk_rec (mk_orec c T b o r) ll ts w v) ->
      exists its' G' log' E', MInv (h ++ e) A' its' G' log' E').
    { intros c ll b o r ts w v GT As -> EC PD L1 L2 L3 HM Hm EW HR. rewrite app_nil_r in *.
      set (rr := mk_rec (mk_orec c T b o r) ll ts w v). exists (its ++ [ISkip]), (updn G T (Accd rr)), (log ++ [rr]), E.
      constructor; [|rewrite flat_snoc, MP; apply app_nil_r| |exact B'].
      - rewrite EW. apply (step_acc ty vars P its G log E (absM A) (absW A) (absC A)); auto.
        apply NN. pose proof (l_thr _ _ _ _ _ _ _ _ _ _ LI T) as Q'. rewrite GT in Q'. apply Q'.
      - apply OC. cbn. rewrite EC. unfold s_finish. rewrite As. auto. }
    destruct K as [b o A' E1 Ob EW EV E2|r A' E1 EW EV E2|b o A' n v E1 E2 Pf|r A' n v E1 E2 Pf|b ord A' n v E1 E2 Pf|b k ord A' n v E1 E2 Pf|b r ord A' n v E1 E2 Pf|b k y su fa A' n v E1 E2 Pf|y A' n v E1 E2 Pf].
    - (* call *)
      assert (GT : G T = Out) by (rewrite E1 in CT0; destruct (G T); cbn in CT0; try easy; now destruct CT0).
      assert (HM : forall a ts, absM A' a ts = absM A a ts) by (intros a ts; unfold absM; now rewrite EW).
      destruct (P b) eqn:Pb.
      + destruct (OK T b o) as [As Np]; [apply in_or_app; right; now left|exact Pb|]. rewrite As, Np in E2.
        exists (its ++ [ICall T b o]), (updn G T (Called (length its) b o)), log, E.
        constructor; [|rewrite flat_snoc, MP, calls_on_app; cbn; now rewrite Pb|apply OC; exact E2|exact B'].
        apply (step_gen ty vars P its G log E (absM A) (absW A) (absC A) (ICall T b o) (Called (length its) b o) T E (absM A') (absW A') (absC A')
          (fun f => updn f T (Some (length its)))); auto.
        * intros f F Ft. constructor; [exact F|]. now rewrite Ft, GT.
        * intros f Ft t. destruct (Nat.eq_dec t T) as [->|N]; [now rewrite !updn_same|now rewrite !updn_other].
        * easy.
        * intros t r N Gt. pose proof (l_thr _ _ _ _ _ _ _ _ _ _ LI t) as Q. rewrite Gt in Q. apply Q.
      + apply SKIP; auto.
        * rewrite calls_on_app. cbn. rewrite Pb. apply app_nil_r.
        * cbn. rewrite pending_app. cbn. rewrite upd_same. exact Pb.
    - (* return *)
      assert (HM : forall a ts, absM A' a ts = absM A a ts) by (intros a ts; unfold absM; now rewrite EW).
      assert (PN : pending (h ++ [ERet T r]) T = None) by (rewrite pending_app; cbn; apply upd_same).
      destruct (G T) as [|c a1 o1|c ll a1 o1|r'|r'] eqn:GT; cbn in CT0; try rewrite E1 in CT0; try easy.
      + apply SKIP; auto.
        * rewrite calls_on_app. cbn. destruct (pending h T) as [[a o]|]; [|apply app_nil_r]. rewrite CT0. apply app_nil_r.
        * cbn. now rewrite PN.
      + destruct CT0 as [[= ->] PD]. pose proof (l_thr _ _ _ _ _ _ _ _ _ _ LI T) as Q'. rewrite GT in Q'. destruct Q' as (Hr & Et & ee & Ee).
        exists (its ++ [IRet T (rc r') (orr (r_o r'))]), (updn G T Out), log, E.
        constructor; [| |apply OC; cbn; now rewrite PN|exact B'].
        2:{ rewrite flat_snoc, MP, calls_on_app. cbn. rewrite PD. destruct (l_rec _ _ _ _ _ _ _ _ _ _ LI r' Hr) as (-> & _). reflexivity. }
        apply (step_gen ty vars P its G log E (absM A) (absW A) (absC A) (IRet T (rc r') (orr (r_o r'))) Out T E (absM A') (absW A') (absC A')
          (fun f => updn f T None)); auto.
        * intros f F Ft. constructor; [exact F|]. now rewrite Ft, GT.
        * intros f Ft t. destruct (Nat.eq_dec t T) as [->|N]; [now rewrite !updn_same|now rewrite !updn_other].
        * intros t c q [= <- <- <-]. exists r'. eauto 6.
        * intros t r N Gt. pose proof (l_thr _ _ _ _ _ _ _ _ _ _ LI t) as Q. rewrite Gt in Q. apply Q.
    - (* first fence *)
      cbn in Pf. injection Pf as _ PW PV.
      assert (HM : forall a ts, absM A' a ts = absM A a ts) by (intros a ts; unfold absM; now rewrite <- PW).
      rewrite app_nil_r in *. rewrite E1 in *.
      destruct (G T) as [|c a1 o1|c ll a1 o1|r'|r'] eqn:GT; cbn in CT0; try easy.
      + apply SKIP; auto.
      + injection CT0 as <- <-. pose proof (l_thr _ _ _ _ _ _ _ _ _ _ LI T) as Q'. rewrite GT in Q'. destruct Q' as (Pb & En & Lc & Nc).
        assert (As : asks_sc o = true). { apply (OK T b o); [apply (b_called _ _ MB); exact BC|exact Pb]. }
        exists (its ++ [ISkip]), (updn G T (Fenced c (length its) b o)), log, E.
        constructor; [|rewrite flat_snoc, MP; apply app_nil_r|apply OC; cbn; auto|exact B'].
        apply (step_gen ty vars P its G log E (absM A) (absW A) (absC A) ISkip (Fenced c (length its) b o) T E (absM A') (absW A') (absC A') (fun f => f)); auto.
        * intros f F _. now constructor.
        * intros f Ft t. rewrite Ft. destruct (Nat.eq_dec t T) as [->|N]; [now rewrite updn_same, GT|now rewrite updn_other].
        * easy.
        * intros t r N Gt. pose proof (l_thr _ _ _ _ _ _ _ _ _ _ LI t) as Q. rewrite Gt in Q. apply Q.
        * repeat split; auto. intros r ee Hr Ea Ee. destruct (l_end _ _ _ _ _ _ _ _ _ _ LI r ee Hr Ee) as (L1 & _).
          unfold absC. rewrite <- PV. cbn. unfold vjoin. rewrite Ea in L1. unfold absW in L1. lia.
    - (* last fence *)
      cbn in Pf. injection Pf as _ PW PV.
      assert (HM : forall a ts, absM A' a ts = absM A a ts) by (intros a ts; unfold absM; now rewrite <- PW).
      rewrite app_nil_r in *.
      destruct (G T) as [|c a1 o1|c ll a1 o1|r'|r'] eqn:GT; cbn in CT0; try rewrite E1 in CT0; try easy.
      + apply SKIP; auto.
      + destruct CT0 as [[= ->] PD]. pose proof (l_thr _ _ _ _ _ _ _ _ _ _ LI T) as Q'. rewrite GT in Q'. destruct Q' as (Hr & Et & Ee & L1).
        exists (its ++ [ISkip]), (updn G T (Ended r')), log, (updn E (rc r') (Some (length its))).
        constructor; [|rewrite flat_snoc, MP; apply app_nil_r|apply OC; cbn; auto|exact B'].
        apply (step_gen ty vars P its G log E (absM A) (absW A) (absC A) ISkip (Ended r') T (updn E (rc r') (Some (length its))) (absM A') (absW A') (absC A') (fun f => f)); auto.
        * intros f F _. now constructor.
        * intros f Ft t. rewrite Ft. destruct (Nat.eq_dec t T) as [->|N]; [now rewrite updn_same, GT|now rewrite updn_other].
        * intros c ee Ec. rewrite updn_other; [exact Ec|]. congruence.
        * intros c ee Ec. destruct (Nat.eq_dec c (rc r')) as [->|N].
          -- rewrite updn_same in Ec. injection Ec as <-. right. split; [reflexivity|]. exists r'. repeat split; auto.
             unfold absW. rewrite <- PW. cbn. unfold vjoin. unfold absC in L1. lia.
          -- rewrite updn_other in Ec by exact N. auto.
        * easy.
        * intros t r N Gt. pose proof (l_thr _ _ _ _ _ _ _ _ _ _ LI t) as Q. rewrite Gt in Q. destruct Q as (Hr2 & Et2 & Er & _).
          rewrite updn_other; [exact Er|]. intros Ec.
          destruct (l_rec _ _ _ _ _ _ _ _ _ _ LI r Hr2) as (_ & N1 & _). destruct (l_rec _ _ _ _ _ _ _ _ _ _ LI r' Hr) as (_ & N2 & _). rewrite Ec in N1. congruence.
        * repeat split; auto. exists (length its). apply updn_same.
    - (* load *)
      apply load_inv in Pf as (d & Ed & LT & -> & PW & PV). rewrite E1 in BC.
      assert (HM : forall a ts, absM A' a ts = absM A a ts) by (intros a ts; unfold absM; now rewrite PW).
      destruct (GOUT _ _ E1) as [[GT Pb]|(c & ll & GT & As & Pb)].
      + apply SKIP; auto; rewrite app_nil_r; [reflexivity|]. cbn. rewrite BC. exact Pb.
      + apply (ACC c ll b (OLoad ord) (RVal (mval d)) n false (mval d)); auto.
        * unfold absC. rewrite PV. cbn. rewrite vset_same by apply aloc_spec. lia.
        * easy.
        * intros a u _. cbn. apply HM.
        * unfold absM. now rewrite Ed.
        * unfold absW. now rewrite PW.
        * split; reflexivity.
    - (* store *)
      apply store_inv in Pf as (Ed & LT & PW & PV). rewrite E1 in BC.
      destruct (GOUT _ _ E1) as [[GT Pb]|(c & ll & GT & As & Pb)].
      + apply SKIP; auto; rewrite ?app_nil_r; [|reflexivity|cbn; rewrite BC; exact Pb].
        intros a ts Pa. unfold absM. rewrite PW. cbn. rewrite mset_loc; [reflexivity|apply aloc_spec|]. intros [= ->]. congruence.
      + apply (ACC c ll b (OStore k ord) RUnit n true k); auto.
        * unfold absC. rewrite PV. cbn. rewrite vset_same by apply aloc_spec. lia.
        * unfold absC. lia.
        * intros a u Pa. unfold absM. rewrite PW. cbn. unfold mset. cbn. destruct ((a =? b) && (u =? n)); reflexivity.
        * unfold absM. now rewrite Ed.
        * unfold absW. now rewrite PW.
        * repeat split.
    - (* rmw *)
      apply rmw_inv in Pf as (d & Ed & LT & -> & N1 & PW & PV). rewrite E1 in BC.
      destruct (GOUT _ _ E1) as [[GT Pb]|(c & ll & GT & As & Pb)].
      + apply SKIP; auto; rewrite ?app_nil_r; [|reflexivity|cbn; rewrite BC; exact Pb].
        intros a ts Pa. unfold absM. rewrite PW. cbn. rewrite mset_loc; [reflexivity|apply aloc_spec|]. intros [= ->]. congruence.
      + apply (ACC c ll b (ORmw r ord) (RVal (mval d)) (n + 1) true (spec_rmw (ty b) r (mval d))); auto.
        * unfold absC. rewrite PV. cbn. rewrite vset_same by apply aloc_spec. lia.
        * unfold absC. lia.
        * unfold absC. lia.
        * intros a u Pa. unfold absM. rewrite PW. cbn. unfold mset. cbn. destruct ((a =? b) && (u =? n + 1)); reflexivity.
        * unfold absM. now rewrite N1.
        * unfold absW. now rewrite PW.
        * split; [reflexivity|]. exists (mval d). cbn. repeat split. unfold absM. replace (n + 1 - 1) with n by lia. now rewrite Ed.
    - (* compare_exchange *)
      apply rmw_inv in Pf as (d & Ed & LT & -> & Pf). rewrite E1 in BC.
      destruct (Z.eqb_spec (mval d) k) as [Ek|Nk].
      + destruct Pf as (N1 & PW & PV).
        destruct (GOUT _ _ E1) as [[GT Pb]|(c & ll & GT & As & Pb)].
        * apply SKIP; auto; rewrite ?app_nil_r; [|reflexivity|cbn; rewrite BC; exact Pb].
          intros a ts Pa. unfold absM. rewrite PW. cbn. rewrite mset_loc; [reflexivity|apply aloc_spec|]. intros [= ->]. congruence.
        * apply (ACC c ll b (OCas k y su fa) (ROk (mval d)) (n + 1) true y); auto.
          -- unfold absC. rewrite PV. cbn. rewrite vset_same by apply aloc_spec. lia.
          -- unfold absC. lia.
          -- unfold absC. lia.
          -- intros a u Pa. unfold absM. rewrite PW. cbn. unfold mset. cbn. destruct ((a =? b) && (u =? n + 1)); reflexivity.
          -- unfold absM. now rewrite N1.
          -- unfold absW. now rewrite PW.
          -- left. cbn. rewrite Ek. repeat split. unfold absM. replace (n + 1 - 1) with n by lia. rewrite Ed. cbn. now rewrite Ek.
      + destruct Pf as (PW & PV).
        assert (HM : forall a ts, absM A' a ts = absM A a ts) by (intros a ts; unfold absM; now rewrite PW).
        destruct (GOUT _ _ E1) as [[GT Pb]|(c & ll & GT & As & Pb)].
        * apply SKIP; auto; rewrite ?app_nil_r; [reflexivity|cbn; rewrite BC; exact Pb].
        * apply (ACC c ll b (OCas k y su fa) (RErr (mval d)) n false (mval d)); auto.
          -- unfold absC. rewrite PV. cbn. rewrite vset_same by apply aloc_spec. lia.
          -- easy.
          -- intros a u _. cbn. apply HM.
          -- unfold absM. now rewrite Ed.
          -- unfold absW. now rewrite PW.
          -- right. cbn. auto.
    - (* own *)
      assert (GT : G T = Out) by (rewrite E1 in CT0; destruct (G T); cbn in CT0; try easy; now destruct CT0).
      apply SKIP; auto.
      + intros a ts Pa. unfold absM. now rewrite (own_mem _ _ _ _ _ _ _ _ Pf).
      + rewrite calls_on_app. cbn. apply app_nil_r.
      + cbn. rewrite pending_app. cbn. rewrite E1 in BC. now rewrite BC.
  Qed.

  Lemma in_part h : forall f t a o, In (Call t a o) (part P f h) -> In (ECall t a o) h /\ P a = true.
  Proof.
    induction h as [|e h IH]; intros f t a o H; [easy|]. cbn in H. apply in_app_or in H as [H|H].
    - unfold piece in H. destruct e as [t' a' o'|t' r|t' i v]; cbn in H; [|destruct (f t') as [[? ?]|]; [destruct (P z)|]|]; try easy.
      + destruct (P a') eqn:E; [|easy]. destruct H as [[= -> -> ->]|[]]. split; [now left|exact E].
      + now destruct H.
    - destruct (IH _ _ _ _ H). split; [now right|auto].
  Qed.
  Lemma in_items t a o : forall its : list (item op res), In (ICall t a o) its -> In (Call t a o) (flat_map ev_of its).
  Proof. intros its H. apply in_flat_map. exists (ICall t a o). split; [exact H|now left]. Qed.
  Lemma no_panic_spec ty0 o x : panics o = false -> snd (spec_op ty0 o x) <> RPanic.
  Proof. unfold panics, spec_op. destruct o as [[]|v []|r o|k y su []]; cbn; try easy; destruct (x =? k); easy. Qed.
  Lemma lin_mono (sm1 sm2 : Z -> op -> Z -> Z * res -> Prop) init h : (forall a o x out, sm1 a o x out -> sm2 a o x out) ->
    linearizable sm1 init h -> linearizable sm2 init h.
  Proof.
    intros Hs [s St]. exists s. induction St as [|s h s' e s'' St IH X]; [now constructor|].
    apply as_snoc with s'; [exact IH|]. destruct X as [? ? ? ? ? H1 H2 H3|? ? ? ? ? ? ? H1 H2 H3 H4|? ? ? ? H1 H2 H3].
    - now constructor.
    - eapply a_take_effect; eauto.
    - now constructor.
  Qed.

  Theorem sc_linearizable ls A h : arun (s_init vars own) ls = Some (A, h) ->
    (forall a, P a = true -> objs a <> None) -> (forall a t, objs a = Some t -> ty a = t) -> only_sc h ->
    linearizable (fun a o x out => exists t, objs a = Some t /\ out = spec_op t o x) vars (calls_on P h).
  Proof.
    intros R Po To Sc.
    assert (I : only_sc h -> exists its G log E, MInv h A its G log E).
    { apply (inv_run ty objs (fun h A => only_sc h -> exists its G log E, MInv h A its G log E)) with (h := []) (A := s_init vars own) (ls := ls); auto.
      - intros h1 A1 l A2 e IH S OK.
        destruct IH as (its & G & log & E & M). { intros t a o H Pa. apply (OK t a o); [apply in_or_app; now left|exact Pa]. }
        eapply minv_step; eauto.
      - intros _. exists [], (fun _ => Out), [], (fun _ => None). apply minv_init. }
    destruct (I Sc) as (its & G & log & E & [LI MP _ _]). rewrite <- MP.
    eapply lin_mono; [|refine (log_linearizable _ _ _ _ _ _ _ _ _ _ LI objs Po _ To)].
    - intros a o x out (t & H1 & _ & H2). eauto.
    - intros n t a o x En. apply no_panic_spec. apply nth_error_In, in_items in En. rewrite MP in En. apply in_part in En as [H Pa]. now apply (Sc t a o).
  Qed.
End Main.
