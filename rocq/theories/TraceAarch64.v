(** * Every backend meets the requested orderings (proofs for C31) *)
From Coq Require Import ZArith List Bool Lia.
From Verif Require Import Words Spec WideSpec LoopModel AsmModel BlockModel OrderingModel
  TraceSpec TraceModel TraceFacts TraceCheck TraceBackends TraceUnit.
From Verif Require PowerModel PowerProofs S390xModel Aarch64Model X86Model ZacasModel KuserModel.
Import ListNotations.

Module Aarch64P.
  Import Aarch64Model.
  Local Notation conf := (bconf instr jump minstr st res).
  Definition chk := uchk Aarch64.ann_i Aarch64.ann_m false (I := instr) (J := jump) (M := minstr).
  (** the function returns a block that meets [ord], or does not exist *)
  Definition good (ord : ordering) (f : option conf) : Prop :=
    match f with None => True | Some c => bpos c = 0%nat /\ chk (bprog c) (meets Mixed ord) = true end.
  Ltac hw h := destruct h as [? [] ? ? [] []]; cbn [ldp ldxp h_lse2 h_xp_single h_up_first length app map].
  Ltac go := (split; [reflexivity|vm_compute; reflexivity]).
  Lemma load_ldiapp_ok g t ord s : good ord (load_ldiapp g t ord s).
  Proof. destruct ord; try exact Logic.I; go. Qed.
  Lemma load_ldp_ok g h t ord s : good ord (load_ldp g h t ord s).
  Proof.
    unfold load_ldp. destruct ord; try exact Logic.I; try (destruct (c_rcpc3 g); [apply load_ldiapp_ok|]); hw h; go.
  Qed.
  Lemma load_casp_ok g t ord s : good ord (load_casp g t ord s).
  Proof. destruct ord; try exact Logic.I; go. Qed.
  Lemma load_ldxp_stxp_ok g h t ord s : good ord (load_ldxp_stxp g h t ord s).
  Proof. unfold load_ldxp_stxp. destruct ord; try exact Logic.I; hw h; go. Qed.
  Lemma load_ok g h t ord s : good ord (atomic_load g h t ord s).
  Proof.
    assert (N : good ord (load_no_lse2 g h t ord s)).
    { unfold load_no_lse2. destruct (c_lse g); [apply load_casp_ok|apply load_ldxp_stxp_ok]. }
    unfold atomic_load. destruct (c_lse2 g); [apply load_ldp_ok|]. destruct (det_lse2 g); [|exact N].
    destruct ord; try exact Logic.I; (destruct (d_lse2 g); [|exact N]); try apply load_ldp_ok;
      (destruct (_ && _); [apply load_ldiapp_ok|apply load_ldp_ok]).
  Qed.
  Lemma swap_swpp_ok g t v u ord s : good ord (swap_swpp g t v u ord s).
  Proof. unfold swap_swpp, rmw_sfx. destruct (msvc g), ord; go. Qed.
  Lemma swap_casp_ok g h t v u ord s : good ord (swap_casp g h t v u ord s).
  Proof. unfold swap_casp, rmw_sfx. hw h; (destruct (msvc g), ord; go). Qed.
  Lemma swap_ldxp_ok g h t v u ord s : good ord (swap_ldxp_stxp g h t v u ord s).
  Proof. unfold swap_ldxp_stxp, rmw_sfx. hw h; (destruct (msvc g), ord; go). Qed.
  Lemma swap_ok g h t v ord s : good ord (atomic_swap g h t v ord s).
  Proof.
    unfold atomic_swap. destruct (c_lse128 g); [apply swap_swpp_ok|].
    destruct (_ && _); [apply swap_casp_ok|apply swap_ldxp_ok].
  Qed.
  Lemma store_stilp_ok g v ord s : good ord (store_stilp g v ord s).
  Proof. destruct ord; try exact Logic.I; go. Qed.
  Lemma store_stp_ok g t v ord s : good ord (store_stp g t v ord s).
  Proof.
    unfold store_stp. destruct ord; try exact Logic.I; [go| |].
    - destruct (c_rcpc3 g); [apply store_stilp_ok|]. destruct (c_lse128 g); [apply swap_swpp_ok|go].
    - destruct (c_lse128 g); [apply swap_swpp_ok|]. destruct (c_rcpc3 g); [apply store_stilp_ok|go].
  Qed.
  Lemma store_ldxp_ok g h v ord s : good ord (store_ldxp_stxp g h v ord s).
  Proof. unfold store_ldxp_stxp, rmw_sfx. hw h; (destruct (msvc g), ord; go). Qed.
  Lemma store_ok g h t v ord s : good ord (atomic_store g h t v ord s).
  Proof.
    assert (N : good ord (store_no_lse2 g h t v ord s)).
    { unfold store_no_lse2. destruct (_ && _); [apply swap_casp_ok|apply store_ldxp_ok]. }
    unfold atomic_store. destruct (c_lse2 g); [apply store_stp_ok|]. destruct (det_lse2 g); [|exact N].
    destruct ord; try exact Logic.I; (destruct (d_lse2 g); [|exact N]); try apply store_stp_ok;
      repeat first [apply store_stp_ok | apply store_stilp_ok | apply swap_swpp_ok |
                    match goal with |- good _ (if ?b then _ else _) => destruct b end].
  Qed.
  Lemma cas_casp_ok g t old new sc fl s : good (upgrade_success_ordering sc fl) (cas_casp g t old new sc fl s).
  Proof. unfold cas_casp, rmw_sfx. destruct (msvc g), (upgrade_success_ordering sc fl), sc; go. Qed.
  Lemma cas_ldxp_ok g h t old new sc fl s : good (upgrade_success_ordering sc fl) (cas_ldxp_stxp g h t old new sc fl s).
  Proof.
    unfold cas_ldxp_stxp, rmw_sfx. hw h; (destruct (msvc g), (upgrade_success_ordering sc fl), sc; go).
  Qed.
  (** in SeqCst blocks the acquire and release suffixes are those of AcqRel *)
  Lemma casp_sc g t old new s : good SeqCst (cas_casp g t old new AcqRel Acquire s).
  Proof. go. Qed.
  Lemma ldxp_sc g h t old new s : good SeqCst (cas_ldxp_stxp g h t old new AcqRel Acquire s).
  Proof. unfold cas_ldxp_stxp, rmw_sfx. cbn [upgrade_success_ordering]. hw h; go. Qed.
  Lemma cas_ok g h t old new sc fl s : good (upgrade_success_ordering sc fl) (atomic_compare_exchange g h t old new sc fl s).
  Proof.
    unfold atomic_compare_exchange. destruct (c_lse g); [apply cas_casp_ok|]. destruct (det_lse g); [|apply cas_ldxp_ok].
    pose proof (fun a b => cas_casp_ok g t old new a b s) as K1. pose proof (fun a b => cas_ldxp_ok g h t old new a b s) as K2.
    destruct (upgrade_success_ordering sc fl).
    - destruct (d_lse g); [apply (K1 Relaxed Relaxed)|apply (K2 Relaxed Relaxed)].
    - destruct (d_lse g); [apply (K1 Release Relaxed)|apply (K2 Release Relaxed)].
    - destruct (d_lse g); [apply (K1 Acquire Acquire)|apply (K2 Acquire Acquire)].
    - destruct (d_lse g); [apply (K1 AcqRel Acquire)|apply (K2 AcqRel Acquire)].
    - destruct (d_lse g); [apply casp_sc|]. destruct (msvc g); [apply (K2 SeqCst SeqCst)|apply ldxp_sc].
  Qed.
  Lemma rmw_loop_ok g h t r ord s : good ord (rmw_loop g h t r ord s).
  Proof.
    unfold rmw_loop. destruct (_ && _).
    - destruct (body_cas g t r) as [p|] eqn:Eb; [|exact Logic.I]. unfold rmw_casp, rmw_sfx.
      destruct r; cbn [body_cas] in Eb; try discriminate Eb; unfold maxmin_cas, le_or_be in Eb;
        try destruct (be g); try destruct (isigned t); injection Eb as <-;
        hw h; (destruct (msvc g), ord; go).
    - destruct (body_ll g t r) as [p|] eqn:Eb; [|exact Logic.I]. unfold rmw_ll_sc, rmw_sfx.
      destruct r; cbn [body_ll] in Eb; try discriminate Eb; unfold maxmin_ll, le_or_be in Eb;
        try destruct (be g); try destruct (isigned t); injection Eb as <-;
        hw h; (destruct (msvc g), ord; go).
  Qed.
  Lemma and_ok g t v ord s : good ord (and_ldclrp g t v ord s).
  Proof. unfold and_ldclrp, rmw_sfx. destruct (msvc g), ord; go. Qed.
  Lemma or_ok g t v ord s : good ord (or_ldsetp g t v ord s).
  Proof. unfold or_ldsetp, rmw_sfx. destruct (msvc g), ord; go. Qed.
  Lemma rmw_ok g h t r ord s : good ord (atomic_rmw g h t r ord s).
  Proof.
    unfold atomic_rmw. destruct r; try apply rmw_loop_ok; [apply swap_ok| |].
    - destruct (c_lse128 g); [apply and_ok|apply rmw_loop_ok].
    - destruct (c_lse128 g); [apply or_ok|apply rmw_loop_ok].
  Qed.
  Lemma upgrade_no_weaker sc fl : match fl with Release | AcqRel => false | _ => true end = true ->
    no_weaker (upgrade_success_ordering sc fl) sc = true /\ no_weaker (upgrade_success_ordering sc fl) fl = true.
  Proof. destruct sc, fl; intros Q; try discriminate Q; split; reflexivity. Qed.
  Lemma aarch64_meets g h ty junk o tr r : Aarch64.does g h ty junk o tr r -> meets Mixed (asked o r) (summary false tr) = true.
  Proof.
    intros (a & c & E & D). unfold code_of in E. set (t := ty a) in *.
    destruct (negb _) eqn:N; [discriminate E|]. apply negb_false_iff in N.
    apply andb_true_iff in N. destruct N as [N _]. apply andb_true_iff in N. destruct N as [N _].
    apply andb_true_iff in N. destruct N as [_ N].
    assert (F : forall ord f, good ord f -> f = Some c -> meets Mixed ord (summary false tr) = true).
    { intros ord f K ->. destruct K as [H0 K].
      eapply (uchk_sound exec1 test (access (be g) h) Aarch64.ann_i Aarch64.ann_m false); [|exact K|reflexivity|exact H0|exact D].
      intros [] s; unfold access; try exact Logic.I; match goal with |- match (if ?b then _ else _) with _ => _ end => destruct b end; exact Logic.I. }
    destruct o as [[ord|v ord|q ord|cu nw sc fl]|cu nw sc fl].
    - eapply F; [apply load_ok|exact E].
    - eapply F; [apply store_ok|exact E].
    - eapply F; [apply rmw_ok|exact E].
    - cbn [callable] in N. apply andb_true_iff in N. destruct N as [_ N]. destruct (upgrade_no_weaker sc fl N) as [N1 N2].
      pose proof (F _ _ (cas_ok g h t (to_bits t cu) (to_bits t nw) sc fl _) E) as Q.
      cbn [asked]. destruct r; eapply meets_mono; eauto.
    - cbn [callable] in N. apply andb_true_iff in N. destruct N as [_ N]. destruct (upgrade_no_weaker sc fl N) as [N1 N2].
      pose proof (F _ _ (cas_ok g h t (to_bits t cu) (to_bits t nw) sc fl _) E) as Q.
      cbn [asked]. destruct r; eapply meets_mono; eauto.
  Qed.
End Aarch64P.
