(** aarch64: every function of aarch64.rs refines one of the abstract implementations. *)
From Coq Require Import ZArith List Bool Lia ZifyBool PeanoNat.
From Verif Require Import Words Spec WideSpec WordsFacts Halves LoopModel LoopProofs AsmModel AsmProofs
  BlockModel BlockProofs AtomicImpls AtomicImplsProofs AsmMain OrderingModel Aarch64Model Aarch64Proofs Aarch64Blocks.
Import ListNotations.
Open Scope Z_scope.

Lemma ret_put g t lo hi v s : lo <> Xzr -> hi <> Xzr -> lo <> hi -> is_u128 v -> ret g t lo hi (put (be g) lo hi v s) = fin_val t v.
Proof.
  intros A B N U. unfold ret, fin_val. f_equal. f_equal. apply pair_lo; auto. { now apply put_lo. } apply put_hi.
Qed.
Lemma pair_put b lo hi v s : lo <> Xzr -> hi <> Xzr -> lo <> hi -> is_u128 v -> pair b lo hi (put b lo hi v s) = v.
Proof. intros A B N U. apply pair_lo; auto. { now apply put_lo. } apply put_hi. Qed.
Lemma rd_put b lo hi v s q : q <> lo -> q <> hi -> rd (put b lo hi v s) q = rd s q.
Proof. intros A B. unfold rd. destruct q; try reflexivity; now apply put_other. Qed.

Section Arm.
  Variables (g : target) (h : hw) (ty : Z -> ity) (junk : Z -> wop -> st).
  Hypothesis SO : sound g h.
  Local Notation nx := (bnext exec1 test (access (be g) h)).
  Local Notation width := (fun a => ibits (ty a)).
  Local Notation BIm := (map (@BI instr jump minstr)).
  Local Notation XK := (xk h).
  Local Notation XRS := (xrs g h).
  Local Notation PK := (pk h).
  Local Notation PRS := (prs g h).

  Section One.
    Variables (a : Z) (o : wop).
    Let t := ty a.
    Hypothesis W : ibits t = 128.
    Lemma inr_u128 x : LoopProofs.inr width a x <-> is_u128 x.
    Proof. unfold LoopProofs.inr, is_u128. fold t. now rewrite W. Qed.
    Local Notation ref c i := (exists k, c = Some k /\ refines (Op := wop) nx width a o k i).

    (** *** loads *)
    (** one read, preceded by [pre] and followed by [post] *)
    Lemma read_refines m p post s :
      (forall x, is_u128 x -> bexec exec1 post (put (be g) PrevLo PrevHi x s) = put (be g) PrevLo PrevHi x s) ->
      access (be g) h m s = ARead a 128 0 (fun v => put (be g) PrevLo PrevHi v s) ->
      forall pre, p = pre ++ [BM m] ++ BIm post ->
      refines (Op := wop) nx width a o (mk_bconf p (length pre) s (ret g t PrevLo PrevHi)) (d_load t).
    Proof.
      intros HP HA pre ->. eapply (single_read_refines _ _ _ _ _ _ _ _ (ls_refl _ _)).
      - unfold bnext. cbn [bprog bpos bst bret]. rewrite (nth_at pre (BM m) (BIm post)) by reflexivity.
        rewrite HA. cbv beta. fold t. rewrite W. reflexivity.
      - intros sp x Hx. apply inr_u128 in Hx. split; [reflexivity|]. cbn [snd].
        unfold bgoto. cbn [bprog bpos bst bret].
        eexists. split.
        + apply (rb g h (pre ++ [BM m]) post []).
          * rewrite app_length. cbn. lia.
          * reflexivity.
          * rewrite app_nil_r, <- app_assoc. reflexivity.
        + rewrite HP by exact Hx. unfold bnext. cbn [bprog bpos bst bret].
          rewrite (proj2 (nth_error_None _ _)) by (rewrite !app_length, map_length; cbn [length]; lia).
          now rewrite ret_put.
    Qed.
    Lemma ldar_first p s i : rd s Dst = a ->
      (forall v, refines (Op := wop) nx width a o (mk_bconf (BM (LDAR TmpLo Dst) :: p) 1 (set1 s TmpLo v) (ret g t PrevLo PrevHi)) i) ->
      refines (Op := wop) nx width a o (mk_bconf (BM (LDAR TmpLo Dst) :: p) 0 s (ret g t PrevLo PrevHi)) i.
    Proof.
      intros D H. eapply (stutter_refines _ _ _ _ _ _ _ 64 _ _ _ (ls_refl _ _)).
      - unfold bnext. cbn [bprog bpos bst bret nth_error access]. reflexivity.
      - lia.
      - intros v Hv. exact (H v).
    Qed.
    Lemma acc_ldp s : h_lse2 h = true -> rd s Dst = a ->
      access (be g) h (LDP PrevLo PrevHi Dst) s = ARead a 128 0 (fun v => put (be g) PrevLo PrevHi v s).
    Proof. intros H D. cbn [access]. now rewrite H, D. Qed.
    Lemma acc_ldiapp s : h_lse2 h = true -> h_rcpc3 h = true -> rd s Dst = a ->
      access (be g) h (LDIAPP PrevLo PrevHi Dst) s = ARead a 128 0 (fun v => put (be g) PrevLo PrevHi v s).
    Proof. intros H R D. cbn [access]. now rewrite H, R, D. Qed.
    Lemma rd_tmp s v : rd (set1 s TmpLo v) Dst = rd s Dst.
    Proof. reflexivity. Qed.
    Lemma ldiapp_ref ord s : h_lse2 h = true -> h_rcpc3 h = true -> rd s Dst = a -> ord = Acquire \/ ord = SeqCst ->
      ref (load_ldiapp g t ord s) (d_load t).
    Proof.
      intros H2 HR D [-> | ->]; eexists; (split; [reflexivity|]).
      - exact (read_refines _ _ [] s (fun _ _ => eq_refl) (acc_ldiapp s H2 HR D) [] eq_refl).
      - apply ldar_first; [exact D|]. intros v.
        exact (read_refines _ _ [] _ (fun _ _ => eq_refl) (acc_ldiapp (set1 s TmpLo v) H2 HR D) [BM (LDAR TmpLo Dst)] eq_refl).
    Qed.
    Lemma ldp_ref ord s : h_lse2 h = true -> (c_rcpc3 g = true -> h_rcpc3 h = true) -> rd s Dst = a ->
      match ord with Release | AcqRel => false | _ => true end = true ->
      ref (load_ldp g h t ord s) (d_load t).
    Proof.
      intros H2 HR D HO. assert (EL : ldp h PrevLo PrevHi = [BM (LDP PrevLo PrevHi Dst)]) by (unfold ldp; now rewrite H2).
      destruct ord; try discriminate; unfold load_ldp; rewrite ?EL.
      - eexists. split; [reflexivity|].
        exact (read_refines _ _ [] s (fun _ _ => eq_refl) (acc_ldp s H2 D) [] eq_refl).
      - destruct (c_rcpc3 g) eqn:R; [now apply ldiapp_ref; auto|].
        eexists. split; [reflexivity|].
        exact (read_refines _ _ [DMB Ishld] s (fun _ _ => eq_refl) (acc_ldp s H2 D) [] eq_refl).
      - destruct (c_rcpc3 g) eqn:R; [now apply ldiapp_ref; auto|].
        eexists. split; [reflexivity|]. apply ldar_first; [exact D|]. intros v.
        exact (read_refines _ _ [DMB Ishld] _ (fun _ _ => eq_refl) (acc_ldp (set1 s TmpLo v) H2 D) [BM (LDAR TmpLo Dst)] eq_refl).
    Qed.
    Lemma load_casp_ref ord s : h_lse h = true -> rd s Dst = a ->
      match ord with Release | AcqRel => false | _ => true end = true ->
      ref (load_casp g t ord s) (d_load_cas t).
    Proof.
      intros HL D HO. unfold load_casp. destruct (load_sfx ord) as [[acq rel]|] eqn:E; [|destruct ord; discriminate].
      eexists. split; [reflexivity|]. set (s1 := set1 (set1 s X2 0) X3 0).
      assert (D1 : rd s1 Dst = a) by exact D.
      assert (P1 : pair (be g) X2 X3 s1 = 0) by (unfold pair; destruct (be g); reflexivity).
      eapply (single_refines _ _ _ _ _ _ _ _ _ (ls_refl _ _)).
      - unfold bnext. cbn [bprog bpos bst bret nth_error access]. rewrite HL, D1, P1. reflexivity.
      - intros sp x Hx. apply inr_u128 in Hx. cbn [fst snd]. split; [reflexivity|]. split.
        + intros y. destruct (x =? 0); [|discriminate]. intros E0. injection E0 as <-. apply inr_u128. unfold is_u128; lia.
        + eexists. split; [constructor|]. unfold bnext, bgoto. cbn [bprog bpos bst bret nth_error Nat.add fst].
          rewrite ret_put; auto; discriminate.
    Qed.
    Lemma load_ll_ref ord s : rd s Dst = a -> match ord with Release | AcqRel => false | _ => true end = true ->
      ref (load_ldxp_stxp g h t ord s) (l_load t XK XRS).
    Proof.
      intros D HO. unfold load_ldxp_stxp. destruct (load_sfx ord) as [[acq rel]|] eqn:E; [|destruct ord; discriminate].
      eexists. split; [reflexivity|].
      apply (ll_refines g h ty a o W acq rel PrevLo PrevHi Rr PrevLo PrevHi [] [] s (ret g t PrevLo PrevHi) (fun x => x)
        (fin_val t) (fin_val t) (fun s => rd s Dst = a)); try discriminate; auto.
      - intros s1; reflexivity.
      - intros s1 q v [-> | ->]; auto.
      - intros s1 x F U E1 E2. cbn [bexec]. assert (PP : pair (be g) PrevLo PrevHi s1 = x) by (apply pair_lo; auto; discriminate).
        split; [exact PP|]. split; [exact F|]. split; [intros; exact F|].
        unfold ret, fin_val. f_equal. f_equal. exact PP.
    Qed.
    Lemma load_no_lse2_ref ord s : rd s Dst = a -> match ord with Release | AcqRel => false | _ => true end = true ->
      ref (load_no_lse2 g h t ord s) (if c_lse g then d_load_cas t else l_load t XK XRS).
    Proof.
      intros D HO. unfold load_no_lse2. destruct (c_lse g) eqn:E; [|now apply load_ll_ref].
      apply load_casp_ref; auto. destruct SO as (R & _); auto.
    Qed.
    Definition lse2_path : bool := c_lse2 g || (det_lse2 g && d_lse2 g).
    Lemma lse2_path_ok : lse2_path = true -> h_lse2 h = true.
    Proof.
      destruct SO as (_ & A & _ & _ & _ & B & _). unfold lse2_path. intros E. apply orb_true_iff in E as [E|E]; auto.
      apply andb_true_iff in E as [_ E]. auto.
    Qed.
    Lemma load_ref ord s : rd s Dst = a -> match ord with Release | AcqRel => false | _ => true end = true ->
      ref (atomic_load g h t ord s) (if lse2_path then d_load t else if c_lse g then d_load_cas t else l_load t XK XRS).
    Proof.
      intros D HO. pose proof lse2_path_ok as LP. destruct SO as (_ & _ & _ & R3 & _ & _ & _ & R4).
      pose proof (load_no_lse2_ref ord s D HO) as NL.
      unfold atomic_load. unfold lse2_path in *. destruct (c_lse2 g); cbn [orb] in *; [apply ldp_ref; auto|].
      destruct (det_lse2 g); cbn [andb] in *; [|exact NL].
      destruct (d_lse2 g).
      - specialize (LP eq_refl). pose proof (ldp_ref ord s LP R3 D HO) as L.
        destruct ord; try discriminate; [exact L| |];
          (destruct (negb (c_rcpc3 g) && d_rcpc3 g) eqn:E; [|exact L];
           apply andb_true_iff in E as [_ E]; apply ldiapp_ref; auto).
      - destruct ord; try discriminate; exact NL.
    Qed.

    (** *** one atomic write *)
    Lemma write_refines rt m p post s f :
      (forall s, bexec exec1 post s = s) ->
      (exists G kont, access (be g) h m s = AAtomic a G kont /\
        forall sp x, is_u128 x -> fst (G sp x) = fst (f sp x) /\ (forall y, fst (G sp x) = Some y -> is_u128 y) /\
           rt (kont (snd (G sp x))) = snd (f sp x)) ->
      forall pre, (forall s, bexec exec1 pre s = s) -> p = BIm pre ++ [BM m] ++ BIm post ->
      refines (Op := wop) nx width a o (mk_bconf p 0 s rt) (Direct f).
    Proof.
      intros HP (G & kont & HA & HG) pre HPre ->.
      assert (L : lstar nx (mk_bconf (BIm pre ++ [BM m] ++ BIm post) 0 s rt) (mk_bconf (BIm pre ++ [BM m] ++ BIm post) (length pre) s rt)).
      { pose proof (rb g h [] pre ([BM m] ++ BIm post) s rt 0 (length pre) _ eq_refl eq_refl eq_refl) as L.
        rewrite HPre in L. exact L. }
      eapply (single_refines _ _ _ _ _ _ _ _ _ L).
      - unfold bnext. cbn [bprog bpos bst bret].
        rewrite (nth_at (BIm pre) (BM m) (BIm post)) by (rewrite ?map_length; reflexivity).
        rewrite HA. cbv beta. reflexivity.
      - intros sp x Hx. apply inr_u128 in Hx. destruct (HG sp x Hx) as (E1 & E2 & E3). split; [exact E1|].
        split; [intros y Hy; apply inr_u128; eauto|].
        unfold bgoto. cbn [bprog bpos bst bret]. eexists. split.
        + apply (rb g h (BIm pre ++ [BM m]) post []).
          * rewrite app_length, map_length. cbn. lia.
          * reflexivity.
          * rewrite app_nil_r, <- app_assoc. reflexivity.
        + rewrite HP. unfold bnext. cbn [bprog bpos bst bret].
          rewrite (proj2 (nth_error_None _ _)) by (rewrite !app_length, !map_length; cbn [length]; lia).
          now rewrite E3.
    Qed.
    Lemma dst_put lo hi v s : lo <> Dst -> hi <> Dst -> rd s Dst = a -> rd (put (be g) lo hi v s) Dst = a.
    Proof. intros A B D. rewrite rd_put by congruence. exact D. Qed.

    (** *** stores *)
    Variables (v : Z).
    Hypothesis V : in_range t v.
    Let vb := to_bits t v.
    Lemma vb_u : is_u128 vb.
    Proof. apply to_bits_u128. exact W. Qed.
    Lemma stp_ref acq rel s : h_lse2 h = true -> rd s Dst = a -> fences acq -> fences rel ->
      refines (Op := wop) nx width a o
        (mk_bconf (BIm rel ++ [BM (STP ValLo ValHi Dst)] ++ BIm acq) 0 (put (be g) ValLo ValHi vb s) (fun _ => RUnit)) (d_store t v).
    Proof.
      intros H2 D FA FR. pose proof vb_u.
      eapply write_refines with (post := acq) (pre := rel); [exact FA| |exact FR|reflexivity].
      do 2 eexists. split.
      - cbn [access]. rewrite H2, (dst_put ValLo ValHi), pair_put by (auto; discriminate). reflexivity.
      - intros sp x Hx. cbn [fst snd]. split; [reflexivity|]. split; [|reflexivity]. intros y E. now injection E as <-.
    Qed.
    Lemma stilp_ref ord s : h_lse2 h = true -> h_rcpc3 h = true -> rd s Dst = a -> ord = Release \/ ord = SeqCst ->
      ref (store_stilp g vb ord s) (d_store t v).
    Proof.
      intros H2 HR D HO. pose proof vb_u.
      assert (X : forall post, fences post -> refines (Op := wop) nx width a o
        (mk_bconf ([BM (STILP ValLo ValHi Dst)] ++ BIm post) 0 (put (be g) ValLo ValHi vb s) (fun _ => RUnit)) (d_store t v)).
      { intros post FP. eapply write_refines with (post := post) (pre := []); [exact FP| |intros s1; reflexivity|reflexivity].
        do 2 eexists. split.
        - cbn [access]. rewrite H2, HR, (dst_put ValLo ValHi), pair_put by (auto; discriminate). reflexivity.
        - intros sp x Hx. cbn [fst snd]. split; [reflexivity|]. split; [|reflexivity]. intros y E. now injection E as <-. }
      destruct HO as [-> | ->]; eexists; (split; [reflexivity|]).
      - apply (X []). intros s1; reflexivity.
      - apply (X [DMB Ish]). intros s1; reflexivity.
    Qed.
    Lemma swpp_ref (u : bool) ord s : h_lse128 h = true -> rd s Dst = a ->
      ref (swap_swpp g t vb u ord s) (if u then d_store t v else d_rmw t (Swap v)).
    Proof.
      intros HL D. pose proof vb_u. unfold swap_swpp. destruct (rmw_sfx g ord ord) as [[acq rel] fn].
      eexists. split; [reflexivity|].
      assert (X : forall rt f, (forall sp x, is_u128 x -> fst (f sp x) = Some vb /\
           rt (put (be g) ValLo ValHi x (put (be g) ValLo ValHi vb s)) = snd (f sp x)) ->
        refines (Op := wop) nx width a o (mk_bconf [BM (SWPP acq rel ValLo ValHi Dst)] 0 (put (be g) ValLo ValHi vb s) rt) (Direct f)).
      { intros rt f HF. eapply write_refines with (post := []) (pre := []); [intros s1; reflexivity| |intros s1; reflexivity|reflexivity].
        do 2 eexists. split.
        - cbn [access]. rewrite HL, (dst_put ValLo ValHi), pair_put by (auto; discriminate). reflexivity.
        - intros sp x Hx. cbn [fst snd]. destruct (HF sp x Hx) as [E1 E2]. split; [congruence|]. split; [|exact E2].
          intros y E. now injection E as <-. }
      destruct u; apply X; intros sp x Hx; cbn [fst snd]; (split; [|]).
      - reflexivity.
      - reflexivity.
      - unfold next_bits, vb. cbn [spec_rmw]. reflexivity.
      - apply ret_put; auto; discriminate.
    Qed.
    Lemma swap_casp_ref (u : bool) ord s : h_lse h = true -> rd s Dst = a ->
      ref (swap_casp g h t vb u ord s) (if u then c_store t PK PRS false v else c_rmw t PK PRS false (Swap v)).
    Proof.
      intros HL D. pose proof vb_u. unfold swap_casp. destruct (rmw_sfx g ord ord) as [[acq rel] fn].
      eexists. split; [reflexivity|].
      assert (X : forall rt ok, (forall s1 x, is_u128 x -> rg s1 X4 = addr_lo (be g) x -> rg s1 X5 = addr_hi (be g) x -> rt s1 = ok x) ->
        refines (Op := wop) nx width a o (mk_bconf
          (ldp h X4 X5 ++ BIm ([MOV TmpLo X4; MOV TmpHi X5] ++ []) ++ [BM (CASP acq rel X4 X5 X2 X3 Dst)] ++
             BIm [CMP TmpHi X5; CCMP0 TmpLo X4 Eq] ++ [BJ BNE (length (ldp h X4 X5))]) 0
          (put (be g) X2 X3 vb s) rt) (CasLoop PK PRS false (fun _ _ => Some vb) ok ok)).
      { intros rt ok HR.
        apply (casp_refines g h ty a o W acq rel X4 X5 X2 X3 [] (put (be g) X2 X3 vb s) rt (fun _ => vb) ok
          (fun s1 => rd s1 Dst = a /\ rg s1 X2 = addr_lo (be g) vb /\ rg s1 X3 = addr_hi (be g) vb)); auto; try discriminate.
        - repeat split; discriminate.
        - intros s1 [F _]; exact F.
        - intros s1 q w [-> | ->] F; exact F.
        - intros s1 s2 (F1 & F2 & F3) K. rewrite rd_rg in * by discriminate. rewrite !K by discriminate. auto.
        - intros s1 x (F1 & F2 & F3) U E1 E2. cbn [app bexec exec1].
          split; [repeat split; assumption|]. split; [apply pair_lo; auto; discriminate|].
          repeat split. }
      destruct u; apply X; intros s1 x U E1 E2.
      - reflexivity.
      - unfold ret, fin_val. f_equal. f_equal. apply pair_lo; auto; discriminate.
    Qed.
    Lemma swap_ll_ref ord s : rd s Dst = a ->
      ref (swap_ldxp_stxp g h t vb false ord s) (l_rmw t XK XRS (Swap v)).
    Proof.
      intros D. pose proof vb_u. unfold swap_ldxp_stxp.
      pose proof (rmw_sfx_fences g ord ord) as FF. destruct (rmw_sfx g ord ord) as [[acq rel] fn]. cbn [snd] in FF.
      eexists. split; [reflexivity|].
      apply (ll_refines g h ty a o W acq rel PrevLo PrevHi Rr ValLo ValHi [] fn _ (ret g t PrevLo PrevHi)
        (next_bits t (Swap v)) (fin_val t) (fin_val t)
        (fun s1 => rd s1 Dst = a /\ rg s1 ValLo = addr_lo (be g) vb /\ rg s1 ValHi = addr_hi (be g) vb)); auto; try discriminate.
      - intros s1 [F _]; exact F.
      - intros s1 q w [-> | ->] F; exact F.
      - intros s1 x (F1 & F2 & F3) U E1 E2. cbn [bexec].
        split; [apply pair_lo; auto; discriminate|]. split; [exact F1|]. split; [intros w; repeat split; assumption|].
        unfold ret, fin_val. f_equal. f_equal. apply pair_lo; auto; discriminate.
    Qed.
    Lemma store_ll_ref ord s : rd s Dst = a -> ref (store_ldxp_stxp g h vb ord s) (l_store t XK XRS v).
    Proof.
      intros D. pose proof vb_u. unfold store_ldxp_stxp.
      pose proof (rmw_sfx_fences g ord ord) as FF. destruct (rmw_sfx g ord ord) as [[acq rel] fn]. cbn [snd] in FF.
      eexists. split; [reflexivity|].
      apply (ll_refines g h ty a o W acq rel Xzr TmpLo TmpLo ValLo ValHi [] fn _ (fun _ => RUnit)
        (fun _ => vb) (fin_unit) (fin_unit)
        (fun s1 => rd s1 Dst = a /\ rg s1 ValLo = addr_lo (be g) vb /\ rg s1 ValHi = addr_hi (be g) vb)); auto; try discriminate.
      - intros s1 [F _]; exact F.
      - intros s1 q w [-> | ->] F; exact F.
      - intros s1 x (F1 & F2 & F3) U E1 E2. cbn [bexec].
        split; [apply pair_lo; auto; discriminate|]. split; [exact F1|]. split; [intros w; repeat split; assumption|]. reflexivity.
    Qed.
    Lemma store_no_lse2_ref ord s : rd s Dst = a ->
      ref (store_no_lse2 g h t vb ord s) (if c_lse g && negb (ll_sc_rmw g) then c_store t PK PRS false v else l_store t XK XRS v).
    Proof.
      intros D. unfold store_no_lse2. destruct (c_lse g && negb (ll_sc_rmw g)) eqn:E; [|now apply store_ll_ref].
      apply andb_true_iff in E as [E _]. apply (swap_casp_ref true); auto. destruct SO as (R & _); auto.
    Qed.
    Lemma store_stp_ref ord s : h_lse2 h = true -> rd s Dst = a ->
      match ord with Acquire | AcqRel => false | _ => true end = true -> ref (store_stp g t vb ord s) (d_store t v).
    Proof.
      intros H2 D HO. destruct SO as (_ & _ & R2 & R3 & _).
      assert (F0 : fences []) by (intros s1; reflexivity). assert (F1 : fences [DMB Ish]) by (intros s1; reflexivity).
      unfold store_stp. destruct ord; try discriminate.
      - eexists. split; [reflexivity|]. now apply stp_ref.
      - destruct (c_rcpc3 g) eqn:E3; [now apply stilp_ref; auto|]. destruct (c_lse128 g) eqn:E2; [now apply (swpp_ref true); auto|].
        eexists. split; [reflexivity|]. now apply stp_ref.
      - destruct (c_lse128 g) eqn:E2; [now apply (swpp_ref true); auto|]. destruct (c_rcpc3 g) eqn:E3; [now apply stilp_ref; auto|].
        eexists. split; [reflexivity|]. now apply stp_ref.
    Qed.
    Lemma store_ref ord s : rd s Dst = a -> match ord with Acquire | AcqRel => false | _ => true end = true ->
      ref (atomic_store g h t vb ord s) (if lse2_path then d_store t v
        else if c_lse g && negb (ll_sc_rmw g) then c_store t PK PRS false v else l_store t XK XRS v).
    Proof.
      intros D HO. pose proof lse2_path_ok as LP. destruct SO as (_ & _ & R2 & R3 & _ & _ & R5 & R4).
      pose proof (store_no_lse2_ref ord s D) as NL.
      unfold atomic_store. unfold lse2_path in *. destruct (c_lse2 g); cbn [orb] in *; [apply store_stp_ref; auto|].
      destruct (det_lse2 g); cbn [andb] in *; [|exact NL].
      destruct (d_lse2 g).
      - specialize (LP eq_refl). pose proof (store_stp_ref ord s LP D HO) as L.
        destruct ord; try discriminate; [exact L| |].
        + destruct (negb (c_rcpc3 g) && d_rcpc3 g) eqn:E; [apply andb_true_iff in E as [_ E]; apply stilp_ref; auto|].
          destruct (negb (c_rcpc3 g) && negb (c_lse128 g) && d_lse128 g) eqn:E'; [|exact L].
          apply andb_true_iff in E' as [_ E']. apply (swpp_ref true); auto.
        + destruct (negb (c_lse128 g) && d_lse128 g) eqn:E; [apply andb_true_iff in E as [_ E]; apply (swpp_ref true); auto|].
          destruct (negb (c_lse128 g) && negb (c_rcpc3 g) && d_rcpc3 g) eqn:E'; [|exact L].
          apply andb_true_iff in E' as [_ E']. apply stilp_ref; auto.
      - destruct ord; try discriminate; exact NL.
    Qed.
    Definition cas_path : bool := c_lse g && negb (ll_sc_rmw g).
    Lemma swap_ref ord s : rd s Dst = a -> ref (atomic_swap g h t vb ord s)
      (if c_lse128 g then d_rmw t (Swap v) else if cas_path then c_rmw t PK PRS false (Swap v) else l_rmw t XK XRS (Swap v)).
    Proof.
      intros D. destruct SO as (R1 & _ & R2 & _). unfold atomic_swap, cas_path.
      destruct (c_lse128 g) eqn:E; [apply (swpp_ref false); auto|].
      destruct (c_lse g && negb (ll_sc_rmw g)) eqn:E'; [|now apply swap_ll_ref].
      apply andb_true_iff in E' as [E' _]. apply (swap_casp_ref false); auto.
    Qed.

    Lemma u128_facts x : is_u128 x -> in_range t (of_bits t x) /\ to_bits t (of_bits t x) = x.
    Proof.
      intros U. split; [apply of_bits_range|apply to_of_bits]; try (now apply wide_wf); unfold is_u128 in U; now rewrite W.
    Qed.
    Lemma lnot_land x y : is_u128 x -> is_u128 y -> Z.land x (2 ^ 128 - 1 - (2 ^ 128 - 1 - y)) = Z.land x y.
    Proof. intros. f_equal. lia. Qed.
    Lemma and_ref ord s : h_lse128 h = true -> rd s Dst = a -> ref (and_ldclrp g t vb ord s) (d_rmw t (And v)).
    Proof.
      intros HL D. pose proof vb_u as U. unfold and_ldclrp. destruct (rmw_sfx g ord ord) as [[acq rel] fn].
      eexists. split; [reflexivity|].
      assert (U' : is_u128 (2 ^ 128 - 1 - vb)) by (unfold is_u128 in *; lia).
      eapply write_refines with (post := []) (pre := []); [intros s1; reflexivity| |intros s1; reflexivity|reflexivity].
      do 2 eexists. split.
      - cbn [access]. rewrite HL, (dst_put ValLo ValHi), pair_put by (auto; discriminate). reflexivity.
      - intros sp x Hx. cbn [fst snd].
        assert (EN : Z.land x (2 ^ 128 - 1 - (2 ^ 128 - 1 - vb)) = next_bits t (And v) x).
        { rewrite lnot_land by assumption. unfold next_bits.
          destruct (u128_facts x Hx) as [X XB]. rewrite bits_and, XB by assumption. reflexivity. }
        rewrite EN. split; [reflexivity|]. split.
        + intros y E. injection E as <-. apply to_bits_u128. exact W.
        + apply ret_put; auto; discriminate.
    Qed.
    Lemma or_ref ord s : h_lse128 h = true -> rd s Dst = a -> ref (or_ldsetp g t vb ord s) (d_rmw t (Or v)).
    Proof.
      intros HL D. pose proof vb_u as U. unfold or_ldsetp. destruct (rmw_sfx g ord ord) as [[acq rel] fn].
      eexists. split; [reflexivity|].
      eapply write_refines with (post := []) (pre := []); [intros s1; reflexivity| |intros s1; reflexivity|reflexivity].
      do 2 eexists. split.
      - cbn [access]. rewrite HL, (dst_put ValLo ValHi), pair_put by (auto; discriminate). reflexivity.
      - intros sp x Hx. cbn [fst snd].
        assert (EN : Z.lor x vb = next_bits t (Or v) x).
        { unfold next_bits. destruct (u128_facts x Hx) as [X XB]. rewrite bits_or, XB by assumption. reflexivity. }
        rewrite EN. split; [reflexivity|]. split.
        + intros y E. injection E as <-. apply to_bits_u128. exact W.
        + apply ret_put; auto; discriminate.
    Qed.
  End One.

  Section Cas.
    Variables (a : Z) (o : wop).
    Let t := ty a.
    Hypothesis W : ibits t = 128.
    Local Notation ref c i := (exists k, c = Some k /\ refines (Op := wop) nx width a o k i).
    Variables (cu nw : Z).
    Let cb := to_bits t cu.
    Let nb := to_bits t nw.
    Lemma casp_ref sc fl s : h_lse h = true -> rd s Dst = a -> ref (cas_casp g t cb nb sc fl s) (d_cas t cu nw).
    Proof.
      intros HL D. assert (Uc : is_u128 cb) by (apply to_bits_u128; exact W). assert (Un : is_u128 nb) by (apply to_bits_u128; exact W).
      unfold cas_casp. destruct (rmw_sfx g _ sc) as [[acq rel] fn]. eexists. split; [reflexivity|].
      set (s1 := put (be g) X4 X5 nb (put (be g) X6 X7 cb s)).
      assert (D1 : rd s1 Dst = a). { unfold s1. rewrite !rd_put by discriminate. exact D. }
      assert (P1 : pair (be g) X4 X5 s1 = nb) by (apply pair_put; auto; discriminate).
      assert (P2 : pair (be g) X6 X7 s1 = cb).
      { unfold pair, s1. destruct (be g); cbn; apply join_lo_hi. }
      eapply (write_refines a o W) with (post := []) (pre := []); [intros s2; reflexivity| |intros s2; reflexivity|reflexivity].
      do 2 eexists. split; [cbn [access]; rewrite HL, D1, P1, P2; reflexivity|].
      intros sp x Hx. cbn [fst snd]. unfold cas_ret. rewrite pair_put by (auto; discriminate).
      change (to_bits t cu) with cb. change (to_bits t nw) with nb. destruct (x =? cb); cbn [fst snd].
      - split; [reflexivity|]. split; [|reflexivity]. intros y E. now injection E as <-.
      - split; [reflexivity|]. split; [discriminate|reflexivity].
    Qed.

    Lemma cas_body_ok s x : is_u128 x ->
      rg s OldLo = addr_lo (be g) cb -> rg s OldHi = addr_hi (be g) cb ->
      rg s NewLo = addr_lo (be g) nb -> rg s NewHi = addr_hi (be g) nb ->
      rg s PrevLo = addr_lo (be g) x -> rg s PrevHi = addr_hi (be g) x ->
      let s' := bexec exec1 cas_body s in
      pair (be g) TmpLo TmpHi s' = (if x =? cb then nb else x) /\
      forall q, q <> TmpLo -> q <> TmpHi -> q <> Xzr -> rg s' q = rg s q.
    Proof.
      intros Ux O1 O2 N1 N2 P1 P2. cbv zeta.
      assert (Uc : is_u128 cb) by (apply to_bits_u128; exact W). assert (Un : is_u128 nb) by (apply to_bits_u128; exact W).
      pose proof (addr_range (be g) _ Ux) as [L1 L2]. pose proof (addr_range (be g) _ Uc) as [L3 L4].
      pose proof (addr_halves (be g) x) as Jx. pose proof (addr_halves (be g) cb) as Jc.
      assert (EQ : (x =? cb) = (addr_lo (be g) x =? addr_lo (be g) cb) && (addr_hi (be g) x =? addr_hi (be g) cb)).
      { apply eq_true_iff_eq. rewrite andb_true_iff, !Z.eqb_eq. split; [intros ->; auto|].
        intros [Q1 Q2]. rewrite <- Jx, <- Jc, Q1, Q2. reflexivity. }
      unfold cas_body. cbn [bexec exec1].
      change (rd s PrevLo) with (rg s PrevLo). change (rd s OldLo) with (rg s OldLo). rewrite P1, O1.
      set (s1 := awc s Xzr true (addr_lo (be g) x) (not64 (addr_lo (be g) cb)) true).
      assert (Z1 : holds Eq s1 = (addr_lo (be g) x =? addr_lo (be g) cb)) by (apply awc_zero; assumption).
      assert (K1 : forall q, q <> Xzr -> rg s1 q = rg s q).
      { intros q Nq. unfold s1, awc. cbn [rg]. now rewrite setr_other. }
      rewrite (rd_rg s1 PrevHi), (rd_rg s1 OldHi), !K1, P2, O2, Z1 by discriminate.
      set (s2 := if addr_lo (be g) x =? addr_lo (be g) cb
                 then awc s1 Xzr true (addr_hi (be g) x) (not64 (addr_hi (be g) cb)) true else mk_st (rg s1) false false false false).
      assert (Z2 : holds Eq s2 = (x =? cb)).
      { rewrite EQ. unfold s2. destruct (addr_lo (be g) x =? addr_lo (be g) cb); [apply awc_zero; assumption|reflexivity]. }
      assert (K2 : forall q, q <> Xzr -> rg s2 q = rg s q).
      { intros q Nq. unfold s2. destruct (addr_lo (be g) x =? addr_lo (be g) cb); [|cbn [rg]; auto].
        unfold awc. cbn [rg]. rewrite setr_other by exact Nq. auto. }
      rewrite Z2. set (s3 := set1 s2 TmpLo _).
      assert (Z3 : holds Eq s3 = (x =? cb)) by exact Z2.
      rewrite Z3. rewrite (rd_rg s3 NewHi), (rd_rg s3 PrevHi) by discriminate.
      assert (K3 : forall q, q <> TmpLo -> q <> Xzr -> rg s3 q = rg s q).
      { intros q Nq Nz. unfold s3. cbn [set1 rg]. rewrite setr_other by exact Nq. auto. }
      split.
      - assert (G : forall y, (if x =? cb then nb else x) = y -> pair (be g) TmpLo TmpHi (set1 s3 TmpHi (if x =? cb then rg s3 NewHi else rg s3 PrevHi)) = y).
        { intros y <-. apply pair_lo; try discriminate.
          - destruct (x =? cb); assumption.
          - cbn [set1 rg]. rewrite setr_other by discriminate. unfold s3. cbn [set1 rg]. rewrite setr_same.
            rewrite (rd_rg s2 NewLo), (rd_rg s2 PrevLo), !K2, N1, P1 by discriminate. destruct (x =? cb); reflexivity.
          - cbn [set1 rg]. rewrite setr_same, !K3, N2, P2 by discriminate. destruct (x =? cb); reflexivity. }
        now apply G.
      - intros q A B C. cbn [set1 rg]. rewrite setr_other by exact B. now apply K3.
    Qed.
    Lemma cas_ll_ref sc fl s : rd s Dst = a -> ref (cas_ldxp_stxp g h t cb nb sc fl s) (l_cas_wb t XK XRS cu nw).
    Proof.
      intros D. assert (Uc : is_u128 cb) by (apply to_bits_u128; exact W). assert (Un : is_u128 nb) by (apply to_bits_u128; exact W).
      unfold cas_ldxp_stxp. pose proof (rmw_sfx_fences g (upgrade_success_ordering sc fl) sc) as FF.
      destruct (rmw_sfx g _ sc) as [[acq rel] fn]. cbn [snd] in FF. eexists. split; [reflexivity|].
      apply (ll_refines g h ty a o W acq rel PrevLo PrevHi Rr TmpLo TmpHi cas_body fn _ (cas_ret g t cb PrevLo PrevHi)
        (fun x => if x =? cb then nb else x)
        (fun x => if x =? cb then ROk (of_bits t x) else RErr (of_bits t x)) (fin_val t)
        (fun s1 => rd s1 Dst = a /\ rg s1 OldLo = addr_lo (be g) cb /\ rg s1 OldHi = addr_hi (be g) cb /\
                   rg s1 NewLo = addr_lo (be g) nb /\ rg s1 NewHi = addr_hi (be g) nb)); auto; try discriminate.
      - intros s1 [F _]; exact F.
      - intros s1 q w [-> | ->] F; exact F.
      - intros s1 x (F1 & F2 & F3 & F4 & F5) U E1 E2.
        destruct (cas_body_ok s1 x U F2 F3 F4 F5 E1 E2) as [PP K]. cbv zeta.
        rewrite rd_rg in * by discriminate. split; [exact PP|]. split; [rewrite K by discriminate; exact F1|]. split.
        + intros w. rewrite rd_rg by discriminate. cbn [set1 rg]. rewrite !setr_other by discriminate.
          rewrite !K by discriminate. auto.
        + unfold cas_ret.
          assert (QQ : pair (be g) PrevLo PrevHi (set1 (bexec exec1 cas_body s1) Rr 0) = x).
          { apply pair_lo; auto; try discriminate; cbn [set1 rg]; rewrite setr_other, K by discriminate; assumption. }
          now rewrite QQ.
      - intros x U. destruct (x =? cb); assumption.
    Qed.
    Definition lse_path : bool := c_lse g || (det_lse g && d_lse g).
    Lemma cas_ref sc fl s : rd s Dst = a -> ref (atomic_compare_exchange g h t cb nb sc fl s)
      (if lse_path then d_cas t cu nw else l_cas_wb t XK XRS cu nw).
    Proof.
      intros D. destruct SO as (R1 & _ & _ & _ & R2 & _). unfold atomic_compare_exchange, lse_path.
      destruct (c_lse g); cbn [orb]; [apply casp_ref; auto|].
      destruct (det_lse g); cbn [andb]; [|now apply cas_ll_ref].
      destruct (d_lse g), (upgrade_success_ordering sc fl); try destruct (msvc g); first [apply casp_ref; now auto | now apply cas_ll_ref].
    Qed.

    Variable r : rmw.
    Hypothesis C : rmw_typed t r.
    Lemma body_facts x : is_u128 x -> in_range t (of_bits t x) /\ to_bits t (of_bits t x) = x.
    Proof.
      intros U. split; [apply of_bits_range|apply to_of_bits]; try (now apply wide_wf); unfold is_u128 in U; now rewrite W.
    Qed.
    Lemma rmw_ll_ref p ord s : body_ll g t r = Some p -> rd s Dst = a ->
      ref (rmw_ll_sc g h t r p ord s) (l_rmw t XK XRS r).
    Proof.
      intros B D. unfold rmw_ll_sc. pose proof (rmw_sfx_fences g ord ord) as FF.
      destruct (rmw_sfx g ord ord) as [[acq rel] fn]. cbn [snd] in FF. eexists. split; [reflexivity|].
      set (vb := operand t r).
      apply (ll_refines g h ty a o W acq rel PrevLo PrevHi Rr NewLo NewHi p fn _ (ret g t PrevLo PrevHi)
        (next_bits t r) (fin_val t) (fin_val t)
        (fun s1 => rd s1 Dst = a /\ rg s1 ValLo = addr_lo (be g) vb /\ rg s1 ValHi = addr_hi (be g) vb)); auto; try discriminate.
      - intros s1 [F _]; exact F.
      - intros s1 q w [-> | ->] F; exact F.
      - intros s1 x (F1 & F2 & F3) U E1 E2. destruct (body_facts x U) as [X XB].
        destruct (body_ll_correct g t W r p s1 (of_bits t x) C X B F2 F3) as [PP K]; [now rewrite XB|now rewrite XB|].
        cbv zeta. rewrite rd_rg in * by discriminate. split; [exact PP|]. split; [rewrite K by discriminate; exact F1|]. split.
        + intros w. rewrite rd_rg by discriminate. cbn [set1 rg]. rewrite !setr_other, !K by discriminate. auto.
        + unfold ret, fin_val. f_equal. f_equal. apply pair_lo; auto; try discriminate; cbn [set1 rg];
            rewrite setr_other, K by discriminate; assumption.
      - intros x U. apply to_bits_u128. exact W.
    Qed.
    Lemma rmw_casp_ref p ord s : h_lse h = true -> body_cas g t r = Some p -> rd s Dst = a ->
      ref (rmw_casp g h t r p ord s) (c_rmw t PK PRS false r).
    Proof.
      intros HL B D. unfold rmw_casp. destruct (rmw_sfx g ord ord) as [[acq rel] fn]. eexists. split; [reflexivity|].
      set (vb := operand t r).
      apply (casp_refines g h ty a o W acq rel X6 X7 X4 X5 p _ (ret g t X6 X7) (next_bits t r) (fin_val t)
        (fun s1 => rd s1 Dst = a /\ rg s1 ValLo = addr_lo (be g) vb /\ rg s1 ValHi = addr_hi (be g) vb)); auto; try discriminate.
      - repeat split; discriminate.
      - intros s1 [F _]; exact F.
      - intros s1 q w [-> | ->] F; exact F.
      - intros s1 s2 (F1 & F2 & F3) K. rewrite rd_rg in * by discriminate. rewrite !K by discriminate. auto.
      - intros s1 x (F1 & F2 & F3) U E1 E2. destruct (body_facts x U) as [X XB].
        cbn [app]. change (bexec exec1 (MOV TmpLo X6 :: MOV TmpHi X7 :: p) s1) with
          (bexec exec1 p (exec1 (MOV TmpHi X7) (exec1 (MOV TmpLo X6) s1))).
        set (s2 := exec1 (MOV TmpHi X7) (exec1 (MOV TmpLo X6) s1)).
        destruct (body_cas_correct g t W r p s2 (of_bits t x) C X B) as [PP K]; [exact F2|exact F3|rewrite XB; exact E1|rewrite XB; exact E2|].
        cbv zeta. rewrite rd_rg in * by discriminate. rewrite !K by discriminate.
        split; [repeat split; assumption|]. split; [exact PP|]. repeat split.
      - intros s1 x U E1 E2. unfold ret, fin_val. f_equal. f_equal. apply pair_lo; auto; discriminate.
      - intros x U. apply to_bits_u128. exact W.
    Qed.
    Lemma rmw_loop_ref ord s : (forall v, r <> Swap v) -> rd s Dst = a ->
      ref (rmw_loop g h t r ord s) (if cas_path then c_rmw t PK PRS false r else l_rmw t XK XRS r).
    Proof.
      intros NS D. destruct SO as (R1 & _). unfold rmw_loop, cas_path. destruct (c_lse g && negb (ll_sc_rmw g)) eqn:E.
      - apply andb_true_iff in E as [E _]. destruct (body_cas g t r) as [p|] eqn:B; [apply rmw_casp_ref; auto|].
        destruct r; try discriminate. now destruct (NS v).
      - destruct (body_ll g t r) as [p|] eqn:B; [apply rmw_ll_ref; auto|].
        destruct r; try discriminate. now destruct (NS v).
    Qed.
    Definition direct_path : bool := c_lse128 g && match r with Swap _ | And _ | Or _ => true | _ => false end.
    Lemma rmw_ref ord s : rd s Dst = a -> ref (atomic_rmw g h t r ord s)
      (if direct_path then d_rmw t r else if cas_path then c_rmw t PK PRS false r else l_rmw t XK XRS r).
    Proof.
      intros D. destruct SO as (_ & _ & R2 & _). unfold direct_path.
      assert (GEN : (forall v, r <> Swap v) -> ref (rmw_loop g h t r ord s) (if cas_path then c_rmw t PK PRS false r else l_rmw t XK XRS r)).
      { intros NS. now apply rmw_loop_ref. }
      destruct r; unfold atomic_rmw; rewrite ?andb_false_r; try (apply GEN; discriminate).
      - rewrite andb_true_r. now apply swap_ref.
      - rewrite andb_true_r. destruct (c_lse128 g); [|apply GEN; discriminate]. apply and_ref; auto.
      - rewrite andb_true_r. destruct (c_lse128 g); [|apply GEN; discriminate]. apply or_ref; auto.
    Qed.
  End Cas.

  (** The implementation chosen for an operation *)
  Definition v_impl (a : Z) (o : wop) : option (impl res) :=
    let t := ty a in
    if negb ((ibits t =? 128) && callable t o && (0 <=? a) && (a <? 2 ^ 64)) then None else Some
    match o with
    | WOp (OLoad _) => if lse2_path then d_load t else if c_lse g then d_load_cas t else l_load t XK XRS
    | WOp (OStore v _) => if lse2_path then d_store t v
        else if c_lse g && negb (ll_sc_rmw g) then c_store t PK PRS false v else l_store t XK XRS v
    | WOp (ORmw r _) => if direct_path r then d_rmw t r else if cas_path then c_rmw t PK PRS false r else l_rmw t XK XRS r
    | WOp (OCas c n _ _) | WCasWeak c n _ _ => if lse_path then d_cas t c n else l_cas_wb t XK XRS c n
    end.
  Theorem v_total a o : v_impl a o <> None -> exists c, code_of g h ty junk a o = Some c.
  Proof.
    unfold code_of, v_impl. set (t := ty a).
    destruct ((ibits t =? 128) && callable t o && (0 <=? a) && (a <? 2 ^ 64)) eqn:EC; cbn [negb]; [|congruence].
    apply andb_true_iff in EC as [EC _]. apply andb_true_iff in EC as [EC _]. apply andb_true_iff in EC as [W C].
    apply Z.eqb_eq in W. intros _. set (s := set1 (junk a o) Dst a). assert (D : rd s Dst = a) by reflexivity.
    destruct o as [[ord|v ord|r ord|cu nw sc fl]|cu nw sc fl]; cbn [callable] in C.
    - destruct (load_ref a (WOp (OLoad ord)) W ord s D C) as (k & E & _). eauto.
    - apply andb_true_iff in C as [V C]. apply in_rangeb_iff in V.
      destruct (store_ref a (WOp (OStore v ord)) W v ord s D C) as (k & E & _). eauto.
    - apply rmw_typedb_ok in C. destruct (rmw_ref a (WOp (ORmw r ord)) W r C ord s D) as (k & E & _). eauto.
    - destruct (cas_ref a (WOp (OCas cu nw sc fl)) W cu nw sc fl s D) as (k & E & _). eauto.
    - destruct (cas_ref a (WCasWeak cu nw sc fl) W cu nw sc fl s D) as (k & E & _). eauto.
  Qed.
  Theorem v_refines a o c : code_of g h ty junk a o = Some c -> exists i, v_impl a o = Some i /\ refines nx width a o c i.
  Proof.
    unfold code_of, v_impl. set (t := ty a).
    destruct ((ibits t =? 128) && callable t o && (0 <=? a) && (a <? 2 ^ 64)) eqn:EC; cbn [negb]; [|discriminate].
    apply andb_true_iff in EC as [EC _]. apply andb_true_iff in EC as [EC _]. apply andb_true_iff in EC as [W C].
    apply Z.eqb_eq in W. set (s := set1 (junk a o) Dst a). assert (D : rd s Dst = a) by reflexivity.
    destruct o as [[ord|v ord|r ord|cu nw sc fl]|cu nw sc fl]; cbn [callable] in C; intros E; eexists; (split; [reflexivity|]).
    - destruct (load_ref a (WOp (OLoad ord)) W ord s D C) as (k & E' & R). fold t in E', R. replace c with k by congruence. exact R.
    - apply andb_true_iff in C as [V C]. apply in_rangeb_iff in V.
      destruct (store_ref a (WOp (OStore v ord)) W v ord s D C) as (k & E' & R). fold t in E', R. replace c with k by congruence. exact R.
    - apply rmw_typedb_ok in C. destruct (rmw_ref a (WOp (ORmw r ord)) W r C ord s D) as (k & E' & R). fold t in E', R. replace c with k by congruence. exact R.
    - destruct (cas_ref a (WOp (OCas cu nw sc fl)) W cu nw sc fl s D) as (k & E' & R). fold t in E', R. replace c with k by congruence. exact R.
    - destruct (cas_ref a (WCasWeak cu nw sc fl) W cu nw sc fl s D) as (k & E' & R). fold t in E', R. replace c with k by congruence. exact R.
  Qed.
End Arm.
