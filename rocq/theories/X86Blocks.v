(** The x86_64 inline-assembly blocks refine the abstract loops. *)
From Coq Require Import ZArith List Bool Lia ZifyBool PeanoNat.
From Verif Require Import Words Spec WideSpec WordsFacts Halves LoopModel LoopProofs AsmModel AsmProofs BlockModel BlockProofs
  AtomicImpls AtomicImplsProofs X86Model X86Proofs.
Import ListNotations.
Open Scope Z_scope.

(** ** Registers an instruction may write *)
Definition writes (i : instr) (r : reg) : bool :=
  match i with
  | MOV d _ | MOVI d _ | ADD d _ | ADC d _ | SUB d _ | SBB d _ | AND d _ | OR d _ | XOR d _
  | NOT d | NEG d | CMOV _ d _ => reg_eqb r d
  | CMP _ _ => false
  | XCHG a b => reg_eqb r a || reg_eqb r b
  | SETNE_CL => reg_eqb r rcx
  end.
Lemma reg_eqb_refl r : reg_eqb r r = true.
Proof. now destruct r. Qed.
Lemma exec1_frame i s r : writes i r = false -> rg (exec1 i s) r = rg s r.
Proof.
  destruct i; cbn [writes exec1]; unfold arith; cbn [rg]; unfold setr; intros H; try (now rewrite H); auto.
  - destruct (holds c s); cbn [rg]; auto. unfold setr. now rewrite H.
  - apply orb_false_iff in H as [H1 H2]. now rewrite H1, H2.
Qed.
Lemma exec_frame p s r : forallb (fun i => negb (writes i r)) p = true -> rg (exec p s) r = rg s r.
Proof.
  revert s. induction p as [|i p IH]; cbn; intros s H; auto.
  apply andb_true_iff in H as [H1 H2]. rewrite IH by assumption. apply exec1_frame.
  now destruct (writes i r).
Qed.
Lemma exec_app p q s : exec (p ++ q) s = exec q (exec p s).
Proof. revert s. induction p; cbn; auto. Qed.
Lemma exec_firstn_S p n i s : nth_error p n = Some i -> exec (firstn (S n) p) s = exec1 i (exec (firstn n p) s).
Proof.
  intros H. rewrite (firstn_snoc _ _ _ H), exec_app. reflexivity.
Qed.
Lemma rg_setr_same f r v : setr f r v r = v.
Proof. unfold setr. now rewrite reg_eqb_refl. Qed.

Section Blocks.
  Variable ty : Z -> ity.
  Local Notation width := (fun a => ibits (ty a)).

  Definition avoids (p : list instr) (r : reg) : bool := forallb (fun i => negb (writes i r)) p.
  Lemma avoids_firstn p r n : avoids p r = true -> avoids (firstn n p) r = true.
  Proof.
    unfold avoids. revert n. induction p as [|i p IH]; intros [|n] H; cbn in *; auto.
    apply andb_true_iff in H as [H1 H2]. now rewrite H1, IH.
  Qed.
  Definition base_reg (b : base) : reg := match b with B64r r => r | B32r r => r end.
  Lemma addr_frame b s s' : rg s' (base_reg b) = rg s (base_reg b) -> addr s' b = addr s b.
  Proof. destruct b; cbn; now intros ->. Qed.

  Ltac inv := match goal with H : Some _ = Some _ |- _ => injection H as H; subst end.

  (** ** Compare-and-swap loops *)
  Section Loop.
    Variables (pre : instr) (b : base) (save : reg) (p : list instr).
    Variables (a : Z) (o : wop) (rt : st -> Z -> res) (ok : Z -> res) (nxt : Z -> Z).
    (** registers the body needs and nobody writes *)
    Variable F : st -> Prop.
    Variable start : st.

    Let P := loop_block pre b save p.
    Let i := CasLoop 64 [0%nat; 1%nat] false (fun _ g => Some (nxt g)) ok ok.
    Hypothesis w128 : ibits (ty a) = 128.
    Hypothesis Hpre : forall s, addr s b = a -> s = start -> addr (exec1 pre s) b = a /\ F (exec1 pre s).
    Hypothesis Hstart : addr start b = a.
    Hypothesis HF : forall s s', (forall r, r <> rax -> r <> rdx -> rg s' r = rg s r) -> F s -> F s'.
    Hypothesis Hbase : base_reg b <> rax /\ base_reg b <> rdx /\ base_reg b <> rbx /\ avoids p (base_reg b) = true.
    (** the body computes [nxt] and keeps what it needs *)
    Hypothesis Hbody : forall s g, F s -> is_u128 g -> rg s rax = lo64 g -> rg s rdx = hi64 g ->
      let s' := exec p s in
      F s' /\ join64 (rg s' rbx) (rg s' rcx) = nxt g /\ rg s' rax = lo64 g /\ rg s' rdx = hi64 g.
    Hypothesis Hnxt : forall g, is_u128 g -> is_u128 (nxt g).
    Hypothesis Hret : forall s x g, is_u128 g -> rg s rax = lo64 g -> rg s rdx = hi64 g -> rt s x = ok g.
    Hypothesis Hsave : save <> rax /\ save <> rdx.

    Let n := length p.
    Lemma nth_body k j : (k = 3 + j)%nat -> (j < n)%nat -> exists q, nth_error p j = Some q /\ nth_error P k = Some (I q).
    Proof.
      intros -> Hj. destruct (nth_error p j) as [q|] eqn:E.
      - exists q. split; auto. unfold P, loop_block. cbn [app Nat.add nth_error].
        rewrite nth_error_app1 by (rewrite map_length; exact Hj). now apply map_nth_error.
      - apply nth_error_None in E. unfold n in Hj. lia.
    Qed.
    Lemma nth_tail j : nth_error P (3 + n + j) = nth_error [CX16 b; JNE 3; I (MOV rbx save)] j.
    Proof.
      unfold P, loop_block. cbn [app Nat.add nth_error].
      rewrite nth_error_app2 by (rewrite map_length; unfold n; lia).
      f_equal. rewrite map_length. unfold n. lia.
    Qed.

    Inductive R : conf -> pc wop res -> Prop :=
    | R0 : R (mk_conf P 0 start 0 rt) (Begin a o i)
    | R1 s : addr s b = a -> F s -> R (mk_conf P 1 s 0 rt) (Begin a o i)
    | R2 s v : addr s b = a -> F s -> is_u64 v -> rg s rax = v -> R (mk_conf P 2 s 0 rt) (Rd a o i [] 1 v)
    | R3 s0 s j k hist g : (j <= n)%nat -> k = (3 + j)%nat -> s = exec (firstn j p) s0 -> addr s0 b = a -> F s0 ->
        is_u128 g -> rg s0 rax = lo64 g -> rg s0 rdx = hi64 g ->
        R (mk_conf P k s 0 rt) (Try a o i hist g)
    | R4ok s k g : k = (3 + n + 1)%nat -> ZF s = true -> is_u128 g -> rg s rax = lo64 g -> rg s rdx = hi64 g ->
        R (mk_conf P k s 0 rt) (Fin (ok g))
    | R4no s k hist g : k = (3 + n + 1)%nat -> ZF s = false -> addr s b = a -> F s ->
        is_u128 g -> rg s rax = lo64 g -> rg s rdx = hi64 g ->
        R (mk_conf P k s 0 rt) (Try a o i hist g)
    | R5 s k g : k = (3 + n + 2)%nat -> is_u128 g -> rg s rax = lo64 g -> rg s rdx = hi64 g ->
        R (mk_conf P k s 0 rt) (Fin (ok g))
    | R6 s k g : k = (3 + n + 3)%nat -> is_u128 g -> rg s rax = lo64 g -> rg s rdx = hi64 g ->
        R (mk_conf P k s 0 rt) (Fin (ok g)).

    Lemma addr_set s r v : r <> base_reg b -> addr (set1 s r v) b = addr s b.
    Proof.
      intros H. apply addr_frame. cbn. unfold setr.
      destruct (reg_eqb (base_reg b) r) eqn:E; auto. exfalso. apply H. destruct (base_reg b), r; cbn in E; congruence.
    Qed.
    Lemma reg_neq r q : r <> q -> reg_eqb r q = false.
    Proof. destruct r, q; cbn; congruence. Qed.

    (** register instructions until the next memory access *)
    Definition mu (c : conf) : nat :=
      if (pos c <? 3)%nat then 3 - pos c
      else if (pos c <=? 3 + n)%nat then 3 + n - pos c
      else if (pos c =? 3 + n + 1)%nat then n + 3 else 3 + n + 3 - pos c.
    Ltac lt_mu := unfold mu, adv; cbn [prog pos stt xmm ret];
      repeat match goal with |- context [(?x <? ?y)%nat] => destruct (Nat.ltb_spec x y)
             | |- context [(?x <=? ?y)%nat] => destruct (Nat.leb_spec x y)
             | |- context [(?x =? ?y)%nat] => destruct (Nat.eqb_spec x y) end; lia.

    Lemma loop_refines : refines next width a o (mk_conf P 0 start 0 rt) i.
    Proof.
      apply (refines_measured next width R mu); [constructor|]. destruct Hbase as (B1 & B2 & B3 & B4).
      intros c q H. destruct H as [|s A Fs|s v A Fs Uv Ev|s0 s j k hist g Hj -> -> A Fs Ug Ea Ed|s k g -> Z Ug Ea Ed|s k hist g -> Z A Fs Ug Ea Ed|s k g -> Ug Ea Ed|s k g -> Ug Ea Ed]; unfold act, next; cbn [prog pos stt xmm ret].
      - (* pre *) change (nth_error P 0) with (Some (I pre)). cbn [stt]. exists (Begin a o i). split; [constructor|].
        destruct (Hpre start Hstart eq_refl). split; [apply R1; auto|lt_mu].
      - change (nth_error P 1) with (Some (LDQ rax b 0)). cbv beta iota. rewrite A. change (Z.to_nat (0 / 8)) with 0%nat.
        left. exists o, i, [], 0%nat, 0. split; [eapply l_step; [reflexivity|constructor]|].
        split; [reflexivity|]. split; [reflexivity|]. split; [lia|]. split; [reflexivity|].
        intros v Hv. unfold after_rd. cbn [impl_reads snd length Nat.eqb i].
        rewrite Z.mul_0_r, Z.mul_1_r. cbn [Z.add]. unfold adv; cbn [prog pos stt xmm ret].
        apply R2; auto.
        + rewrite addr_set by congruence. exact A.
        + revert Fs. apply HF. intros r N1 N2. cbn. unfold setr. now rewrite reg_neq.
      - change (nth_error P 2) with (Some (LDQ rdx b 8)). cbv beta iota. rewrite A. change (Z.to_nat (8 / 8)) with 1%nat.
        left. exists o, i, [], 1%nat, v. split; [constructor|].
        split; [reflexivity|]. split; [reflexivity|]. split; [lia|]. split; [reflexivity|].
        intros w Hw. unfold after_rd. cbn [impl_reads snd length Nat.eqb i].
        unfold adv; cbn [prog pos stt xmm ret].
        replace (v + w * 2 ^ (64 * Z.of_nat 1)) with (join64 v w) by (unfold join64; rewrite B64_eq; change (2 ^ (64 * Z.of_nat 1)) with 18446744073709551616; lia).
        apply (R3 (set1 s rdx w) _ 0%nat); auto using join_range.
        + lia.
        + rewrite addr_set by congruence. exact A.
        + revert Fs. apply HF. intros r N1 N2. cbn. unfold setr. now rewrite (reg_neq r rdx).
        + cbn. rewrite Ev. now rewrite lo_join.
        + cbn. now rewrite hi_join.
      - destruct (Nat.eq_dec j n) as [->|Hjn].
        + (* cmpxchg16b *)
          replace (3 + n)%nat with (3 + n + 0)%nat by lia. rewrite nth_tail. cbn [nth_error].
          unfold n. rewrite firstn_all. fold n.
          assert (Ab : addr (exec p s0) b = a).
          { rewrite <- A. apply addr_frame. now apply exec_frame. }
          rewrite Ab. destruct (Hbody s0 g Fs Ug Ea Ed) as (F' & N & Ea' & Ed').
          rewrite N, Ea', Ed', join_lo_hi. cbn [fst snd].
          right. exists o, 64, [0%nat; 1%nat], false, (fun _ g => Some (nxt g)), ok, ok, hist, g, (nxt g).
          cbn zeta. split; [constructor|]. split; [reflexivity|].
          intros sp x Hx. assert (Ux : is_u128 x) by (unfold LoopProofs.inr in Hx; rewrite w128 in Hx; exact Hx).
          destruct (Z.eqb_spec x g) as [->|Nx]; cbn [fst snd]; unfold adv; cbn [prog pos stt xmm ret].
          * left. split; [reflexivity|]. split; [reflexivity|]. split.
            { unfold LoopProofs.inr. rewrite w128. now apply Hnxt. }
            apply R4ok; auto; lia.
          * right. split; [now left|]. split; [reflexivity|].
            apply R4no; auto using lo64_range; try lia.
            { cbn. rewrite <- Ab. apply addr_frame. cbn. unfold setr. now rewrite !reg_neq. }
            { revert F'. apply HF. intros r N1 N2. cbn. unfold setr. now rewrite !reg_neq. }
        + destruct (nth_body (3 + j) j eq_refl ltac:(lia)) as (q & Q1 & Q2). rewrite Q2.
          eexists. split; [constructor|]. unfold adv; cbn [prog pos stt xmm ret].
          split; [|lt_mu]. apply (R3 s0 _ (S j)); auto; try lia. symmetry. now apply exec_firstn_S.
      - rewrite nth_tail. cbn [nth_error]. rewrite Z. eexists. split; [constructor|].
        unfold adv; cbn [prog pos stt xmm ret]. split; [apply R5; auto; lia|lt_mu].
      - rewrite nth_tail. cbn [nth_error]. rewrite Z. eexists. split; [constructor|].
        split; [apply (R3 s _ 0%nat); auto; lia|lt_mu].
      - rewrite nth_tail. cbn [nth_error]. eexists. split; [constructor|].
        unfold adv; cbn [prog pos stt xmm ret exec1]. split; [apply R6; auto; try lia|lt_mu].
      - rewrite nth_tail. cbn [nth_error]. rewrite (Hret s 0 g) by auto. constructor.
    Qed.
  End Loop.

  (** ** Straight-line blocks with one memory access *)
  Section Straight.
    Variables (pr : list binstr) (a : Z) (o : wop) (rt : st -> Z -> res) (f : bool -> Z -> option Z * res).
    Variable start : conf.
    (** configurations before / after the access *)
    Variable Pre : conf -> Prop.
    Variable Post : res -> conf -> Prop.
    Hypothesis Hstart : Pre start.
    Hypothesis Hpre : forall c, Pre c ->
      match next c with
      | ALocal c' => Pre c'
      | AAtomic a' g kont => a' = a /\ forall sp x, LoopProofs.inr width a x ->
          fst (g sp x) = fst (f sp x) /\ (forall y, fst (g sp x) = Some y -> LoopProofs.inr width a y) /\
          Post (snd (f sp x)) (kont (snd (g sp x)))
      | _ => False
      end.
    Hypothesis Hpost : forall r c, Post r c ->
      match next c with
      | ALocal c' => Post r c'
      | ADone r' => r' = r
      | _ => False
      end.
    Hypothesis Hnoj : existsb (fun b => match b with JNE _ => true | _ => false end) (prog start) = false.
    Lemma next_straight c c' : prog c = prog start -> next c = ALocal c' ->
      prog c' = prog start /\ (length (prog c') - pos c' < length (prog c) - pos c)%nat.
    Proof.
      unfold next. intros E. destruct (nth_error (prog c) (pos c)) as [b|] eqn:N; [|discriminate].
      assert (L : (pos c < length (prog c))%nat) by (apply nth_error_Some; congruence).
      destruct b; try discriminate; intros X; injection X as <-; unfold adv; cbn [prog pos].
      - split; [exact E|lia].
      - exfalso. apply nth_error_In in N. rewrite E in N.
        assert (K : existsb (fun b => match b with JNE _ => true | _ => false end) (prog start) = true).
        { apply existsb_exists. eexists. split; [exact N|reflexivity]. }
        congruence.
      - split; [exact E|lia].
    Qed.
    Lemma next_atomic_prog c a' g kont r : next c = AAtomic a' g kont -> prog (kont r) = prog c.
    Proof.
      unfold next. destruct (nth_error (prog c) (pos c)) as [b|]; [|discriminate].
      destruct b; try discriminate; intros X; injection X as <- <- <-; try reflexivity. destruct r as [x0 b0]; cbn [snd]; destruct b0; reflexivity.
    Qed.
    Lemma straight_refines : refines next width a o start (Direct f).
    Proof.
      apply (refines_measured next width
        (fun c p => prog c = prog start /\ ((p = Begin a o (Direct f) /\ Pre c) \/ exists r, p = Fin r /\ Post r c))
        (fun c => length (prog c) - pos c)%nat); [auto|].
      intros c p [E [[-> H]|[r [-> H]]]].
      - apply Hpre in H. unfold act. destruct (next c) as [c'|a0 k0 p0 kont|a' g kont|b0 a0 k0 p0 kont|a0 v0 kont|r0|] eqn:N; try contradiction.
        + destruct (next_straight c c' E N) as [E' L]. eexists. split; [constructor|]. auto.
        + destruct H as [-> H]. left. exists o, f. split; [constructor|]. intros sp x Hx.
          destruct (H sp x Hx) as (H1 & H2 & H3). split; auto. split; auto.
          split; [now rewrite (next_atomic_prog c a g kont _ N)|]. right. eauto.
      - apply Hpost in H. unfold act. destruct (next c) as [c'|a0 k0 p0 kont|a' g kont|b0 a0 k0 p0 kont|a0 v0 kont|r0|] eqn:N; try contradiction.
        + destruct (next_straight c c' E N) as [E' L]. eexists. split; [constructor|]. split; [|exact L]. split; [exact E'|]. right. eauto.
        + subst. constructor.
    Qed.
  End Straight.

  Lemma addr_in_ptr g r a s : 0 <= a < (if x32 g then 2 ^ 32 else 2 ^ 64) -> addr (in_ptr g r a s) (mkb g r) = a.
  Proof.
    unfold in_ptr, mkb. intros H. destruct (x32 g); cbn [addr set1 rg]; rewrite rg_setr_same; auto.
    replace (rg s r - rg s r mod 2 ^ 32 + a) with (a + (rg s r / 2 ^ 32) * 2 ^ 32).
    2:{ pose proof (Z.div_mod (rg s r) (2 ^ 32) ltac:(lia)). lia. }
    rewrite Z.mod_add by lia. now apply Z.mod_small.
  Qed.
  Lemma rg_in_ptr g r a s q : q <> r -> rg (in_ptr g r a s) q = rg s q.
  Proof. intros N. unfold in_ptr. cbn. unfold setr. now rewrite reg_neq. Qed.
  Lemma mkb_reg g r : base_reg (mkb g r) = r.
  Proof. unfold mkb. now destruct (x32 g). Qed.
  Lemma addr_mkb g r s s' : rg s' r = rg s r -> addr s' (mkb g r) = addr s (mkb g r).
  Proof. intros. apply addr_frame. now rewrite mkb_reg. Qed.

  Section OneAddress.
    Variables (g : target) (a : Z) (o : wop).
    Let t := ty a.
    Hypothesis W : ibits t = 128.
    Hypothesis Ha : 0 <= a < (if x32 g then 2 ^ 32 else 2 ^ 64).

    Lemma wide_t : wide t.
    Proof. exact W. Qed.
    Lemma inr_u128 x : LoopProofs.inr width a x <-> is_u128 x.
    Proof. unfold LoopProofs.inr, is_u128. fold t. now rewrite W. Qed.

    Lemma load_vmovdqa_refines s :
      refines next width a o (mk_conf [VLD (mkb g rdi)] 0 (in_ptr g rdi a s) 0 (fun _ x => RVal (of_bits t x))) (d_load t).
    Proof.
      apply (straight_refines a o _ _
        (fun c => c = mk_conf [VLD (mkb g rdi)] 0 (in_ptr g rdi a s) 0 (fun _ x => RVal (of_bits t x)))
        (fun r c => exists x, r = RVal (of_bits t x) /\ c = mk_conf [VLD (mkb g rdi)] 1 (in_ptr g rdi a s) x (fun _ x => RVal (of_bits t x)))); auto.
      - intros c ->. cbn [next nth_error prog pos stt]. split; [now apply addr_in_ptr|].
        intros sp x Hx. cbn [fst snd]. split; auto. split; [discriminate|]. exists x. auto.
      - intros r c (x & -> & ->). reflexivity.
    Qed.
    Lemma store_vmovdqa_refines s v tail : (tail = [] \/ tail = [XCHGP]) ->
      refines next width a o (mk_conf (VST (mkb g rdi) (to_bits t v) :: tail) 0 (in_ptr g rdi a s) 0 (fun _ _ => RUnit)) (d_store t v).
    Proof.
      intros HT.
      apply (straight_refines a o _ _
        (fun c => c = mk_conf (VST (mkb g rdi) (to_bits t v) :: tail) 0 (in_ptr g rdi a s) 0 (fun _ _ => RUnit))
        (fun r c => r = RUnit /\ exists k, (k <= length tail)%nat /\ c = mk_conf (VST (mkb g rdi) (to_bits t v) :: tail) (S k) (in_ptr g rdi a s) 0 (fun _ _ => RUnit))); auto.
      - intros c ->. cbn [next nth_error prog pos stt]. split; [now apply addr_in_ptr|].
        intros sp x Hx. cbn [fst snd]. split; auto. split.
        + intros y E. injection E as <-. apply inr_u128. now apply to_bits_u128.
        + split; auto. exists 0%nat. split; [lia|reflexivity].
      - intros r c (-> & k & Hk & ->). destruct HT as [->| ->].
        + assert (k = 0%nat) by (cbn in Hk; lia). subst. reflexivity.
        + destruct k as [|[|k]]; cbn in Hk; [| |lia].
          * cbn [next nth_error prog pos stt]. split; auto. exists 1%nat. split; auto.
          * reflexivity.
      - destruct HT as [->| ->]; reflexivity.
    Qed.

    Lemma setne_cl c z : is_u64 c -> (c - c mod 256 + (if z : bool then 0 else 1)) mod 256 = if z then 0 else 1.
    Proof.
      intros _. pose proof (Z.div_mod c 256 ltac:(lia)).
      replace (c - c mod 256 + (if z then 0 else 1)) with ((if z then 0 else 1) + (c / 256) * 256) by lia.
      rewrite Z.mod_add by lia. now destruct z.
    Qed.

    Lemma load_cx_refines s :
      refines next width a o
        (mk_conf (load_block g) 0 (in_ptr g (ld_dst g) a (set1 (in_pair rax rdx 0 s) rcx 0)) 0 (ret_pair t)) (d_load_cas t).
    Proof.
      set (P := load_block g). set (b := mkb g (ld_dst g)).
      assert (D : ld_dst g <> rax /\ ld_dst g <> rdx /\ ld_dst g <> rcx /\ ld_dst g <> rbx /\ ld_dst g <> ld_save g /\
                  ld_save g <> rax /\ ld_save g <> rdx /\ ld_save g <> rcx /\ ld_save g <> rbx).
      { unfold ld_dst, ld_save. destruct (win g); repeat split; discriminate. }
      destruct D as (D1 & D2 & D3 & D4 & D5 & D6 & D7 & D8 & D9).
      set (Z0 := fun s => rg s rax = 0 /\ rg s rdx = 0 /\ rg s rcx = 0 /\ addr s b = a).
      apply (straight_refines a o _ _
        (fun c => (exists k s, (k = 0%nat \/ k = 1%nat \/ (k = 2%nat /\ rg s rbx = 0)) /\ c = mk_conf P k s 0 (ret_pair t) /\ Z0 s))
        (fun r c => exists x k s, (k = 3 \/ k = 4)%nat /\ is_u128 x /\ r = RVal (of_bits t x) /\
             c = mk_conf P k s 0 (ret_pair t) /\ rg s rax = lo64 x /\ rg s rdx = hi64 x)).
      - exists 0%nat, (in_ptr g (ld_dst g) a (set1 (in_pair rax rdx 0 s) rcx 0)). split; auto. split; auto.
        split; [|split; [|split]]; try (rewrite rg_in_ptr by congruence; reflexivity).
        now apply addr_in_ptr.
      - intros c (k & s1 & [->|[->|[-> Hb]]] & -> & Zr & Zd & Zc & Za); cbn [next nth_error prog pos stt P load_block].
        + exists 1%nat. eexists. split; [auto|]. split; [reflexivity|]. unfold Z0. cbn [exec1 rg]. unfold setr.
          rewrite !reg_neq by congruence. repeat split; auto. rewrite <- Za. apply addr_mkb. cbn. unfold setr.
          now rewrite reg_neq.
        + exists 2%nat. eexists. split; [right; right; split; [reflexivity|]|split; [reflexivity|]].
          * cbn. apply Z.lxor_nilpotent.
          * unfold Z0. cbn [exec1 rg arith]. unfold setr. cbn [reg_eqb]. repeat split; auto.
            rewrite <- Za. apply addr_mkb. cbn. unfold setr. now rewrite reg_neq.
        + split; [exact Za|]. rewrite Zr, Zd, Zc, Hb. change (join64 0 0) with 0.
          intros sp x Hx. apply inr_u128 in Hx. unfold fin_val.
          destruct (Z.eqb_spec x 0) as [->|N]; cbn [fst snd]; (split; [reflexivity|]); (split; [|]).
          * intros y E. injection E as <-. now apply inr_u128.
          * exists 0, 3%nat. eexists. split; [auto|]. split; [auto|]. split; [reflexivity|]. split; [reflexivity|].
            cbn. auto.
          * discriminate.
          * exists x, 3%nat. eexists. split; [auto|]. split; [auto|]. split; [reflexivity|]. split; [reflexivity|].
            cbn. auto.
      - intros r c (x & k & s1 & [->| ->] & Ux & -> & -> & Ea & Ed).
        + cbn [next nth_error prog pos stt P load_block]. exists x, 4%nat. eexists. split; [auto|]. split; [auto|].
          split; [reflexivity|]. split; [reflexivity|]. cbn. auto.
        + cbn [next nth_error prog pos stt P load_block ret]. unfold ret_pair. now rewrite Ea, Ed, join_lo_hi.
      - unfold P, load_block. cbn [prog existsb]. reflexivity.
    Qed.

    Lemma cas_refines s cur new : in_range t cur -> in_range t new ->
      refines next width a o (cas_code g t a cur new s) (d_cas t cur new).
    Proof.
      intros Rc Rn. unfold cas_code.
      set (P := cas_block g). set (b := mkb g (cas_dst g)).
      pose proof (to_bits_u128 t cur wide_t) as Uc. pose proof (to_bits_u128 t new wide_t) as Un.
      assert (D : cas_dst g <> rax /\ cas_dst g <> rdx /\ cas_dst g <> rcx /\ cas_dst g <> rbx /\ cas_dst g <> r8).
      { unfold cas_dst. destruct (win g); repeat split; discriminate. }
      destruct D as (D1 & D2 & D3 & D4 & D5).
      set (c0 := to_bits t cur) in *. set (n0 := to_bits t new) in *.
      set (Z0 := fun s => rg s rax = lo64 c0 /\ rg s rdx = hi64 c0 /\ rg s rcx = hi64 n0 /\ addr s b = a).
      apply (straight_refines a o _ _
        (fun c => (exists k s, ((k = 0%nat /\ rg s r8 = lo64 n0) \/ (k = 1%nat /\ rg s rbx = lo64 n0)) /\ c = mk_conf P k s 0 (ret_cas t) /\ Z0 s))
        (fun r c => exists x k s, ((k = 2%nat /\ ZF s = (x =? c0)) \/ ((k = 3%nat \/ k = 4%nat) /\ rg s rcx mod 256 = if x =? c0 then 0 else 1)) /\
             is_u128 x /\ r = (if x =? c0 then ROk (of_bits t x) else RErr (of_bits t x)) /\
             c = mk_conf P k s 0 (ret_cas t) /\ rg s rax = lo64 x /\ rg s rdx = hi64 x)).
      - exists 0%nat. eexists. split; [left; split; [reflexivity|]|split; [reflexivity|]].
        + rewrite rg_in_ptr by congruence. reflexivity.
        + split; [|split; [|split]]; try (rewrite rg_in_ptr by congruence; reflexivity). now apply addr_in_ptr.
      - intros c (k & s1 & [[-> H8]|[-> Hb]] & -> & Zr & Zd & Zc & Za); cbn [next nth_error prog pos stt P cas_block].
        + exists 1%nat. eexists. split; [right; split; [reflexivity|]|split; [reflexivity|]].
          * cbn. exact H8.
          * unfold Z0. cbn [exec1 rg]. unfold setr. cbn [reg_eqb]. repeat split; auto.
            rewrite <- Za. apply addr_mkb. cbn. unfold setr. now rewrite !reg_neq by congruence.
        + split; [exact Za|]. rewrite Zr, Zd, Zc, Hb, !join_lo_hi.
          intros sp x Hx. apply inr_u128 in Hx. fold c0 n0.
          destruct (Z.eqb_spec x c0) as [->|N]; cbn [fst snd]; (split; [reflexivity|]); (split; [|]).
          * intros y E. injection E as <-. now apply inr_u128.
          * exists c0, 2%nat, (setZF s1 true). split; [left; split; [reflexivity|cbn; symmetry; apply Z.eqb_refl]|].
            split; [auto|]. rewrite Z.eqb_refl. split; [reflexivity|]. split; [reflexivity|]. cbn. auto.
          * discriminate.
          * exists x, 2%nat, (setZF (set1 (set1 s1 rax (lo64 x)) rdx (hi64 x)) false). split; [left; split; [reflexivity|cbn; symmetry; now apply Z.eqb_neq]|].
            split; [auto|]. rewrite (proj2 (Z.eqb_neq _ _) N). split; [reflexivity|]. split; [reflexivity|]. cbn. auto.
      - intros r c (x & k & s1 & [[-> Hz]|[[->| ->] Hc]] & Ux & -> & -> & Ea & Ed);
          cbn [next nth_error prog pos stt P cas_block ret].
        + exists x, 3%nat, (exec1 SETNE_CL s1). split; [right; split; [auto|]|].
          2:{ split; [auto|]. split; [reflexivity|]. split; [reflexivity|]. cbn. auto. }
          cbn [exec1 rg]. rewrite rg_setr_same. rewrite Hz. pose proof (Z.div_mod (rg s1 rcx) 256 ltac:(lia)).
          replace (rg s1 rcx - rg s1 rcx mod 256 + (if x =? c0 then 0 else 1))
            with ((if x =? c0 then 0 else 1) + (rg s1 rcx / 256) * 256) by lia.
          rewrite Z.mod_add by lia. now destruct (x =? c0).
        + exists x, 4%nat, (exec1 (MOV rbx r8) s1). split; [right; split; [auto|exact Hc]|].
          split; [auto|]. split; [reflexivity|]. split; [reflexivity|]. cbn. auto.
        + unfold ret_cas. rewrite Hc, Ea, Ed, join_lo_hi. now destruct (x =? c0).
      - reflexivity.
    Qed.
  End OneAddress.

  (** ** The whole function table *)
  Definition x86_impl (g : target) (a : Z) (o : wop) : option (impl res) :=
    let t := ty a in
    if negb ((ibits t =? 128) && callable t o && (0 <=? a) && (a <? (if x32 g then 2 ^ 32 else 2 ^ 64))) then None else
    match o with
    | WOp (OLoad _) => Some (if avx g then d_load t else d_load_cas t)
    | WOp (OStore v _) => Some (if avx g then d_store t v else c_store t 64 [0%nat; 1%nat] false v)
    | WOp (OCas c n _ _) | WCasWeak c n _ _ => Some (d_cas t c n)
    | WOp (ORmw r _) => Some (c_rmw t 64 [0%nat; 1%nat] false r)
    end.

  Lemma swap_code_refines g a (o : wop) v s rt ok : ibits (ty a) = 128 -> is_u128 v ->
    0 <= a < (if x32 g then 2 ^ 32 else 2 ^ 64) ->
    (forall s x g, is_u128 g -> rg s rax = lo64 g -> rg s rdx = hi64 g -> rt s x = ok g) ->
    refines next width a o (swap_code g a v s rt)
      (CasLoop 64 [0%nat; 1%nat] false (fun _ _ => Some v) ok ok).
  Proof.
    intros W Uv Ha Hrt. unfold swap_code.
    assert (D : ld_dst g <> rax /\ ld_dst g <> rdx /\ ld_dst g <> rcx /\ ld_dst g <> rbx /\ ld_dst g <> ld_save g /\
                  ld_save g <> rax /\ ld_save g <> rdx /\ ld_save g <> rcx /\ ld_save g <> rbx).
    { unfold ld_dst, ld_save. destruct (win g); repeat split; discriminate. }
    destruct D as (D1 & D2 & D3 & D4 & D5 & D6 & D7 & D8 & D9).
    apply (loop_refines (XCHG (ld_save g) rbx) (mkb g (ld_dst g)) (ld_save g) [] a o rt ok (fun _ => v)
             (fun s => rg s rbx = lo64 v /\ rg s rcx = hi64 v)); auto.
    - intros q Aq ->. split.
      + etransitivity; [|exact Aq]. apply addr_mkb. cbn. unfold setr. now rewrite !reg_neq by congruence.
      + cbn [exec1 rg]. unfold setr. rewrite ?(reg_neq rcx (ld_save g)), ?reg_eqb_refl by congruence. cbn [reg_eqb].
        rewrite !rg_in_ptr by congruence. cbn. unfold setr. rewrite reg_eqb_refl.
        rewrite (reg_neq (ld_save g) rcx) by congruence. auto.
    - now apply addr_in_ptr.
    - intros q q' E [E1 E2]. rewrite !E by discriminate. auto.
    - rewrite mkb_reg. auto.
    - intros q k [E1 E2] Uk Ea Ed. cbn. rewrite E1, E2, join_lo_hi. auto.
  Qed.

  Lemma body_avoids t r p q : body t r = Some p -> q <> rbx -> q <> rcx -> avoids p q = true.
  Proof.
    intros H N1 N2. destruct r; cbn in H; try discriminate; injection H as <-; unfold avoids, pick; cbn;
      rewrite ?(reg_neq q rbx), ?(reg_neq q rcx) by assumption; reflexivity.
  Qed.

  Lemma rmw_refines g a (o : wop) r p s pre dst save :
    ibits (ty a) = 128 -> rmw_typed (ty a) r -> body (ty a) r = Some p ->
    0 <= a < (if x32 g then 2 ^ 32 else 2 ^ 64) ->
    pre = MOV save rbx ->
    dst <> rax -> dst <> rdx -> dst <> rbx -> dst <> rcx -> dst <> save ->
    save <> rax -> save <> rdx -> save <> rbx -> save <> rcx ->
    (two_arg r = false -> dst <> r8 /\ dst <> r9 /\ save <> r8 /\ save <> r9 /\
       rg s r8 = lo64 (operand (ty a) r) /\ rg s r9 = hi64 (operand (ty a) r)) ->
    refines next width a o
      (mk_conf (loop_block pre (mkb g dst) save p) 0 (in_ptr g dst a s) 0 (ret_pair (ty a)))
      (c_rmw (ty a) 64 [0%nat; 1%nat] false r).
  Proof.
    intros W T Hp Ha -> A1 A2 A3 A4 A5 S1 S2 S3 S4 H3.
    assert (WF : wf_ity (ty a)) by (unfold wf_ity; lia).
    apply (loop_refines (MOV save rbx) (mkb g dst) save p a o (ret_pair (ty a)) (fin_val (ty a)) (next_bits (ty a) r)
             (fun q => two_arg r = false -> rg q r8 = lo64 (operand (ty a) r) /\ rg q r9 = hi64 (operand (ty a) r))); auto.
    - intros q Aq ->. split.
      + etransitivity; [|exact Aq]. apply addr_mkb. cbn. unfold setr. now rewrite !reg_neq by congruence.
      + intros TA. destruct (H3 TA) as (C1 & C2 & C3 & C4 & C5 & C6). cbn [exec1 rg]. unfold setr.
        rewrite !reg_neq by congruence. rewrite !rg_in_ptr by congruence. auto.
    - now apply addr_in_ptr.
    - intros q q' E HF TA. rewrite !E by discriminate. auto.
    - rewrite mkb_reg. repeat split; auto. eapply body_avoids; eauto.
    - intros q k HF Uk Ea Ed. cbn zeta.
      assert (Tb : to_bits (ty a) (of_bits (ty a) k) = k).
      { apply to_of_bits; auto. rewrite W. exact Uk. }
      destruct (body_correct (ty a) r p q (of_bits (ty a) k) W T) as (B1 & B2 & B3 & B4 & B5); auto.
      { apply of_bits_range; auto. rewrite W. exact Uk. }
      { rewrite Tb. split; auto. }
      split.
      + intros TA. destruct (HF TA) as [F1 F2].
        rewrite !exec_frame; auto; eapply body_avoids; eauto; discriminate.
      + rewrite B4, B5. auto.
    - intros k Uk. unfold next_bits. now apply to_bits_u128.
    - intros q x k Uk Ea Ed. unfold ret_pair, fin_val. now rewrite Ea, Ed, join_lo_hi.
  Qed.

  Theorem x86_refines g junk a o c : code_of g ty junk a o = Some c ->
    exists i, x86_impl g a o = Some i /\ refines next width a o c i.
  Proof.
    unfold code_of, x86_impl. set (j := junk a o).
    destruct ((ibits (ty a) =? 128) && callable (ty a) o && (0 <=? a) && (a <? (if x32 g then 2 ^ 32 else 2 ^ 64))) eqn:EC;
      cbn [negb]; [|discriminate].
    apply andb_true_iff in EC as [EC E4]. apply andb_true_iff in EC as [EC E3]. apply andb_true_iff in EC as [E1 E2].
    apply Z.eqb_eq in E1. apply Z.leb_le in E3. apply Z.ltb_lt in E4.
    assert (Ha : 0 <= a < (if x32 g then 2 ^ 32 else 2 ^ 64)) by lia.
    destruct o as [[ord|v ord|r ord|cu nw sc fl]|cu nw sc fl].
    - intros E. injection E as <-. eexists. split; [reflexivity|]. destruct (avx g).
      + now apply load_vmovdqa_refines.
      + now apply load_cx_refines.
    - intros E. injection E as <-. eexists. split; [reflexivity|]. destruct (avx g).
      + apply store_vmovdqa_refines; auto. destruct ord; auto.
      + apply swap_code_refines; auto. now apply to_bits_u128.
    - cbn in E2. apply rmw_typedb_ok in E2.
      destruct r as [v|v|v|v|v|v|v| | |v|v]; cbn [body]; intros E; injection E as <-; eexists; (split; [reflexivity|]).
      + apply swap_code_refines; auto. { now apply to_bits_u128. }
        intros s x k Uk Ea Ed. unfold ret_pair, fin_val. now rewrite Ea, Ed, join_lo_hi.
      + eapply rmw_refines; eauto; try reflexivity; unfold rmw3_dst, rmw3_save; destruct (win g); try discriminate;
          intros _; repeat split; try discriminate; reflexivity.
      + eapply rmw_refines; eauto; try reflexivity; unfold rmw3_dst, rmw3_save; destruct (win g); try discriminate;
          intros _; repeat split; try discriminate; reflexivity.
      + eapply rmw_refines; eauto; try reflexivity; unfold rmw3_dst, rmw3_save; destruct (win g); try discriminate;
          intros _; repeat split; try discriminate; reflexivity.
      + eapply rmw_refines; eauto; try reflexivity; unfold rmw3_dst, rmw3_save; destruct (win g); try discriminate;
          intros _; repeat split; try discriminate; reflexivity.
      + eapply rmw_refines; eauto; try reflexivity; unfold rmw3_dst, rmw3_save; destruct (win g); try discriminate;
          intros _; repeat split; try discriminate; reflexivity.
      + eapply rmw_refines; eauto; try reflexivity; unfold rmw3_dst, rmw3_save; destruct (win g); try discriminate;
          intros _; repeat split; try discriminate; reflexivity.
      + eapply rmw_refines; eauto; try reflexivity; unfold ld_dst, ld_save; destruct (win g); try discriminate.
      + eapply rmw_refines; eauto; try reflexivity; unfold ld_dst, ld_save; destruct (win g); try discriminate.
      + eapply rmw_refines; eauto; try reflexivity; unfold rmw3_dst, rmw3_save; destruct (win g); try discriminate;
          intros _; repeat split; try discriminate; reflexivity.
      + eapply rmw_refines; eauto; try reflexivity; unfold rmw3_dst, rmw3_save; destruct (win g); try discriminate;
          intros _; repeat split; try discriminate; reflexivity.
    - intros E. injection E as <-. eexists. split; [reflexivity|]. cbn in E2.
      apply andb_true_iff in E2 as [E2 _]. apply andb_true_iff in E2 as [E2 E2']. apply in_rangeb_iff in E2, E2'.
      now apply cas_refines.
    - intros E. injection E as <-. eexists. split; [reflexivity|]. cbn in E2.
      apply andb_true_iff in E2 as [E2 _]. apply andb_true_iff in E2 as [E2 E2']. apply in_rangeb_iff in E2, E2'.
      now apply cas_refines.
  Qed.
End Blocks.
