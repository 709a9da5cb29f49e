(** * C51: operations whose implementation is chosen at run time, from call to return

    [prun ... (pinit ...) ls = Some (s, tr)]: any number of threads call operations on any variables, ask [is_lock_free], look at the cached
    function and the cached detection result (each read may return an old value), detect, store both, call what they were sent to, are
    answered anything, and return, in any interleaving; [tr] is everything that happens.  For each architecture: there is one side,
    native or lock based, that all calls are on and every [is_lock_free] reports, however the threads race and whatever they detect; each
    call makes one call of an implementation, with the same operands and orderings at least as strong, and returns its result, or
    panics and makes none; and if the machine of the instructions - each call with its own variant - or of the lock-based
    implementation can produce the calls and answers underneath, then the calls the program makes are atomic. *)
From Coq Require Import ZArith List Bool Lia PeanoNat.
From Verif Require Import Words Spec WordsFacts.
From Verif Require FallbackModel FallbackFacts FallbackMain FallbackExtra FallbackExtra PropertiesFallback.
From Verif Require Import WideSpec OrderSpec EntrySpec LayerSpec OrderingModel DispatchModel DetectModel DetectProofs PropertiesDetect EntryModel.
From Verif Require Import LoopModel AsmModel BlockModel.
From Verif Require X86Model X86Blocks X86Main PowerModel PowerBlocks PowerMain ZacasModel RustLoopsProofs RustLoopsMain Aarch64Model Aarch64Impl Aarch64Blocks Aarch64Main.
From Verif Require PropertiesX86 PropertiesPower PropertiesLoops PropertiesAarch64.
From Verif Require Import FrontSpec LayerModel PropertiesPublic.
From Verif Require Import SelectSpec SelectModel SelectProofs.
Import ListNotations.
Open Scope Z_scope.

(** What is claimed of a run whose events are [tr]. *)
Definition one_side {V} (tr : list (sevent V)) (native : bool) : Prop :=
  (forall b, In (LockFree b) tr -> b = native) /\ (if native then lockeds tr = [] else natives tr = []).
Definition one_each {V} (tr : list (sevent V)) : Prop := calls_ok one_call one_return (fun _ => None) (layered tr).
Definition native_atomic {V C} (next : C -> action C res) (code : V -> Z -> wop -> option C) (ty : Z -> ity) (tr : list (sevent V)) : Prop :=
  forall m ls s, mem_ok ty m -> asm_run next (vcode code) (asm_init m) ls = Some (s, natives tr) ->
  linearizable_to (seen ty) (fun a => of_bits (ty a) (m a)) (publics tr) (fun a => Some (of_bits (ty a) (amem s a))).
Definition locked_atomic {V} (ty : Z -> ity) (tr : list (sevent V)) : Prop :=
  forall c m ls s, FallbackModel.wf_config c -> FallbackModel.wf_mem c m -> (forall a t, FallbackModel.objs c a = Some t -> t = ty a) ->
  FallbackModel.run c (FallbackModel.init m) ls = Some (s, lockeds tr) -> FallbackModel.windows_ok c (FallbackModel.init m) ls ->
  linearizable_to (seen ty) (FallbackModel.var_value c m) (publics tr) (fun _ => None) /\
  ((forall t, FallbackModel.pcs s t = FallbackModel.Idle) -> linearizable_to (seen ty) (FallbackModel.var_value c m) (publics tr)
     (fun a => match FallbackModel.objs c a with Some _ => Some (FallbackModel.var_value c (FallbackModel.mem s) a) | None => None end)).
Definition selected {V C} (next : C -> action C res) (code : V -> Z -> wop -> option C) (ty : Z -> ity) (tr : list (sevent V)) : Prop :=
  one_each tr /\ exists native : bool, one_side tr native /\ (if native then native_atomic next code ty tr else locked_atomic ty tr).

Lemma var_sem c ty : (forall a t, FallbackModel.objs c a = Some t -> t = ty a) ->
  forall a o x out, FallbackModel.atomic_var c a o x out -> sem ty a (WOp o) x out.
Proof. intros T a o x out (t & E & ->). rewrite (T _ _ E). reflexivity. Qed.

Section General.
  Variables (site fn env V J C : Type).
  Variable sel : site -> Z -> fn.
  Variable det : env -> Z -> Z.
  Variables (df uc : bool).
  Variable eqb : site -> site -> bool.
  Variable site_of : wop -> site.
  Variable serve : fn -> wop -> J -> option (served V).
  Variable lock_free : Z -> bool.
  Variable ty : Z -> ity.
  Variable next : C -> action C res.
  Variable code : V -> Z -> wop -> option C.
  Hypothesis eqb_ok : forall a b, eqb a b = true -> a = b.
  Hypothesis keeps : keeps_init det.
  Hypothesis serve_ok : forall o info j i, ~ forbidden_w o -> serve (sel (site_of o) info) o j = Some i -> does o (strip V i).
  Hypothesis one : forall dls d dev, dispatch_run sel det df uc eqb dls = Some (d, dev) -> exists native : bool,
    (forall id st f o j i, In (Executed _ _ id st f) dev -> st = site_of o -> serve f o j = Some i -> is_nat V i = native) /\
    (forall id i, In (Detected _ _ id i) dev -> lock_free i = native).
  Hypothesis code_ok : forall m ls s h, mem_ok ty m -> asm_run next (vcode code) (asm_init m) ls = Some (s, h) ->
    linearizable_to (by_variant (sem ty)) (fun a => of_bits (ty a) (m a)) h (fun a => Some (of_bits (ty a) (amem s a))).
  Lemma selected_holds ls s tr : prun site fn env V J sel det df uc eqb site_of serve lock_free (pinit site fn env V) ls = Some (s, tr) ->
    selected next code ty tr.
  Proof.
    intros H. destruct (select_facts site fn env V J sel det df uc eqb site_of serve lock_free eqb_ok keeps serve_ok one ls s tr H) as (native & C1 & C2 & C3 & C4 & C5 & _).
    split; [exact C1|]. exists native. split; [split; assumption|]. destruct native.
    - intros m ls0 s0 M R. apply C4; [reflexivity|]. exact (code_ok m ls0 s0 _ M R).
    - intros c m ls0 s0 WF WM T R W. split.
      + apply (C5 ty (FallbackModel.atomic_var c)); [reflexivity|now apply var_sem|]. destruct (FallbackModel.wide c) eqn:E.
        * destruct (PropertiesFallback.C02_fallback_wide_linearizable c m ls0 s0 _ E WF WM R W) as [x X]. exists x. split; [exact X|discriminate].
        * destruct (PropertiesFallback.C01_fallback_linearizable c m ls0 s0 _ E WF WM R W) as [x X]. exists x. split; [exact X|discriminate].
      + intros Q. apply (C5 ty (FallbackModel.atomic_var c)); [reflexivity|now apply var_sem|]. destruct (FallbackModel.wide c) eqn:E.
        * exact (PropertiesFallback.C02_fallback_wide_final_memory c m ls0 s0 _ E WF WM R W Q).
        * exact (PropertiesFallback.C01_fallback_final_memory c m ls0 s0 _ E WF WM R W Q).
  Qed.
End General.

(** Nobody gets stuck on the way: an idle thread can call, one inside [ifunc!] has a step of its own to make, one sent to an
    implementation can enter it, one that gets an answer can take it, and one that has a result can return. *)
Definition continues {site fn env V J : Type} (step : pstate site fn env V -> plabel site env J -> option (pstate site fn env V * list (sevent V)))
    (s : pstate site fn env V) : Prop :=
  forall t, match p_thr _ _ _ _ s t with
  | TIdle => forall a o id, d_call _ _ _ (p_disp _ _ _ _ s) id = NotStarted _ _ -> step s (PCall t a o id) <> None
  | TPick id a o => forall j, exists l, label_id _ _ l = id /\ step s (PDisp t j l) <> None
  | TGo _ _ _ => step s (PEnter t) <> None
  | TIn _ _ _ => forall r, step s (PAnswer t r) <> None
  | TBack _ => step s (PReturn t) <> None
  end.

Lemma does_intro o o' : same_work o o' -> ~ forbidden_w o' -> at_least (fst (orderings o')) (fst (orderings o)) -> at_least (snd (orderings o')) (snd (orderings o)) -> does o o'.
Proof. unfold does. auto. Qed.
Local Ltac ord := cbn in *; unfold load_panics, store_panics, cas_panics, at_least, has_acquire, has_release, is_seqcst in *; intuition (try discriminate; try congruence).

Lemma seqcst_most o : at_least SeqCst o.
Proof. unfold at_least, has_acquire, has_release, is_seqcst. auto. Qed.
Lemma callable_allowed t o : callable t o = true -> ~ forbidden_w o.
Proof.
  destruct o as [[ord|w ord|q ord|c n su fa]|c n su fa]; cbn; unfold load_panics, store_panics, cas_panics; rewrite ?andb_true_iff; intros C F;
    [destruct F; subst; discriminate|destruct F; subst; destruct C; discriminate|destruct F|destruct F; subst; destruct C; discriminate|destruct F; subst; destruct C; discriminate].
Qed.
Lemma callable_does t o o' : callable t o = true -> does o o' -> callable t o' = true.
Proof.
  intros C (Sw & F & _). destruct o as [[ord|w ord|q ord|c n su fa]|c n su fa], o' as [[ord'|w' ord'|q' ord'|c' n' su' fa']|c' n' su' fa']; cbn [same_work] in Sw;
    try contradiction; try (destruct q'; contradiction); cbn [callable forbidden_w forbidden_op] in *; unfold load_panics, store_panics, cas_panics in *.
  - destruct ord'; auto; tauto.
  - subst w'. apply andb_true_iff in C as [-> _]. destruct ord'; auto; tauto.
  - destruct q'; try contradiction. subst v. apply andb_true_iff in C as [C _]. exact C.
  - subst q'. exact C.
  - destruct Sw as [<- <-]. apply andb_true_iff in C as [-> _]. destruct fa'; auto; tauto.
  - destruct Sw as [<- <-]. apply andb_true_iff in C as [-> _]. destruct fa'; auto; tauto.
  - destruct Sw as [<- <-]. apply andb_true_iff in C as [-> _]. destruct fa'; auto; tauto.
Qed.

(** ** x86_64 *)
Definition x86_code (win x32 : bool) (ty : Z -> ity) (v : bool * X86Model.st) : Z -> wop -> option X86Model.conf :=
  X86Model.code_of (X86Model.mk_target win x32 (fst v)) ty (fun _ _ => snd v).
Definition x86_step cx avx sse df :=
  pstep wide_site wide_fn (Z * Z) (bool * X86Model.st) X86Model.st (x86_sel cx avx sse) (x86_det sse) df (negb cx) wide_site_eqb wide_site_of x86_serve
    (fun info => x86_is_lock_free (x86_env_of cx avx sse info)).
Definition x86_run cx avx sse df ls :=
  prun wide_site wide_fn (Z * Z) (bool * X86Model.st) X86Model.st (x86_sel cx avx sse) (x86_det sse) df (negb cx) wide_site_eqb wide_site_of x86_serve
    (fun info => x86_is_lock_free (x86_env_of cx avx sse info)) (pinit _ _ _ _) ls.
Lemma x86_serve_native {R} f o (j : R) i : x86_serve f o j = Some i -> wide_native f = Some (is_nat _ i).
Proof.
  destruct f as [[[ord| |[o'|ord]]|]|[ord| |[o'|ord]]|[|[s0 f0|s0 f0]]], o as [[?|? ?|? ?|? ? ? ?]|? ? ? ?]; cbn; intros H; try discriminate H; injection H as <-; reflexivity.
Qed.
Lemma x86_serve_does cx avx sse o info (j : X86Model.st) i : ~ forbidden_w o -> x86_serve (x86_sel cx avx sse (wide_site_of o) info) o j = Some i -> does o (strip _ i).
Proof.
  unfold x86_sel. generalize (x86_env_of cx avx sse info). intros e F H.
  destruct o as [[ord|v ord|q ord|c n s f]|c n s f]; cbn [wide_site_of] in H.
  - assert (E : strip _ i = WOp (OLoad SeqCst)).
    { unfold x86_load, load_store_detect in H. destruct e as [a b c d e1 e2]; cbn [ct_cx16 ct_avx ct_sse no_outline det_cx16 det_avx] in H.
      destruct a, b, c, d, e1, e2; cbn in H; injection H as <-; reflexivity. }
    rewrite E. apply does_intro; cbn [orderings fst snd]; [exact Logic.I|intros [Q|Q]; discriminate Q|apply seqcst_most|apply seqcst_most].
  - assert (E : (strip _ i = WOp (OStore v Release) /\ (ord = Relaxed \/ ord = Release)) \/ strip _ i = WOp (OStore v SeqCst)).
    { unfold x86_store, load_store_detect in H. destruct e as [a b c d e1 e2]; cbn [ct_cx16 ct_avx ct_sse no_outline det_cx16 det_avx] in H.
      destruct ord; try (exfalso; cbn in F; unfold store_panics in F; tauto); destruct a, b, c, d, e1, e2; cbn in H; injection H as <-; cbn; auto. }
    destruct E as [[-> E]| ->]; apply does_intro; cbn [orderings fst snd same_work]; try reflexivity; try (intros [Q|Q]; discriminate Q); try apply seqcst_most; destruct E as [-> | ->]; ord.
  - unfold x86_rmw in H. destruct (ct_cx16 e), (det_cx16 e); cbn in H; injection H as <-; apply does_intro; cbn; auto using seqcst_most.
  - unfold x86_cas in H. destruct (ct_cx16 e), (det_cx16 e); cbn in H; injection H as <-; apply does_intro; cbn [strip with_order orderings fst snd same_work]; auto using seqcst_most; intros [Q|Q]; discriminate Q.
  - unfold x86_cas in H. destruct (ct_cx16 e), (det_cx16 e); cbn in H; injection H as <-; apply does_intro; cbn [strip with_order orderings fst snd same_work]; auto using seqcst_most; intros [Q|Q]; discriminate Q.
Qed.
Lemma x86_serve_total cx avx sse o info (j : X86Model.st) : ~ forbidden_w o -> exists i, x86_serve (x86_sel cx avx sse (wide_site_of o) info) o j = Some i.
Proof.
  unfold x86_sel. generalize (x86_env_of cx avx sse info). intros e F.
  destruct o as [[ord|v ord|q ord|c n s f]|c n s f]; cbn [wide_site_of].
  - unfold x86_load, load_store_detect. destruct e as [a b c d e1 e2]; destruct a, b, c, d, e1, e2; cbn; eauto.
  - unfold x86_store, load_store_detect. destruct e as [a b c d e1 e2]; destruct a, b, c, d, e1, e2; destruct ord; cbn in *; unfold store_panics in F; try tauto; eauto.
  - unfold x86_rmw. destruct (ct_cx16 e), (det_cx16 e); cbn; eauto.
  - unfold x86_cas. destruct (ct_cx16 e), (det_cx16 e); cbn; eauto.
  - unfold x86_cas. destruct (ct_cx16 e), (det_cx16 e); cbn; eauto.
Qed.
Lemma x86_one cx avx sse df dls d dev : dispatch_run (x86_sel cx avx sse) (x86_det sse) df (negb cx) wide_site_eqb dls = Some (d, dev) -> exists native : bool,
  (forall id st f o (j : X86Model.st) i, In (Executed _ _ id st f) dev -> st = wide_site_of o -> x86_serve f o j = Some i -> is_nat _ i = native) /\
  (forall id i, In (Detected _ _ id i) dev -> x86_is_lock_free (x86_env_of cx avx sse i) = native).
Proof.
  intros H. destruct (C28_x86_run cx avx sse df dls d dev H) as (native & A & B). exists native. split; [|exact B].
  intros id st f o j i Hin _ S. eapply A; [exact Hin|]. exact (x86_serve_native f o j i S).
Qed.
Theorem C51_x86 : forall win x32 cx avx sse df ty ls s tr, (forall a, 0 < ibits (ty a)) ->
  x86_run cx avx sse df ls = Some (s, tr) -> selected X86Model.next (x86_code win x32 ty) ty tr.
Proof.
  intros win x32 cx avx sse df ty ls s tr WF.
  apply selected_holds; [exact wide_site_eqb_ok|apply x86_keeps|intros; eapply x86_serve_does; eassumption|apply x86_one|].
  intros m ls0 s0 h. apply variants_atomic with (impl_of := fun v => X86Blocks.x86_impl ty (X86Model.mk_target win x32 (fst v))).
  - intros v a o c E. exact (X86Blocks.x86_refines ty _ _ a o c E).
  - intros v. now apply X86Main.x86_impl_ok.
Qed.
Theorem C51_x86_continues : forall cx avx sse df ls s tr, x86_run cx avx sse df ls = Some (s, tr) -> continues (x86_step cx avx sse df) s.
Proof.
  intros cx avx sse df ls s tr H t.
  eapply select_continues; [exact wide_site_eqb_ok|apply x86_keeps|intros; eapply x86_serve_does; eassumption|apply x86_one|intros; now apply x86_serve_total|exact (0, 0)|exact H].
Qed.
(** Where a call is sent there is code for it, of the variant asked for. *)
Theorem C51_x86_code : forall (win x32 cx avx sse : bool) ty a o info (j : X86Model.st) v o', ibits (ty a) = 128 -> callable (ty a) o = true ->
  0 <= a < (if x32 then 2 ^ 32 else 2 ^ 64) ->
  x86_serve (x86_sel cx avx sse (wide_site_of o) info) o j = Some (ByNative v o') -> exists c, x86_code win x32 ty v a o' = Some c.
Proof.
  intros win x32 cx avx sse ty a o info j v o' W C A S. apply PropertiesX86.C11_x86_total; [exact W| |exact A].
  eapply callable_does; [exact C|]. apply (x86_serve_does _ _ _ _ _ _ _ (callable_allowed _ _ C) S).
Qed.
(** The instructions never get stuck either, whatever mixture of variants is running. *)
Theorem C51_x86_instructions_continue : forall win x32 ty m ls s h t c, mem_ok ty m ->
  asm_run X86Model.next (vcode (x86_code win x32 ty)) (asm_init m) ls = Some (s, h) -> athr s t = Some c ->
  forall sp, exists s' e, asm_step X86Model.next (vcode (x86_code win x32 ty)) s (mk_label t None sp) = Some (s', e).
Proof.
  intros win x32 ty m ls s h t c M. apply variants_never_stuck with (ty := ty) (impl_of := fun v => X86Blocks.x86_impl ty (X86Model.mk_target win x32 (fst v))) (m := m) (ls := ls) (h := h); [|exact M].
  intros v a o c0 E. exact (X86Blocks.x86_refines ty _ _ a o c0 E).
Qed.

(** ** powerpc64 and RISC-V, for whatever the way to detect is *)
Lemma table_serve_native {R} w f o (j : R) i : table_serve w f o j = Some i -> table_native f = Some (is_nat _ i).
Proof.
  destruct f as [[[ord|ord]|]|[[s0 f0|s0 f0]|]], o as [[?|? ?|? ?|? ? ? ?]|? ? ? ?]; cbn; intros H; try discriminate H; injection H as <-; reflexivity.
Qed.
Lemma riscv_serve_native {R} f o (j : R) i : riscv_serve f o j = Some i -> table_native f = Some (is_nat _ i).
Proof.
  destruct f as [[[ord|ord]|]|[[s0 f0|s0 f0]|]], o as [[?|? ?|? ?|? ? ? ?]|? ? ? ?]; cbn; intros H; try discriminate H; injection H as <-; reflexivity.
Qed.
Local Ltac table F H :=
  try (match type of H with context [cpu_test ?i ?f] => destruct (cpu_test i f) end); cbn in H; try discriminate H; injection H as <-; apply does_intro; cbn in *;
    unfold load_panics, store_panics, cas_panics, at_least, has_acquire, has_release, is_seqcst in *; intuition (try discriminate; try congruence).
Lemma table_serve_does {R} ct flag o info (j : R) i : ~ forbidden_w o -> table_serve ct (table_sel ct flag (wide_site_of o) info) o j = Some i -> does o (strip _ i).
Proof.
  unfold table_sel. cbv zeta. intros F H. destruct o as [[ord|v ord|q ord|c n s f]|c n s f]; cbn [wide_site_of] in H.
  - unfold table_load in H. destruct ct; destruct ord; table F H.
  - unfold table_store in H. destruct ct; destruct ord; table F H.
  - unfold table_rmw in H. destruct ct; destruct ord; table F H.
  - unfold table_cas in H. destruct ct; destruct s, f; table F H.
  - unfold table_cas in H. destruct ct; destruct s, f; table F H.
Qed.
Lemma riscv_serve_does {R} ct flag o info (j : R) i : ~ forbidden_w o -> riscv_serve (table_sel ct flag (riscv_site_of o) info) o j = Some i -> does o (strip _ i).
Proof.
  unfold table_sel. cbv zeta. intros F H. destruct o as [[ord|v ord|q ord|c n s f]|c n s f]; cbn [riscv_site_of wide_site_of] in H.
  - unfold table_load in H. destruct ct; destruct ord; table F H.
  - unfold table_rmw in H. destruct ct; destruct ord; table F H.
  - unfold table_rmw in H. destruct ct; destruct ord; table F H.
  - unfold table_cas in H. destruct ct; destruct s, f; table F H.
  - unfold table_cas in H. destruct ct; destruct s, f; table F H.
Qed.
Lemma table_serve_total {R} ct flag o info (j : R) : ~ forbidden_w o -> exists i, table_serve ct (table_sel ct flag (wide_site_of o) info) o j = Some i.
Proof.
  unfold table_sel. cbv zeta. destruct (cpu_test info flag), ct, o as [[[]|v []|q []|c n [] []]|c n [] []]; cbn; unfold load_panics, store_panics, cas_panics; intros F;
    try (exfalso; apply F; auto; fail); eauto.
Qed.
Lemma riscv_serve_total {R} ct flag o info (j : R) : ~ forbidden_w o -> exists i, riscv_serve (table_sel ct flag (riscv_site_of o) info) o j = Some i.
Proof.
  unfold table_sel. cbv zeta. destruct (cpu_test info flag), ct, o as [[[]|v []|q []|c n [] []]|c n [] []]; cbn; unfold load_panics, store_panics, cas_panics; intros F;
    try (exfalso; apply F; auto; fail); eauto.
Qed.
Section Table.
  Variables (env : Type) (det : env -> Z -> Z) (flag : Z) (ct df : bool).
  Hypothesis keeps : keeps_init det.
  Lemma power_one {R} dls d dev : dispatch_run (table_sel ct flag) det df (negb ct) wide_site_eqb dls = Some (d, dev) -> exists native : bool,
    (forall id st f o (j : R) i, In (Executed _ _ id st f) dev -> st = wide_site_of o -> table_serve ct f o j = Some i -> is_nat _ i = native) /\
    (forall id i, In (Detected _ _ id i) dev -> table_is_lock_free ct (cpu_test i flag) = native).
  Proof.
    intros H. destruct (C28_table_run env det ct flag df dls d dev keeps H) as (native & A & B). exists native. split; [|exact B].
    intros id st f o j i Hin _ S. eapply A; [exact Hin|]. exact (table_serve_native _ f o j i S).
  Qed.
  Lemma riscv_one {R} dls d dev : dispatch_run (table_sel ct flag) det df (negb ct) wide_site_eqb dls = Some (d, dev) -> exists native : bool,
    (forall id st f o (j : R) i, In (Executed _ _ id st f) dev -> st = riscv_site_of o -> riscv_serve f o j = Some i -> is_nat _ i = native) /\
    (forall id i, In (Detected _ _ id i) dev -> table_is_lock_free ct (cpu_test i flag) = native).
  Proof.
    intros H. destruct (C28_table_run env det ct flag df dls d dev keeps H) as (native & A & B). exists native. split; [|exact B].
    intros id st f o j i Hin _ S. eapply A; [exact Hin|]. exact (riscv_serve_native f o j i S).
  Qed.

  (** *** powerpc64; [ct]: quadword-atomics enabled at compile time *)
  Definition power_step :=
    pstep wide_site table_fn env PowerModel.st PowerModel.st (table_sel ct flag) det df (negb ct) wide_site_eqb wide_site_of (table_serve ct)
      (fun info => table_is_lock_free ct (cpu_test info flag)).
  Definition power_run ls :=
    prun wide_site table_fn env PowerModel.st PowerModel.st (table_sel ct flag) det df (negb ct) wide_site_eqb wide_site_of (table_serve ct)
      (fun info => table_is_lock_free ct (cpu_test info flag)) (pinit _ _ _ _) ls.
  Definition power_code (old_llvm : bool) (ty : Z -> ity) (v : PowerModel.st) : Z -> wop -> option (bconf PowerModel.instr PowerModel.jump PowerModel.minstr PowerModel.st res) :=
    PowerModel.code_of (PowerModel.mk_target old_llvm ct) ty (fun _ _ => v).
  Theorem C51_power : forall old_llvm ty ls s tr, (forall a, 0 < ibits (ty a)) -> power_run ls = Some (s, tr) ->
    selected (bnext PowerModel.exec1 PowerModel.test PowerModel.access) (power_code old_llvm ty) ty tr.
  Proof.
    intros old_llvm ty ls s tr WF.
    apply selected_holds; [exact wide_site_eqb_ok|exact keeps|intros; eapply table_serve_does; eassumption|apply power_one|].
    intros m ls0 s0 h. apply variants_atomic with (impl_of := fun _ => PowerBlocks.p_impl (PowerModel.mk_target old_llvm ct) ty).
    - intros v a o c E. exact (PowerBlocks.p_refines _ ty _ a o c E).
    - intros v. now apply PowerMain.p_impl_ok.
  Qed.
  Theorem C51_power_continues : forall (e0 : env) ls s tr, power_run ls = Some (s, tr) -> continues power_step s.
  Proof.
    intros e0 ls s tr H t.
    eapply select_continues; [exact wide_site_eqb_ok|exact keeps|intros; eapply table_serve_does; eassumption|apply power_one|intros; now apply table_serve_total|exact e0|exact H].
  Qed.
  Theorem C51_power_code : forall old_llvm ty a o info j v o', ibits (ty a) = 128 -> callable (ty a) o = true -> 0 <= a < 2 ^ 64 ->
    table_serve ct (table_sel ct flag (wide_site_of o) info) o j = Some (ByNative v o') -> exists c, power_code old_llvm ty v a o' = Some c.
  Proof.
    intros old_llvm ty a o info j v o' W C A S. apply PropertiesPower.C11_power_total; [exact W| |exact A].
    eapply callable_does; [exact C|]. apply (table_serve_does _ _ _ _ _ _ (callable_allowed _ _ C) S).
  Qed.
  Theorem C51_power_instructions_continue : forall old_llvm ty m ls s h t c, mem_ok ty m ->
    asm_run (bnext PowerModel.exec1 PowerModel.test PowerModel.access) (vcode (power_code old_llvm ty)) (asm_init m) ls = Some (s, h) -> athr s t = Some c ->
    forall sp, exists s' e, asm_step (bnext PowerModel.exec1 PowerModel.test PowerModel.access) (vcode (power_code old_llvm ty)) s (mk_label t None sp) = Some (s', e).
  Proof.
    intros old_llvm ty m ls s h t c M.
    apply variants_never_stuck with (ty := ty) (impl_of := fun _ => PowerBlocks.p_impl (PowerModel.mk_target old_llvm ct) ty) (m := m) (ls := ls) (h := h); [|exact M].
    intros v a o c0 E. exact (PowerBlocks.p_refines _ ty _ a o c0 E).
  Qed.

  (** *** RISC-V: 128-bit on RV64, 64-bit on RV32; [ct]: Zacas enabled at compile time *)
  Definition riscv_step :=
    pstep wide_site table_fn env unit unit (table_sel ct flag) det df (negb ct) wide_site_eqb riscv_site_of riscv_serve
      (fun info => table_is_lock_free ct (cpu_test info flag)).
  Definition riscv_run ls :=
    prun wide_site table_fn env unit unit (table_sel ct flag) det df (negb ct) wide_site_eqb riscv_site_of riscv_serve
      (fun info => table_is_lock_free ct (cpu_test info flag)) (pinit _ _ _ _) ls.
  Theorem C51_riscv : forall w ty ls s tr, w = 64 \/ w = 32 -> (forall a, 0 < ibits (ty a)) -> riscv_run ls = Some (s, tr) ->
    selected (ZacasModel.znext w) (fun _ : unit => ZacasModel.z_code_of w ty) ty tr.
  Proof.
    intros w ty ls s tr Hw WF. assert (Wp : 0 < w) by lia.
    apply selected_holds; [exact wide_site_eqb_ok|exact keeps|intros; eapply riscv_serve_does; eassumption|apply riscv_one|].
    intros m ls0 s0 h. apply variants_atomic with (impl_of := fun _ => RustLoopsProofs.z_impl w ty).
    - intros v a o c E. now apply RustLoopsProofs.z_refines.
    - intros v. now apply RustLoopsProofs.z_impl_ok.
  Qed.
  Theorem C51_riscv_continues : forall (e0 : env) ls s tr, riscv_run ls = Some (s, tr) -> continues riscv_step s.
  Proof.
    intros e0 ls s tr H t.
    eapply select_continues; [exact wide_site_eqb_ok|exact keeps|intros; eapply riscv_serve_does; eassumption|apply riscv_one|intros; now apply riscv_serve_total|exact e0|exact H].
  Qed.
  Theorem C51_riscv_code : forall w ty a o info v o', ibits (ty a) = 2 * w -> callable (ty a) o = true ->
    riscv_serve (table_sel ct flag (riscv_site_of o) info) o tt = Some (ByNative v o') -> exists c, ZacasModel.z_code_of w ty a o' = Some c.
  Proof.
    intros w ty a o info v o' W C S. apply PropertiesLoops.C11_riscv_total; [exact W|].
    eapply callable_does; [exact C|]. apply (riscv_serve_does _ _ _ _ _ _ (callable_allowed _ _ C) S).
  Qed.
End Table.

(** ** aarch64: never lock based, but the instructions used may differ from call to call *)
Section Aarch64.
  Variables (env : Type) (det : env -> Z -> Z) (df uc : bool) (g : Aarch64Model.target) (hw : Aarch64Model.hw).
  Hypothesis keeps : keeps_init det.
  (** The CPU has what the program was compiled for and, whatever detection may answer, what it says. *)
  Hypothesis compiled : (Aarch64Model.c_lse g = true -> Aarch64Model.h_lse hw = true) /\ (Aarch64Model.c_lse2 g = true -> Aarch64Model.h_lse2 hw = true) /\
    (Aarch64Model.c_lse128 g = true -> Aarch64Model.h_lse128 hw = true) /\ (Aarch64Model.c_rcpc3 g = true -> Aarch64Model.h_rcpc3 hw = true).
  Hypothesis truthful : forall e, let info := answer det df e in
    (cpu_test info F_lse = true -> Aarch64Model.h_lse hw = true) /\ (cpu_test info F_lse2 = true -> Aarch64Model.h_lse2 hw = true) /\
    (cpu_test info F_lse128 = true -> Aarch64Model.h_lse128 hw = true) /\ (cpu_test info F_rcpc3 = true -> Aarch64Model.h_rcpc3 hw = true).
  Lemma reported_sound e : Aarch64Model.sound (reported g (answer det df e)) hw.
  Proof. destruct compiled as (A1 & A2 & A3 & A4), (truthful e) as (B1 & B2 & B3 & B4). exact (conj A1 (conj A2 (conj A3 (conj A4 (conj B1 (conj B2 (conj B3 B4))))))). Qed.
  Definition aarch64_step :=
    pstep wide_site Z env (Z * Aarch64Model.st) Aarch64Model.st aarch64_sel det df uc wide_site_eqb wide_site_of aarch64_serve (fun _ => true).
  Definition aarch64_run ls :=
    prun wide_site Z env (Z * Aarch64Model.st) Aarch64Model.st aarch64_sel det df uc wide_site_eqb wide_site_of aarch64_serve (fun _ => true) (pinit _ _ _ _) ls.
  Definition aarch64_code (ty : Z -> ity) (v : Z * Aarch64Model.st) :
      Z -> wop -> option (bconf Aarch64Model.instr Aarch64Model.jump Aarch64Model.minstr Aarch64Model.st res) :=
    Aarch64Model.code_of (reported g (fst v)) hw ty (fun _ _ => snd v).
  Lemma aarch64_does o info (j : Aarch64Model.st) i : ~ forbidden_w o -> aarch64_serve (aarch64_sel (wide_site_of o) info) o j = Some i -> does o (strip _ i).
  Proof.
    intros F H. injection H as <-. cbn [strip]. apply does_intro; [|exact F| |]; try (split; [|split]; auto).
    destruct o as [[ord|v ord|q ord|c n s f]|c n s f]; cbn; auto.
  Qed.
  Lemma aarch64_one dls d dev : dispatch_run aarch64_sel det df uc wide_site_eqb dls = Some (d, dev) -> exists native : bool,
    (forall id st f o (j : Aarch64Model.st) i, In (Executed _ _ id st f) dev -> st = wide_site_of o -> aarch64_serve f o j = Some i -> is_nat _ i = native) /\
    (forall id i, In (Detected _ _ id i) dev -> (fun _ : Z => true) i = native).
  Proof. intros H. exists true. split; [|reflexivity]. intros id st f o j i _ _ S. injection S as <-. reflexivity. Qed.
  Local Notation nx := (bnext Aarch64Model.exec1 Aarch64Model.test (Aarch64Model.access (Aarch64Model.be g) hw)).
  Definition soundb (h : Aarch64Model.target) : bool :=
    implb (Aarch64Model.c_lse h) (Aarch64Model.h_lse hw) && implb (Aarch64Model.c_lse2 h) (Aarch64Model.h_lse2 hw) &&
    implb (Aarch64Model.c_lse128 h) (Aarch64Model.h_lse128 hw) && implb (Aarch64Model.c_rcpc3 h) (Aarch64Model.h_rcpc3 hw) &&
    implb (Aarch64Model.d_lse h) (Aarch64Model.h_lse hw) && implb (Aarch64Model.d_lse2 h) (Aarch64Model.h_lse2 hw) &&
    implb (Aarch64Model.d_lse128 h) (Aarch64Model.h_lse128 hw) && implb (Aarch64Model.d_rcpc3 h) (Aarch64Model.h_rcpc3 hw).
  Lemma soundb_ok h : soundb h = true <-> Aarch64Model.sound h hw.
  Proof.
    assert (X : forall a b, implb a b = true <-> (a = true -> b = true)) by (intros [] []; cbn; intuition congruence).
    unfold soundb, Aarch64Model.sound. rewrite !andb_true_iff, !X. tauto.
  Qed.
  Definition only_sound (ty : Z -> ity) (v : Z * Aarch64Model.st) (a : Z) (o : wop) :=
    if soundb (reported g (fst v)) then aarch64_code ty v a o else None.
  Lemma natives_in {V} (tr : list (sevent V)) e : In e (natives tr) -> In (Native e) tr.
  Proof. induction tr as [|[x|x|x|x] tr IH]; cbn; auto. intros [->|H]; auto. Qed.
  Theorem C51_aarch64 : forall ty ls s tr, (forall a, 0 < ibits (ty a)) -> aarch64_run ls = Some (s, tr) ->
    one_each tr /\ one_side tr true /\ native_atomic nx (aarch64_code ty) ty tr.
  Proof.
    intros ty ls s tr WF H.
    destruct (facts_hold _ _ _ _ _ _ _ _ _ _ _ _ _ wide_site_eqb_ok keeps aarch64_does ls s tr H) as (d & dev & D & K).
    destruct (K true) as (C1 & C2 & C3 & C4 & _ & C6); [intros id st f o j i _ _ S; injection S as <-; reflexivity|reflexivity|]. clear K.
    split; [exact C1|]. split; [split; assumption|]. intros m ls0 s0 M R. apply C4; [reflexivity|].
    assert (R2 : asm_run nx (vcode (only_sound ty)) (asm_init m) ls0 = Some (s0, natives tr)).
    { eapply asm_run_agree; [exact R|]. intros t a [v o'] Hin. apply natives_in in Hin. destruct (C6 _ _ _ _ Hin) as (o & e & j & S). unfold aarch64_serve, aarch64_sel in S. injection S as <- <-.
      unfold vcode, only_sound. cbn [fst snd]. rewrite (proj2 (soundb_ok _) (reported_sound e)). reflexivity. }
    apply variants_atomic with (ls := ls0) (code_of := only_sound ty) (next := nx)
      (impl_of := fun v a o => if soundb (reported g (fst v)) then Aarch64Impl.v_impl (reported g (fst v)) hw ty a o else None); [| |exact M|exact R2].
    - intros v a o c. unfold only_sound. destruct (soundb (reported g (fst v))) eqn:Sd; [|discriminate]. apply soundb_ok in Sd.
      intros E. exact (Aarch64Impl.v_refines (reported g (fst v)) hw ty _ Sd a o c E).
    - intros v a o i. destruct (soundb (reported g (fst v))) eqn:Sd; [|discriminate]. apply soundb_ok in Sd. now apply Aarch64Main.v_impl_ok.
  Qed.
  Theorem C51_aarch64_continues : forall (e0 : env) ls s tr, aarch64_run ls = Some (s, tr) -> continues aarch64_step s.
  Proof.
    intros e0 ls s tr H t.
    eapply select_continues; [exact wide_site_eqb_ok|exact keeps|exact aarch64_does|exact aarch64_one|intros; eexists; reflexivity|exact e0|exact H].
  Qed.
  Theorem C51_aarch64_code : forall ty a o e j v o', ibits (ty a) = 128 -> callable (ty a) o = true -> 0 <= a < 2 ^ 64 ->
    aarch64_serve (aarch64_sel (wide_site_of o) (answer det df e)) o j = Some (ByNative v o') -> exists c, aarch64_code ty v a o' = Some c.
  Proof.
    intros ty a o e j v o' W C A S. injection S as <- <-. apply PropertiesAarch64.C11_aarch64_total; [apply reported_sound|exact W|exact C|exact A].
  Qed.
End Aarch64.
(** With the answers computed from the ID registers, which may differ from core to core as long as the features used are there. *)
Theorem C51_aarch64_registers : forall (core : Type) (isar0 isar1 mmfr2 : core -> Z) (df uc : bool) (g : Aarch64Model.target) (hw : Aarch64Model.hw),
  (Aarch64Model.c_lse g = true -> Aarch64Model.h_lse hw = true) /\ (Aarch64Model.c_lse2 g = true -> Aarch64Model.h_lse2 hw = true) /\
  (Aarch64Model.c_lse128 g = true -> Aarch64Model.h_lse128 hw = true) /\ (Aarch64Model.c_rcpc3 g = true -> Aarch64Model.h_rcpc3 hw = true) ->
  (forall k, (2 <= (isar0 k / 2 ^ 20) mod 16 -> Aarch64Model.h_lse hw = true) /\ (1 <= (mmfr2 k / 2 ^ 32) mod 16 -> Aarch64Model.h_lse2 hw = true) /\
    (3 <= (isar0 k / 2 ^ 20) mod 16 -> Aarch64Model.h_lse128 hw = true) /\ (3 <= (isar1 k / 2 ^ 20) mod 16 -> Aarch64Model.h_rcpc3 hw = true)) ->
  forall ty ls s tr, (forall a, 0 < ibits (ty a)) -> aarch64_run core (fun k => aa64reg_detect (isar0 k) (isar1 k) (mmfr2 k)) df uc ls = Some (s, tr) ->
  one_each tr /\ one_side tr true /\ native_atomic (bnext Aarch64Model.exec1 Aarch64Model.test (Aarch64Model.access (Aarch64Model.be g) hw)) (aarch64_code g hw ty) ty tr.
Proof.
  intros core isar0 isar1 mmfr2 df uc g hw Cp Ok ty ls s tr. apply C51_aarch64; [|exact Cp|].
  - intros k. rewrite <- (cpu_test_spec _ 0) by lia. exact (proj1 (C27_aa64reg_flags (isar0 k) (isar1 k) (mmfr2 k))).
  - intros k. unfold answer. destruct df; [cbn; repeat (split; [discriminate|]); discriminate|].
    destruct (C27_aa64reg_flags (isar0 k) (isar1 k) (mmfr2 k)) as (_ & A1 & A3 & A4 & A2), (Ok k) as (B1 & B2 & B3 & B4). cbv zeta.
    rewrite A1, A2, A3, A4. auto.
Qed.

(** ** Arm Linux before ARMv6K; [version]: of the kernel's user helpers *)
Section Kuser.
  Variables (version : Z) (df uc : bool).
  Definition kuser_step :=
    pstep wide_site table_fn unit unit unit kuser_sel (kuser_det version) df uc wide_site_eqb kuser_site_of riscv_serve (fun info => arm_is_lock_free (cpu_test info F_kuser)).
  Definition kuser_run ls :=
    prun wide_site table_fn unit unit unit kuser_sel (kuser_det version) df uc wide_site_eqb kuser_site_of riscv_serve (fun info => arm_is_lock_free (cpu_test info F_kuser)) (pinit _ _ _ _) ls.
  Lemma kuser_keeps : keeps_init (kuser_det version).
  Proof. intros e. unfold kuser_det, set_if. destruct (5 <=? version); reflexivity. Qed.
  Lemma kuser_does o info (j : unit) i : ~ forbidden_w o -> riscv_serve (kuser_sel (kuser_site_of o) info) o j = Some i -> does o (strip _ i).
  Proof.
    unfold kuser_sel. cbv zeta. intros F H. destruct (cpu_test info F_kuser), o as [[[]|v []|q []|c n [] []]|c n [] []]; cbn in H; try discriminate H; injection H as <-;
      apply does_intro; cbn in *; unfold load_panics, store_panics, cas_panics, at_least, has_acquire, has_release, is_seqcst in *; intuition (try discriminate; try congruence).
  Qed.
  Lemma kuser_total o info (j : unit) : exists i, riscv_serve (kuser_sel (kuser_site_of o) info) o j = Some i.
  Proof. unfold kuser_sel. cbv zeta. destruct (cpu_test info F_kuser), o as [[?|? ?|? ?|? ? ? ?]|? ? ? ?]; cbn; eauto. Qed.
  Lemma kuser_answer : cpu_test (answer (kuser_det version) df tt) F_kuser = negb df && (5 <=? version).
  Proof. unfold answer, kuser_det, set_if. destruct df, (5 <=? version); reflexivity. Qed.
  Lemma kuser_one dls d dev : dispatch_run kuser_sel (kuser_det version) df uc wide_site_eqb dls = Some (d, dev) ->
    (forall id st f o (j : unit) i, In (Executed _ _ id st f) dev -> st = kuser_site_of o -> riscv_serve f o j = Some i -> is_nat _ i = negb df && (5 <=? version)) /\
    (forall id i, In (Detected _ _ id i) dev -> arm_is_lock_free (cpu_test i F_kuser) = negb df && (5 <=? version)).
  Proof.
    intros H. destruct (C27_constant_platform _ _ _ _ _ _ _ _ _ _ _ tt wide_site_eqb_ok kuser_keeps ltac:(intros [] _; reflexivity) H) as [A B]. rewrite <- kuser_answer. split.
    - intros id st f o j i Hin -> S. rewrite (A _ _ _ Hin) in S. unfold kuser_sel in S. cbv zeta in S.
      destruct (cpu_test _ F_kuser), o as [[?|? ?|? ?|? ? ? ?]|? ? ? ?]; cbn in S; injection S as <-; reflexivity.
    - intros id i Hin. rewrite (B _ _ Hin). reflexivity.
  Qed.
  Theorem C51_kuser : forall be ty ls s tr, (forall a, 0 < ibits (ty a)) -> kuser_run ls = Some (s, tr) ->
    selected (KuserModel.knext be) (fun _ : unit => KuserModel.k_code_of ty) ty tr /\ one_side tr (negb df && (5 <=? version)).
  Proof.
    intros be ty ls s tr WF H. split.
    - revert H. apply selected_holds; [exact wide_site_eqb_ok|exact kuser_keeps|exact kuser_does|intros dls d dev D; eexists; exact (kuser_one dls d dev D)|].
      intros m ls0 s0 h. apply variants_atomic with (impl_of := fun _ => RustLoopsProofs.k_impl be ty).
      + intros v a o c E. now apply RustLoopsProofs.k_refines.
      + intros v. now apply RustLoopsProofs.k_impl_ok.
    - destruct (facts_hold _ _ _ _ _ _ _ _ _ _ _ _ _ wide_site_eqb_ok kuser_keeps kuser_does ls s tr H) as (d & dev & D & K).
      destruct (kuser_one _ _ _ D) as [A B]. destruct (K _ A B) as (_ & C2 & C3 & _). split; assumption.
  Qed.
  Theorem C51_kuser_continues : forall ls s tr, kuser_run ls = Some (s, tr) -> continues kuser_step s.
  Proof.
    intros ls s tr H t.
    eapply select_continues; [exact wide_site_eqb_ok|exact kuser_keeps|exact kuser_does|intros dls d dev D; eexists; exact (kuser_one dls d dev D)|intros; apply kuser_total|exact tt|exact H].
  Qed.
  Theorem C51_kuser_code : forall ty a o info v o', ibits (ty a) = 64 -> callable (ty a) o = true ->
    riscv_serve (kuser_sel (kuser_site_of o) info) o tt = Some (ByNative v o') -> exists c, KuserModel.k_code_of ty a o' = Some c.
  Proof.
    intros ty a o info v o' W C S. apply PropertiesLoops.C14_kuser_total; [exact W|].
    eapply callable_does; [exact C|]. apply (kuser_does _ _ _ _ (callable_allowed _ _ C) S).
  Qed.
End Kuser.

(** ** The public types on top: AtomicBool, pointers, floats, [fetch_update] and the rest (C50), when the integer operations
    they make are the ones dispatched *)
Theorem C51_public : forall g kd ev ls q ptr V C (next : C -> action C res) (code : V -> Z -> wop -> option C) tr,
  (forall a, kind_ok (kd a)) -> FrontMain.float_unit kd ev -> layer_run (public_code ev g kd) layer_init ls = Some (q, ptr) ->
  selected next code (ints kd) tr -> publics tr = rename wide_enc (inner_of ptr) ->
  exists native : bool, one_side tr native /\
  if native then
    forall m ls' s, mem_ok (ints kd) m -> (forall a, value_ok (kd a) (of_bits (ints kd a) (m a))) ->
    asm_run next (vcode code) (asm_init m) ls' = Some (s, natives tr) ->
    public_atomic kd (miri g) (fun a => of_bits (ints kd a) (m a)) ptr (fun a => Some (of_bits (ints kd a) (amem s a)))
  else
    forall c m ls' s, FallbackModel.wf_config c -> FallbackModel.wf_mem c m -> at_types kd (FallbackModel.objs c) ->
    (forall a, value_ok (kd a) (FallbackModel.var_value c m a)) ->
    FallbackModel.run c (FallbackModel.init m) ls' = Some (s, lockeds tr) -> FallbackModel.windows_ok c (FallbackModel.init m) ls' ->
    public_atomic kd (miri g) (FallbackModel.var_value c m) ptr (fun _ => None).
Proof.
  intros g kd ev ls q ptr V C next code tr K U R (_ & native & Os & S) E. exists native. split; [exact Os|]. destruct native.
  - intros m ls' s M Vo Ra. specialize (S m ls' s M Ra). rewrite E in S.
    exact (C50_any_backend g kd ev wop (seen (ints kd)) wide_enc ls q ptr _ _ K U (wide_ok _) Vo R S).
  - intros c m ls' s WF WM T Vo Rf W. destruct (S c m ls' s WF WM T Rf W) as [S1 _]. rewrite E in S1.
    exact (C50_any_backend g kd ev wop (seen (ints kd)) wide_enc ls q ptr _ _ K U (wide_ok _) Vo R S1).
Qed.

(** ** The hypotheses are met: two threads race to detect and get different answers.  Thread 0 wins with "yes": both use
    cmpxchg16b, thread 1's load (Acquire) as a SeqCst one, and [is_lock_free] is true. *)
Definition ex_j : X86Model.st := X86Model.mk_st (fun _ => 77) true false true false.
Definition ex_ty (a : Z) : ity := if a =? 1016 then i128 else u128.
Definition ex_l (t : nat) (l : dlabel wide_site (Z * Z)) : plabel wide_site (Z * Z) X86Model.st := PDisp t ex_j l.
Definition ex_calls : list (plabel wide_site (Z * Z) X86Model.st) :=
  [PCall 0%nat 1000 (WOp (ORmw (Add 1) SeqCst)) 0%nat; PCall 1%nat 1000 (WOp (OLoad Acquire)) 1%nat; PAsk 2%nat; PCall 3%nat 1000 (WOp (OLoad Release)) 3%nat].
Definition ex_race (win lose : Z) : list (plabel wide_site (Z * Z) X86Model.st) := ex_calls ++
  [ex_l 0%nat (StepRead _ _ 0%nat 0%nat); ex_l 1%nat (StepRead _ _ 1%nat 0%nat); ex_l 0%nat (StepRead _ _ 0%nat 0%nat); ex_l 1%nat (StepRead _ _ 1%nat 0%nat);
   ex_l 0%nat (StepEnv _ _ 0%nat (win, 0)); ex_l 1%nat (StepEnv _ _ 1%nat (lose, 0)); ex_l 0%nat (Step _ _ 0%nat); ex_l 1%nat (StepRead _ _ 1%nat 1%nat); ex_l 0%nat (Step _ _ 0%nat);
   ex_l 1%nat (Step _ _ 1%nat); ex_l 0%nat (Step _ _ 0%nat); ex_l 1%nat (Step _ _ 1%nat); ex_l 2%nat (StepRead _ _ 2%nat 1%nat);
   PEnter 0%nat; PReturn 3%nat; PEnter 1%nat; PAnswer 1%nat (RVal 5); PReturn 1%nat; PAnswer 0%nat (RVal 5); PReturn 0%nat].
Definition ex_trace (ls : list (plabel wide_site (Z * Z) X86Model.st)) : list (sevent (bool * X86Model.st)) :=
  match x86_run false false true false ls with Some (_, tr) => tr | None => [] end.
Example ex_native_run : exists s, x86_run false false true false (ex_race 8192 0) = Some (s, ex_trace (ex_race 8192 0)).
Proof. exact (run_some (x86_run false false true false (ex_race 8192 0)) ltac:(vm_compute; reflexivity)). Qed.
Example ex_native_events : publics (ex_trace (ex_race 8192 0)) =
    [Call 0%nat 1000 (WOp (ORmw (Add 1) SeqCst)); Call 1%nat 1000 (WOp (OLoad Acquire)); Call 3%nat 1000 (WOp (OLoad Release)); Return 3%nat RPanic;
     Return 1%nat (RVal 5); Return 0%nat (RVal 5)] /\
  natives (ex_trace (ex_race 8192 0)) =
    [Call 0%nat 1000 ((false, ex_j), WOp (ORmw (Add 1) SeqCst)); Call 1%nat 1000 ((false, ex_j), WOp (OLoad SeqCst)); Return 1%nat (RVal 5); Return 0%nat (RVal 5)] /\
  lockeds (ex_trace (ex_race 8192 0)) = [] /\ In (LockFree true) (ex_trace (ex_race 8192 0)).
Proof. vm_compute. intuition reflexivity. Qed.
Definition ex_v (t : nat) (o : wop) : LoopModel.label ((bool * X86Model.st) * wop) := LoopModel.mk_label t (Some (1000, ((false, ex_j), o))) false.
Definition ex_k (t : nat) : LoopModel.label ((bool * X86Model.st) * wop) := LoopModel.mk_label t None false.
Definition ex_asm : list (LoopModel.label ((bool * X86Model.st) * wop)) :=
  [ex_v 0%nat (WOp (ORmw (Add 1) SeqCst)); ex_k 0%nat; ex_v 1%nat (WOp (OLoad SeqCst))] ++ repeat (ex_k 1%nat) 5 ++ repeat (ex_k 0%nat) 10.
Example ex_native_machine :
  match asm_run X86Model.next (vcode (x86_code false false ex_ty)) (asm_init PropertiesFallback.ex_mem) ex_asm with
  | Some (s, h) => h = natives (ex_trace (ex_race 8192 0)) /\ amem s 1000 = 6 | None => False end.
Proof. vm_compute. split; reflexivity. Qed.
Lemma ex_ty_ok : forall a, 0 < ibits (ex_ty a).
Proof. intros a. unfold ex_ty. destruct (a =? 1016); reflexivity. Qed.
Lemma ex_mem_bits : mem_ok ex_ty PropertiesFallback.ex_mem.
Proof.
  intros a. unfold PropertiesFallback.ex_mem, ex_ty. assert (Q : forall x, 0 <= x < 8 -> 0 <= x < 2 ^ 128) by (intros; lia).
  replace (ibits (if a =? 1016 then i128 else u128)) with 128 by (destruct (a =? 1016); reflexivity). apply Q. destruct (a =? 1000), (a =? 68); lia.
Qed.
Example ex_native_atomic : linearizable_to (seen ex_ty) (fun a => of_bits (ex_ty a) (PropertiesFallback.ex_mem a)) (publics (ex_trace (ex_race 8192 0)))
  (fun a => if a =? 1000 then Some 6 else None).
Proof.
  destruct ex_native_run as [s R]. destruct (C51_x86 false false _ _ _ _ ex_ty _ _ _ ex_ty_ok R) as (_ & native & [_ Os] & S).
  pose proof ex_native_machine as E. destruct (asm_run _ _ _ _) as [[s1 h]|] eqn:M; [|contradiction E]. destruct E as [-> F].
  destruct native.
  - destruct (S PropertiesFallback.ex_mem ex_asm s1 ex_mem_bits M) as (f & L & N).
    exists f. split; [exact L|]. intros a v H. destruct (Z.eqb_spec a 1000) as [->|]; [|discriminate H]. injection H as <-. apply N. rewrite F. reflexivity.
  - destruct ex_native_events as (_ & Q & _). rewrite Q in Os. discriminate Os.
Qed.
(** With the answers the other way round thread 1 adopts "no": everything goes through the lock. *)
Definition ex_fl (t : nat) (o : option op) : FallbackModel.label := FallbackModel.mk_label t (match o with Some o => Some (1000, o) | None => None end).
Definition ex_fb : list FallbackModel.label :=
  [ex_fl 0%nat (Some (ORmw (Add 1) SeqCst)); ex_fl 1%nat (Some (OLoad SeqCst))] ++ repeat (ex_fl 1%nat None) 7 ++ repeat (ex_fl 0%nat None) 10.
Example ex_locked_run : exists s, x86_run false false true false (ex_race 0 8192) = Some (s, ex_trace (ex_race 0 8192)).
Proof. exact (run_some (x86_run false false true false (ex_race 0 8192)) ltac:(vm_compute; reflexivity)). Qed.
Example ex_locked_events : publics (ex_trace (ex_race 0 8192)) = publics (ex_trace (ex_race 8192 0)) /\
  lockeds (ex_trace (ex_race 0 8192)) = [Call 0%nat 1000 (ORmw (Add 1) SeqCst); Call 1%nat 1000 (OLoad SeqCst); Return 1%nat (RVal 5); Return 0%nat (RVal 5)] /\
  natives (ex_trace (ex_race 0 8192)) = [] /\ In (LockFree false) (ex_trace (ex_race 0 8192)).
Proof. vm_compute. intuition reflexivity. Qed.
Example ex_locked_machine :
  match FallbackModel.run PropertiesFallback.ex_narrow (FallbackModel.init PropertiesFallback.ex_mem) ex_fb with
  | Some (s, h) => h = lockeds (ex_trace (ex_race 0 8192)) /\ FallbackModel.mem s 1000 = 6 | None => False end.
Proof. vm_compute. split; reflexivity. Qed.
Example ex_locked_atomic : linearizable_to (seen ex_ty) (FallbackModel.var_value PropertiesFallback.ex_narrow PropertiesFallback.ex_mem)
  (publics (ex_trace (ex_race 0 8192))) (fun _ => None).
Proof.
  destruct ex_locked_run as [s R]. destruct (C51_x86 false false _ _ _ _ ex_ty _ _ _ ex_ty_ok R) as (_ & native & [_ Os] & S).
  pose proof ex_locked_machine as E. destruct (FallbackModel.run _ _ _) as [[s1 h]|] eqn:M; [|contradiction E]. destruct E as [-> F].
  destruct native.
  - destruct ex_locked_events as (_ & Q & _). rewrite Q in Os. discriminate Os.
  - apply (S PropertiesFallback.ex_narrow PropertiesFallback.ex_mem ex_fb s1).
    + exact PropertiesFallback.ex_narrow_wf.
    + exact (proj1 PropertiesFallback.ex_mem_ok).
    + intros a t. cbn [FallbackModel.objs PropertiesFallback.ex_narrow]. unfold PropertiesFallback.ex_objs, ex_ty.
      destruct (Z.eqb_spec a 1000) as [->|]; [intros H; injection H as <-; reflexivity|]. destruct (a =? 1016); [intros H; injection H as <-; reflexivity|].
      destruct (a =? 2072); [intros H; injection H as <-; reflexivity|discriminate].
    + exact M.
    + apply FallbackExtra.windows_short_init. vm_compute. reflexivity.
Qed.
(** powerpc64, RISC-V and aarch64: a call that detects and one that finds the cached function, with a store on RISC-V. *)
Definition ex_det (e : bool) (info : Z) : Z := if e then cpu_set info 1 else info.
Lemma ex_det_keeps : keeps_init ex_det.
Proof. intros []; reflexivity. Qed.
Definition ex_two {J} (j : J) (o1 o2 : wop) (e : bool) (r1 r2 : res) : list (plabel wide_site bool J) :=
  [PCall 0%nat 16 o1 0%nat; PDisp 0%nat j (StepRead _ _ 0%nat 0%nat); PDisp 0%nat j (StepRead _ _ 0%nat 0%nat); PDisp 0%nat j (StepEnv _ _ 0%nat e);
   PDisp 0%nat j (Step _ _ 0%nat); PDisp 0%nat j (Step _ _ 0%nat); PDisp 0%nat j (Step _ _ 0%nat); PEnter 0%nat; PAnswer 0%nat r1; PReturn 0%nat;
   PCall 1%nat 16 o2 1%nat; PDisp 1%nat j (StepRead _ _ 1%nat 0%nat); PDisp 1%nat j (StepRead _ _ 1%nat 1%nat);
   PDisp 1%nat j (Step _ _ 1%nat); PDisp 1%nat j (Step _ _ 1%nat); PEnter 1%nat; PAnswer 1%nat r2; PReturn 1%nat].
Example ex_riscv : match riscv_run bool ex_det 1 false false (ex_two tt (WOp (OStore 7 Release)) (WCasWeak 7 8 AcqRel Relaxed) true RUnit (ROk 7)) with
  | Some (_, tr) => natives tr = [Call 0%nat 16 (tt, WOp (OStore 7 Release)); Return 0%nat RUnit; Call 1%nat 16 (tt, WOp (OCas 7 8 AcqRel Acquire)); Return 1%nat (ROk 7)] /\ lockeds tr = []
  | None => False end.
Proof. vm_compute. split; reflexivity. Qed.
Example ex_riscv_locked : match riscv_run bool ex_det 1 false false (ex_two tt (WOp (OStore 7 Release)) (WCasWeak 7 8 AcqRel Relaxed) false (RVal 0) (ROk 7)) with
  | Some (_, tr) => lockeds tr = [Call 0%nat 16 (ORmw (Swap 7) AcqRel); Return 0%nat (RVal 0); Call 1%nat 16 (OCas 7 8 AcqRel Acquire); Return 1%nat (ROk 7)] /\ natives tr = [] /\
      publics tr = [Call 0%nat 16 (WOp (OStore 7 Release)); Return 0%nat RUnit; Call 1%nat 16 (WCasWeak 7 8 AcqRel Relaxed); Return 1%nat (ROk 7)]
  | None => False end.
Proof. vm_compute. repeat split; reflexivity. Qed.
Example ex_power : match power_run bool ex_det 1 false false (ex_two (PropertiesPower.junk0 0 (WOp (OLoad SeqCst))) (WOp (OLoad Acquire)) (WOp (ORmw (Add 1) Release)) true (RVal 0) (RVal 0)) with
  | Some (_, tr) => length (natives tr) = 4%nat /\ lockeds tr = [] | None => False end.
Proof. vm_compute. split; reflexivity. Qed.
Definition ex_kcalls (r : res) : list (plabel wide_site unit unit) :=
  [PCall 0%nat 16 (WOp (OLoad Relaxed)) 0%nat; PDisp 0%nat tt (StepRead _ _ 0%nat 0%nat); PDisp 0%nat tt (StepRead _ _ 0%nat 0%nat); PDisp 0%nat tt (StepEnv _ _ 0%nat tt);
   PDisp 0%nat tt (Step _ _ 0%nat); PDisp 0%nat tt (Step _ _ 0%nat); PDisp 0%nat tt (Step _ _ 0%nat); PEnter 0%nat; PAnswer 0%nat r; PReturn 0%nat;
   PCall 0%nat 16 (WOp (OLoad Acquire)) 1%nat; PDisp 0%nat tt (StepRead _ _ 1%nat 1%nat); PDisp 0%nat tt (Step _ _ 1%nat); PEnter 0%nat; PAnswer 0%nat r; PReturn 0%nat].
Example ex_kuser : match kuser_run 5 false false (ex_kcalls (RVal 9)) with
  | Some (_, tr) => natives tr = [Call 0%nat 16 (tt, WOp (OLoad SeqCst)); Return 0%nat (RVal 9); Call 0%nat 16 (tt, WOp (OLoad SeqCst)); Return 0%nat (RVal 9)] | None => False end.
Proof. vm_compute. reflexivity. Qed.
Example ex_kuser_locked : match kuser_run 4 false false (ex_kcalls (RVal 9)) with
  | Some (_, tr) => lockeds tr = [Call 0%nat 16 (OLoad SeqCst); Return 0%nat (RVal 9); Call 0%nat 16 (OLoad SeqCst); Return 0%nat (RVal 9)] | None => False end.
Proof. vm_compute. reflexivity. Qed.
(** Public operations on top of both runs. *)
Definition ex_pkd (a : Z) : kind := KInt (ex_ty a).
Definition ex_pls : list (llabel pop res) :=
  [LCall 0 1000 (Plain (ORmw (Add 1) SeqCst)); LStep 0; LCall 1 1000 (Plain (OLoad Acquire)); LStep 1; LCall 3 1000 (Plain (OLoad Release)); LStep 3;
   LAnswer 3 RPanic; LStep 3; LAnswer 1 (RVal 5); LStep 1; LAnswer 0 (RVal 5); LStep 0].
Example ex_public : match layer_run (public_code ex_ev ex_g ex_pkd) layer_init ex_pls with
  | Some (_, ptr) => publics (ex_trace (ex_race 8192 0)) = rename wide_enc (inner_of ptr) /\ publics (ex_trace (ex_race 0 8192)) = rename wide_enc (inner_of ptr)
  | None => False end.
Proof. vm_compute. split; reflexivity. Qed.
(** aarch64: two threads get different answers and both go ahead, one with CASP and one with LDXP/STXP; the CPU has both. *)
Definition ex_arm : Aarch64Model.target :=
  Aarch64Model.mk_target false false false false false false false true true false false false false.
Definition ex_cpu : Aarch64Model.hw := Aarch64Model.mk_hw true false false false false false.
Lemma ex_truthful : forall e, let info := answer ex_det false e in
  (cpu_test info F_lse = true -> Aarch64Model.h_lse ex_cpu = true) /\ (cpu_test info F_lse2 = true -> Aarch64Model.h_lse2 ex_cpu = true) /\
  (cpu_test info F_lse128 = true -> Aarch64Model.h_lse128 ex_cpu = true) /\ (cpu_test info F_rcpc3 = true -> Aarch64Model.h_rcpc3 ex_cpu = true).
Proof. intros []; cbn; intuition discriminate. Qed.
Definition ex_aj : Aarch64Model.st := Aarch64Model.mk_st (fun _ => 77) true false true false.
Definition ex_al (t : nat) (l : dlabel wide_site bool) : plabel wide_site bool Aarch64Model.st := PDisp t ex_aj l.
Definition ex_als : list (plabel wide_site bool Aarch64Model.st) :=
  [PCall 0%nat 16 (WOp (OCas 0 5 SeqCst SeqCst)) 0%nat; PCall 1%nat 16 (WOp (OCas 5 6 Relaxed Relaxed)) 1%nat;
   ex_al 0%nat (StepRead _ _ 0%nat 0%nat); ex_al 1%nat (StepRead _ _ 1%nat 0%nat); ex_al 0%nat (StepRead _ _ 0%nat 0%nat); ex_al 1%nat (StepRead _ _ 1%nat 0%nat);
   ex_al 0%nat (StepEnv _ _ 0%nat true); ex_al 1%nat (StepEnv _ _ 1%nat false); ex_al 0%nat (Step _ _ 0%nat); ex_al 1%nat (Step _ _ 1%nat);
   ex_al 0%nat (Step _ _ 0%nat); ex_al 1%nat (Step _ _ 1%nat); ex_al 0%nat (Step _ _ 0%nat); ex_al 1%nat (Step _ _ 1%nat);
   PEnter 0%nat; PAnswer 0%nat (ROk 0); PReturn 0%nat; PEnter 1%nat; PAnswer 1%nat (ROk 5); PReturn 1%nat].
Definition ex_atr : list (sevent (Z * Aarch64Model.st)) := match aarch64_run bool ex_det false false ex_als with Some (_, tr) => tr | None => [] end.
Definition ex_aasm : list (LoopModel.label ((Z * Aarch64Model.st) * wop)) :=
  [LoopModel.mk_label 0 (Some (16, ((3, ex_aj), WOp (OCas 0 5 SeqCst SeqCst)))) false] ++ repeat (LoopModel.mk_label 0 None false) 2 ++
  [LoopModel.mk_label 1 (Some (16, ((1, ex_aj), WOp (OCas 5 6 Relaxed Relaxed)))) false] ++ repeat (LoopModel.mk_label 1 None false) 9.
Example ex_arun : exists s, aarch64_run bool ex_det false false ex_als = Some (s, ex_atr).
Proof. exact (run_some (aarch64_run bool ex_det false false ex_als) ltac:(vm_compute; reflexivity)). Qed.
Example ex_amachine :
  match asm_run (bnext Aarch64Model.exec1 Aarch64Model.test (Aarch64Model.access false ex_cpu)) (vcode (aarch64_code ex_arm ex_cpu ex_ty)) (asm_init (fun _ => 0)) ex_aasm with
  | Some (s, h) => h = natives ex_atr /\ length h = 4%nat /\ amem s 16 = 6 | None => False end.
Proof. vm_compute. repeat split; reflexivity. Qed.

Print Assumptions C51_x86.
Print Assumptions C51_x86_continues.
Print Assumptions C51_x86_code.
Print Assumptions C51_x86_instructions_continue.
Print Assumptions C51_kuser.
Print Assumptions C51_kuser_continues.
Print Assumptions C51_kuser_code.
Print Assumptions C51_aarch64_registers.
Print Assumptions C51_public.
