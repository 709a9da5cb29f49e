(** * C41: the crate is consistent in every configuration

    [crate] (ConfigModel.v) is the conditional-compilation structure of the sources; [program crate e] (ConfigSpec.v)
    is what is left of it in configuration [e]: definitions, uses, macro definitions and calls.  [supported]
    (ConfigTargets.v) lists what is assumed of rustc's targets and of build.rs. *)
From Coq Require Import String List Bool Arith.
From Verif Require Import ConfigSpec ConfigTargets ConfigModel ConfigFlat ConfigTaut ConfigProofs ConfigMain.
Import ListNotations.
Local Open Scope string_scope.
Local Open Scope list_scope.

Local Notation program := (program crate).
Local Notation expands := (expands crate).
Local Notation supported := (supported crate).

(** Every macro that is called, or renamed, has exactly one definition. *)
Theorem C41_macros_defined_once : forall e, supported e -> forall n,
  In (LCall n) (program e) \/ (exists new, In (LAlias new n) (program e)) ->
  macro_definitions n (program e) = 1.
Proof. intros e S n H. exact (macro_calls e n S H). Qed.

(** No macro is defined inside of a macro call, so what [expands] looks at is all there is. *)
Theorem C41_macro_definitions : forall e, supported e -> forall n,
  macro_definitions n (program e) = macro_definitions n (outside crate e).
Proof.
  intros e _ n. unfold macro_definitions. rewrite <- flat1_pick, <- flat0_pick.
  assert (H : map (fun x => (fst x, snd x)) (filter (fun x => match snd x with LMacro _ _ | LAlias _ _ => true | _ => false end) (flat1 crate))
            = map (fun x => (fst x, snd x)) (filter (fun x => match snd x with LMacro _ _ | LAlias _ _ => true | _ => false end) (flat0 crate)))
    by (vm_compute; reflexivity).
  rewrite !map_ext with (f := fun x : cfg * leaf => (fst x, snd x)) (g := fun x => x), !map_id in H by (intros []; reflexivity).
  assert (G : forall L : list (cfg * leaf),
    length (filter (is_macro_def n) (pick e L))
    = length (filter (is_macro_def n) (pick e (filter (fun x => match snd x with LMacro _ _ | LAlias _ _ => true | _ => false end) L)))).
  { induction L as [|[g l] L IH]; [reflexivity|]. rewrite pick_cons, filter_app, app_length, IH. cbn [filter snd].
    destruct l; try (destruct (holds e g); reflexivity);
      rewrite pick_cons, filter_app, app_length; destruct (holds e g); reflexivity. }
  rewrite (G (flat1 crate)), (G (flat0 crate)), H. reflexivity.
Qed.

(** Every name a module mentions is defined exactly once where it looks for it.  One configuration is excepted. *)
Theorem C41_names_resolve : forall e, supported e -> holds e old_miri_cmpxchg16b = false ->
  forall user from name, In (LUse user from name) (program e) -> definitions from name (program e) = 1.
Proof. intros e S H u q n. exact (uses e u q n S H). Qed.

(** No module defines a name twice. *)
Theorem C41_no_duplicates : forall e, supported e ->
  forall p n, In (LDef p n) (program e) -> definitions p n (program e) = 1.
Proof. intros e S p n. exact (defs e p n S). Qed.

(** lib.rs rejects exactly the combinations of options that are documented as errors. *)
Theorem C41_rejects_misuse : forall e, real e -> (In (LError []) (program e) <-> holds e misuse = true).
Proof.
  intros e R. pose proof (real_iff fuel rejected misuse e ltac:(vm_compute; reflexivity) R) as H. rewrite <- H.
  rewrite existsb_exists. split.
  - intros I. eexists. split; [exact I | reflexivity].
  - intros (x & I & E). destruct x as [| | | | |q]; try discriminate E. destruct q; [exact I | discriminate E].
Qed.

(** When lib.rs rejects nothing, no other [compile_error!] is reached either. *)
Theorem C41_no_late_errors : forall e, supported e -> forall p, ~ In (LError p) (program e).
Proof. intros e S p. exact (errors e p S). Qed.

(** The excepted configuration is real: Miri with a nightly before Rust 1.70 on a target where cmpxchg16b is always
    available (x86_64-apple-darwin).  imp/mod.rs:567 imports AtomicU128 from the module of the lock-based fallback,
    which imp/mod.rs:110-114 does not compile. *)
Definition miri_2023 : env := of_list
  [("target_arch", Some "x86_64"); ("target_os", Some "macos"); ("target_pointer_width", Some "64");
   ("target_endian", Some "little"); ("target_has_atomic", Some "ptr"); ("target_has_atomic", Some "64");
   ("target_feature", Some "cmpxchg16b"); ("miri", None); ("portable_atomic_no_cmpxchg16b_intrinsic", None);
   ("feature", Some "fallback"); ("feature", Some "default")].
Theorem C41_miri_cmpxchg16b_refuted :
  supported miri_2023
  /\ In (LUse ["imp"] ["imp"; "fallback"] "AtomicU128") (program miri_2023)
  /\ definitions ["imp"; "fallback"] "AtomicU128" (program miri_2023) = 0.
Proof.
  split; [apply of_list_supported; vm_compute; reflexivity|].
  split; [|vm_compute; reflexivity].
  assert (H : existsb (fun l => match l with LUse ["imp"] ["imp"; "fallback"] "AtomicU128" => true | _ => false end)
                (program miri_2023) = true) by (vm_compute; reflexivity).
  apply existsb_exists in H as (x & Hx & E).
  assert (x = LUse ["imp"] ["imp"; "fallback"] "AtomicU128") as <-; [|exact Hx].
  clear Hx.
  destruct x as [| p q n| | | |]; try discriminate.
  repeat match type of E with context [match ?x with _ => _ end] => is_var x; destruct x; try discriminate E end.
  reflexivity.
Qed.

(** ** Which types exist *)
Definition public_types : list (string * list string) :=
  [("8", ["AtomicBool"; "AtomicI8"; "AtomicU8"]); ("16", ["AtomicI16"; "AtomicU16"]);
   ("32", ["AtomicI32"; "AtomicU32"]); ("64", ["AtomicI64"; "AtomicU64"]);
   ("128", ["AtomicI128"; "AtomicU128"]); ("ptr", ["AtomicPtr"; "AtomicIsize"; "AtomicUsize"])].

(** A type is exported exactly where the public macro [cfg_has_atomic_N!] says so. *)
Theorem C41_macros_tell_types : forall e, supported e ->
  forall w ts t, In (w, ts) public_types -> In t ts ->
  (In (LDef [] t) (program e) <-> expands e (String.append "cfg_has_atomic_" w) = true).
Proof.
  intros e S w ts t Hw Ht. rewrite <- defines_In.
  assert (V : forallb (fun x => forallb (fun t => known (All []) && known (mcfg (flat0 crate) (has_macro (fst x)))
                && valid BT (biff (bex (defines [] t)) (mkAnd (icfg (All [])) (bexp (has_macro (fst x)))))) (snd x)) public_types = true)
    by (vm_compute; reflexivity).
  apply (forallb_In _ _ _ V) in Hw. cbn [fst snd] in Hw. apply (forallb_In _ _ _ Hw) in Ht.
  rewrite (two_way _ _ _ e Ht S). unfold has_macro. cbn [holds]. tauto.
Qed.

(** [cfg_has_atomic_N!] and [cfg_no_atomic_N!] are complementary. *)
Theorem C41_has_or_no : forall e, supported e -> forall w, In w ["8"; "16"; "32"; "64"; "128"; "ptr"; "cas"] ->
  expands e (String.append "cfg_has_atomic_" w) = negb (expands e (String.append "cfg_no_atomic_" w)).
Proof. intros e S w H. exact (has_or_no e w S H). Qed.

(** [cfg_has_atomic_cas!] says whether compare-and-exchange is available. *)
Definition emulated : cfg :=
  Any [arch "avr"; arch "msp430"; KV "feature" "critical-section"; Flag "portable_atomic_unsafe_assume_single_core"].
Theorem C41_cas_macro : forall e, supported e ->
  expands e "cfg_has_atomic_cas" = holds e (Any [has_cas; emulated]).
Proof. intros e S. apply macro_iff; [vm_compute; reflexivity|exact S]. Qed.

(** What the documentation promises: the types up to pointer width and 32 bits wherever there is
    compare-and-exchange; 64-bit types where the target has them; all of them with the (default) feature fallback,
    also where compare-and-exchange is emulated. *)
Theorem C41_availability : forall e, supported e ->
  (holds e has_cas = true -> forall w, In w ["8"; "16"; "32"; "ptr"] -> expands e (String.append "cfg_has_atomic_" w) = true)
  /\ (holds e has_64 = true -> forall w, In w ["64"; "ptr"] -> expands e (String.append "cfg_has_atomic_" w) = true)
  /\ (holds e emulated = true -> forall w, In w ["8"; "16"; "ptr"] -> expands e (String.append "cfg_has_atomic_" w) = true)
  /\ (holds e (All [KV "feature" "fallback"; Any [has_cas; emulated]]) = true ->
      forall w, In w ["8"; "16"; "32"; "64"; "128"; "ptr"] -> expands e (String.append "cfg_has_atomic_" w) = true).
Proof.
  intros e S. repeat split; intros H w Hw.
  - refine (has_when has_cas _ e w _ _ S H Hw); [vm_compute; reflexivity|]. intros x Hx. unfold all_ws. cbn in *. tauto.
  - refine (has_when has_64 _ e w _ _ S H Hw); [vm_compute; reflexivity|]. intros x Hx. unfold all_ws. cbn in *. tauto.
  - refine (has_when emulated _ e w _ _ S H Hw); [vm_compute; reflexivity|]. intros x Hx. unfold all_ws. cbn in *. tauto.
  - refine (has_when (All [KV "feature" "fallback"; Any [has_cas; emulated]]) _ e w _ _ S H Hw); [vm_compute; reflexivity|].
    intros x Hx. unfold all_ws. cbn in *. tauto.
Qed.

(** Floats: with the feature, where the integer of the same width is. *)
Theorem C41_floats : forall e, supported e -> forall w t, In (w, t) [("32", "AtomicF32"); ("64", "AtomicF64")] ->
  (In (LDef [] t) (program e) <-> holds e (KV "feature" "float") = true /\ expands e (String.append "cfg_has_atomic_" w) = true).
Proof.
  intros e S w t H. rewrite <- defines_In.
  assert (V : forallb (fun x => known (KV "feature" "float") && known (mcfg (flat0 crate) (has_macro (fst x)))
                && valid BT (biff (bex (defines [] (snd x))) (mkAnd (icfg (KV "feature" "float")) (bexp (has_macro (fst x))))))
                [("32", "AtomicF32"); ("64", "AtomicF64")] = true) by (vm_compute; reflexivity).
  apply (forallb_In _ _ _ V) in H. exact (two_way _ _ _ e H S).
Qed.

(** ** Which implementation is chosen *)
(** The lock-based implementation is only chosen where locks can be built (compare-and-exchange), when the feature
    allows it, and not when the program is declared single-core (an interrupt handler would spin on a held lock). *)
Theorem C41_locks_only_with_cas : forall e, supported e -> forall name,
  In (LUse ["imp"] ["imp"; "fallback"] name) (program e) ->
  holds e has_cas = true /\ holds e (KV "feature" "fallback") = true
  /\ holds e (Flag "portable_atomic_unsafe_assume_single_core") = false.
Proof.
  intros e S n H. apply use_from_In in H.
  assert (G : holds e (All [has_cas; KV "feature" "fallback"; Not (Flag "portable_atomic_unsafe_assume_single_core")]) = true).
  { refine (only_when _ _ e _ S H). vm_compute. reflexivity. }
  rewrite !holds_all_cons, holds_not, holds_all_nil, andb_true_r in G.
  apply andb_prop in G as [G1 G2]. apply andb_prop in G2 as [G2 G3]. apply negb_true_iff in G3. auto.
Qed.

(** Disabling interrupts is only chosen on single-core architectures, when the user declares the program single-core, or
    (through the critical-section crate) where the target has no compare-and-exchange. *)
Theorem C41_interrupts_only_when_allowed : forall e, supported e -> forall name,
  In (LUse ["imp"] ["imp"; "interrupt"] name) (program e) ->
  holds e (arches ["avr"; "msp430"]) = true
  \/ holds e (Flag "portable_atomic_unsafe_assume_single_core") = true
  \/ (holds e (KV "feature" "critical-section") = true /\ holds e has_cas = false).
Proof.
  intros e S n H. apply use_from_In in H.
  assert (G : holds e (Any [arches ["avr"; "msp430"]; Flag "portable_atomic_unsafe_assume_single_core";
                            All [KV "feature" "critical-section"; Not has_cas]]) = true).
  { refine (only_when _ _ e _ S H). vm_compute. reflexivity. }
  rewrite !holds_any_cons, !holds_all_cons, holds_not, holds_all_nil, holds_any_nil, orb_false_r, andb_true_r in G.
  apply orb_prop in G as [G|G]; [auto|]. apply orb_prop in G as [G|G]; [auto|].
  apply andb_prop in G as [G1 G2]. apply negb_true_iff in G2. auto.
Qed.

(** Instructions not every processor of the architecture has are only chosen on that architecture, and where the
    target guarantees them or a lock-based implementation to fall back on at run time is compiled too. *)
Definition feature_on (f : string) : cfg := Any [KV "target_feature" f; KV "portable_atomic_target_feature" f].
Theorem C41_wide_instructions_guarded : forall e, supported e -> forall m a f,
  In (m, a, f) [(["imp"; "atomic128"; "x86_64"], "x86_64", "cmpxchg16b");
                (["imp"; "atomic128"; "powerpc64"], "powerpc64", "quadword-atomics");
                (["imp"; "atomic128"; "riscv64"], "riscv64", "zacas");
                (["imp"; "atomic64"; "riscv32"], "riscv32", "zacas")] ->
  forall name, In (LUse ["imp"] m name) (program e) ->
  holds e (arch a) = true
  /\ (holds e (feature_on f) = true \/ In (LDef m "fallback") (program e)).
Proof.
  intros e S m a f Hm n H. apply use_from_In in H. rewrite <- defines_In.
  assert (V : forallb (fun x => known (arch (snd (fst x))) && known (feature_on (snd x))
      && valid (bex (use_from ["imp"] (fst (fst x)))) (mkAnd (icfg (arch (snd (fst x)))) (mkOr (icfg (feature_on (snd x))) (bex (defines (fst (fst x)) "fallback")))))
      [(["imp"; "atomic128"; "x86_64"], "x86_64", "cmpxchg16b");
       (["imp"; "atomic128"; "powerpc64"], "powerpc64", "quadword-atomics");
       (["imp"; "atomic128"; "riscv64"], "riscv64", "zacas");
       (["imp"; "atomic64"; "riscv32"], "riscv32", "zacas")] = true) by (vm_compute; reflexivity).
  apply (forallb_In _ _ _ V) in Hm. exact (when_or _ _ _ _ e Hm S H).
Qed.

(** With the feature fallback off, no lock-based module is compiled, under any name. *)
Theorem C41_no_locks_without_fallback : forall e, supported e -> holds e (KV "feature" "fallback") = false ->
  forall p, ~ In (LDef p "fallback") (program e).
Proof.
  intros e S H p Hp.
  assert (G : existsb (fun l => match l with LDef _ n => String.eqb n "fallback" | _ => false end) (program e) = false).
  { refine (never_when _ (Not (KV "feature" "fallback")) e _ S _); [vm_compute; reflexivity|]. now rewrite holds_not, H. }
  assert (existsb (fun l => match l with LDef _ n => String.eqb n "fallback" | _ => false end) (program e) = true); [|congruence].
  apply existsb_exists. exists (LDef p "fallback"). split; [exact Hp|reflexivity].
Qed.

(** ** Non-vacuity: real configurations are supported, and select different implementations. *)
Definition linux_x86_64 : env := of_list
  [("target_arch", Some "x86_64"); ("target_os", Some "linux"); ("target_env", Some "gnu");
   ("target_pointer_width", Some "64"); ("target_endian", Some "little");
   ("target_has_atomic", Some "8"); ("target_has_atomic", Some "16"); ("target_has_atomic", Some "32");
   ("target_has_atomic", Some "64"); ("target_has_atomic", Some "ptr");
   ("feature", Some "default"); ("feature", Some "fallback"); ("feature", Some "float")].
Definition thumbv6m_single_core : env := of_list
  [("target_arch", Some "arm"); ("target_os", Some "none"); ("target_env", Some "");
   ("target_pointer_width", Some "32"); ("target_endian", Some "little"); ("target_feature", Some "mclass");
   ("portable_atomic_unsafe_assume_single_core", None); ("feature", Some "fallback")].
Definition avr : env := of_list
  [("target_arch", Some "avr"); ("target_os", Some "none"); ("target_pointer_width", Some "16")].
Example C41_supported :
  supported linux_x86_64 /\ supported thumbv6m_single_core /\ supported avr
  /\ holds linux_x86_64 old_miri_cmpxchg16b = false
  /\ definitions [] "AtomicU128" (program linux_x86_64) = 1 /\ definitions [] "AtomicF64" (program linux_x86_64) = 1
  /\ existsb (use_from ["imp"] ["imp"; "atomic128"; "x86_64"]) (program linux_x86_64) = true
  /\ existsb (use_from ["imp"] ["imp"; "interrupt"]) (program thumbv6m_single_core) = true
  /\ definitions [] "AtomicU64" (program thumbv6m_single_core) = 1
  /\ definitions [] "AtomicU16" (program avr) = 1 /\ definitions [] "AtomicU64" (program avr) = 0.
Proof.
  split; [apply of_list_supported; vm_compute; reflexivity|].
  split; [apply of_list_supported; vm_compute; reflexivity|].
  split; [apply of_list_supported; vm_compute; reflexivity|].
  repeat split; vm_compute; reflexivity.
Qed.

Print Assumptions C41_names_resolve.
Print Assumptions C41_availability.
Print Assumptions C41_wide_instructions_guarded.
