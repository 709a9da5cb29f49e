(** * Property C42: the build script reads RUSTFLAGS the way rustc does *)
From Coq Require Import ZArith String List Bool Lia.
From Verif Require Import StrModel StrFacts RustflagsModel RustflagsSpec RustflagsProofs.
Import ListNotations.
Open Scope Z_scope.

(** ** Whatever the environment contains, the build script does not panic on it. *)
Theorem C42_no_panic : forall (encoded : str) (env : option str), new encoded env <> None.
Proof. intros s env H. destruct (new_total s env) as (r & E). congruence. Qed.

(** ** Every command line that rustc accepts (whatever the spelling of the options) is read as rustc reads it: the
    features in order, the last CPU, the last -Z allow-features (else the environment variable). *)
Theorem C42_agrees_with_rustc : forall (args : list str) (env : option str) (es : list event),
  Forall (fun a => ~ In 31 a) args ->
  getopts args = Some es -> compiles es ->
  exists r, new (encode args) env = Some r /\
    target_feature r = map (fun p => (fst p, as_bytes (snd p))) (features es) /\
    target_cpu r = cpu es /\
    allow_features r = match allowed es with
                       | Some v => Some (true, v)
                       | None => option_map (fun v => (false, v)) env
                       end.
Proof.
  intros args env es F G C. eexists. split; [exact (new_agrees args env es F G C)|].
  split; [reflexivity|]. split; [|reflexivity]. simpl. destruct (cpu es); reflexivity.
Qed.

(** In particular the value of an option is never taken for an option, however it looks. *)
Corollary C42_values_are_not_flags : forall (name : string) (v : str) (rest : list str) env es r,
  In name ["--cfg"; "--check-cfg"; "-L"; "-l"; "--crate-type"; "--crate-name"; "--edition"; "--emit"; "--print"; "-o";
           "--out-dir"; "--explain"; "--target"; "-A"; "--allow"; "-W"; "--warn"; "--force-warn"; "-D"; "--deny"; "-F";
           "--forbid"; "--cap-lints"; "--extern"; "--sysroot"; "--error-format"; "--json"; "--color";
           "--diagnostic-width"; "--remap-path-prefix"; "--remap-path-scope"; "--env-set"; "-j"; "--jobs";
           "--jobs-frontend"; "--jobs-backend"; "--jobs-linker"]%string ->
  Forall (fun a => ~ In 31 a) (v :: rest) -> rest <> [] ->
  getopts rest = Some es -> compiles es ->
  new (encode rest) env = Some r -> new (encode (lit name :: v :: rest)) env = Some r.
Proof.
  intros name v rest env es r I F NE G C R.
  assert (FR : Forall (fun a => ~ In 31 a) rest) by (inversion F; assumption).
  assert (X : exists n, getopts (lit name :: v :: rest) = Some (Value n v :: es) /\ n <> "C"%string /\ n <> "Z"%string /\ ~ In 31 (lit name)).
  { simpl in I. repeat (destruct I as [<-|I]; [eexists; split; [vm_compute lit; cbn -[getopts find_opt];
      change (getopts (?a :: v :: rest)) with (getopts (a :: v :: rest)); cbn [getopts]; rewrite G; reflexivity
      | split; [discriminate | split; [discriminate | vm_compute; intuition discriminate]]]|]). destruct I. }
  destruct X as (n & GX & N1 & N2 & N3).
  rewrite (new_agrees _ env _ FR G C) in R. injection R as <-.
  rewrite (new_agrees (lit name :: v :: rest) env (Value n v :: es)).
  - f_equal. change (Value n v :: es) with ([Value n v] ++ es). rewrite after_app, after_other by assumption. reflexivity.
  - constructor; assumption.
  - exact GX.
  - destruct C as (C1 & C2 & C3). repeat split; intros [X|X]; (discriminate || contradiction).
Qed.

(** ** Which unstable features are allowed *)
Definition comma (c : Z) : bool := c =? 44.
Definition comma_or_space (c : Z) : bool := (c =? 44) || is_whitespace c.

Theorem C42_allowed_features : forall (args : list str) (env : option str) es r (stage : bool) (name : str),
  Forall (fun a => ~ In 31 a) args -> getopts args = Some es -> compiles es ->
  new (encode args) env = Some r ->
  (is_allowed_feature stage r name = true <->
   stage = false /\
   match allowed es, env with
   | Some l, _ => listed comma l name                 (* the last -Z allow-features=… *)
   | None, Some l => listed comma_or_space l name     (* CARGO_UNSTABLE_ALLOW_FEATURES *)
   | None, None => True                               (* everything is allowed *)
   end).
Proof.
  intros args env es r stage name F G C R. destruct (C42_agrees_with_rustc args env es F G C) as (r' & R' & _ & _ & A).
  assert (r' = r) as -> by congruence. clear R'. unfold is_allowed_feature. rewrite A.
  destruct stage; [split; [discriminate | intros [X _]; discriminate]|].
  destruct (allowed es) as [l|]; [|destruct env as [l|]; simpl].
  - rewrite existsb_listed. split; [intros H; split; [reflexivity|] | intros [_ H]]; revert H; unfold listed, comma;
      intros (b & a & E & N & B & A'); exists b, a; repeat split; auto.
    + intros c I. rewrite Z.eqb_sym. apply N. exact I.
    + destruct B as [B|(b' & c & B & X)]; [left; exact B | right; exists b', c; rewrite Z.eqb_sym; auto].
    + destruct A' as [B'|(b' & c & B' & X)]; [left; exact B' | right; exists b', c; rewrite Z.eqb_sym; auto].
    + intros c I. rewrite Z.eqb_sym. apply N. exact I.
    + destruct B as [B|(b' & c & B & X)]; [left; exact B | right; exists b', c; rewrite Z.eqb_sym; auto].
    + destruct A' as [B'|(b' & c & B' & X)]; [left; exact B' | right; exists b', c; rewrite Z.eqb_sym; auto].
  - rewrite existsb_listed. unfold comma_or_space. tauto.
  - tauto.
Qed.

(** A command line that exercises the spellings, and what is made of it. *)
Example C42_applies :
  let args := map lit ["-vOgCtarget_cpu=t"; "--cfg"; "-Ctarget-cpu=no"; "--C=target-feature=+a,-b,c"; "-Lx"; "-L"; "--codegen";
                       "--codegen"; "target-feature=+lse"; "--target=x"; "--test"; "-Zallow-features=asm"; "input.rs";
                       "-C"; "target-cpu=u"; "-o"; "-C"]%string in
  Forall (fun a => ~ In 31 a) args /\
  exists es, getopts args = Some es /\ compiles es /\
    features es = [(true, lit "a"); (false, lit "b"); (true, lit "lse")]%string /\ cpu es = Some (lit "u"%string) /\
    allowed es = Some (lit "asm"%string) /\ listed comma (lit "asm"%string) (lit "asm"%string).
Proof.
  cbv zeta. split.
  - repeat (apply Forall_cons; [vm_compute; intuition discriminate|]). apply Forall_nil.
  - eexists. split; [vm_compute; reflexivity|]. split; [repeat split; vm_compute; intuition discriminate|].
    split; [vm_compute; reflexivity|]. split; [vm_compute; reflexivity|]. split; [vm_compute; reflexivity|].
    exists [], []. repeat split; auto. vm_compute. intros c. intuition (subst; reflexivity).
Qed.
(** And one with characters outside ASCII where an offset that is not a character boundary would panic. *)
Example C42_non_ascii : new (45 :: 233 :: lit "=foo"%string) None = Some {| target_feature := []; target_cpu := None; allow_features := None |}.
Proof. vm_compute. reflexivity. Qed.

Print Assumptions C42_no_panic.
Print Assumptions C42_agrees_with_rustc.
Print Assumptions C42_values_are_not_flags.
Print Assumptions C42_allowed_features.
