(** * Property C43: the build script reads the compiler's version correctly *)
From Coq Require Import ZArith String List Bool Lia.
From Verif Require Import StrModel StrFacts VersionModel VersionSpec VersionProofs.
Import ListNotations.
Open Scope Z_scope.

(** ** Whatever the compiler (or a wrapper around it) prints, the build script does not panic. *)
Theorem C43_no_panic : forall out boot, parse out boot <> None.
Proof. intros out boot H. destruct (parse_total out boot) as (r & E). congruence. Qed.

Lemma ascii_lit : forall s, forallb (fun c => c <? 128) (lit s) = true -> Forall ascii (lit s).
Proof. intros s H. rewrite forallb_forall in H. apply Forall_forall. intros x I. specialize (H x I). unfold ascii. lia. Qed.

Lemma dev_iff : forall ch, (str_eqb (channel_of ch) (lit "nightly") || str_eqb (channel_of ch) (lit "dev")) = true <-> dev_channel ch.
Proof.
  intros ch. rewrite orb_true_iff, !str_eqb_eq. unfold dev_channel. destruct ch as [c|]; simpl.
  - split; (intros [H|H]; [left | right]; congruence).
  - split; intros [H|H]; discriminate.
Qed.

(** ** Every output with a readable release line is read as what it says. *)
Theorem C43_parse : forall out ls boot m ch, text out ls -> says_release ls m ch ->
  exists v, parse out boot = Some (Some v) /\
    minor v = m /\
    (nightly v = true <-> dev_channel ch /\ boot <> Some (lit "-1")) /\
    (dev_channel ch -> (exists d, says_date ls d /\ commit_date v = Some d) \/
                       (forall d, ~ says_date ls d) /\ commit_date v = Some unknown) /\
    (~ dev_channel ch -> commit_date v = None) /\
    (says_llvm ls (llvm v) \/ (forall k, ~ says_llvm ls k) /\ llvm v = 0).
Proof.
  intros out ls boot m ch F (s & L & R).
  destruct (field_spec out ls (lit "release: ") F (ascii_lit "release: " eq_refl)) as [(s' & L' & FR)|[N _]]; [|destruct (N s L)].
  assert (s' = s) as -> by (eapply line_of_unique; eassumption).
  assert (RR : read_release s = Some (m, channel_of ch)) by (apply release_spec; exists ch; auto).
  assert (FL : exists l, field out (lit "LLVM version: ") = Some l /\
    (forall k, llvm_major l = Some k <-> says_llvm ls k)).
  { destruct (field_spec out ls (lit "LLVM version: ") F (ascii_lit "LLVM version: " eq_refl)) as [(l & LL & FL)|[N FL]]; eexists; (split; [exact FL|]); intros k.
    - rewrite llvm_spec. unfold says_llvm. split; [intros H; exists l; auto|].
      intros (l' & A & B). assert (l' = l) as -> by (eapply line_of_unique; eassumption). exact B.
    - split; [discriminate|]. intros (l' & A & _). destruct (N l' A). }
  assert (FD : exists d, field out (lit "commit-date: ") = Some d /\
    (forall k, parse_date d = Some k <-> says_date ls k)).
  { destruct (field_spec out ls (lit "commit-date: ") F (ascii_lit "commit-date: " eq_refl)) as [(l & LL & FD)|[N FD]]; eexists; (split; [exact FD|]); intros k.
    - rewrite date_spec. unfold says_date. split; [intros H; exists l; auto|].
      intros (l' & A & B). assert (l' = l) as -> by (eapply line_of_unique; eassumption). exact B.
    - split; [discriminate|]. intros (l' & A & _). destruct (N l' A). }
  destruct FL as (l & FL & SL). destruct FD as (d & FD & SD).
  pose proof (parse_by_fields out boot _ l d FR FL FD) as P. cbv beta iota in P. rewrite RR in P.
  eexists. split; [exact P|]. unfold result. cbn [minor nightly commit_date llvm].
  pose proof (dev_iff ch) as DI. set (dev := _ || _) in *.
  split; [reflexivity|]. split; [|split; [|split]].
  - rewrite andb_true_iff, DI. split; intros [A B]; (split; [exact A|]).
    + intros ->. rewrite str_eqb_refl in B. discriminate.
    + destruct boot as [b|]; [|reflexivity]. destruct (str_eqb b (lit "-1")) eqn:E; [|reflexivity].
      apply str_eqb_eq in E as ->. destruct B; reflexivity.
  - intros D. apply DI in D. rewrite D. destruct (parse_date d) as [k|] eqn:PD.
    + left. exists k. split; [apply SD; reflexivity | reflexivity].
    + right. split; [|reflexivity]. intros k K. apply SD in K. congruence.
  - intros D. destruct dev; [|reflexivity]. destruct D. apply DI. reflexivity.
  - destruct (llvm_major l) as [k|] eqn:PL.
    + left. apply SL. reflexivity.
    + right. split; [|reflexivity]. intros k K. apply SL in K. congruence.
Qed.

(** Without one, the caller is told, and assumes the latest stable release (build.rs:43-58). *)
Theorem C43_unreadable : forall out ls boot, text out ls -> (forall m ch, ~ says_release ls m ch) ->
  parse out boot = Some None.
Proof.
  intros out ls boot F N.
  destruct (field_total out (lit "LLVM version: ") (ascii_lit "LLVM version: " eq_refl)) as (l & FL).
  destruct (field_total out (lit "commit-date: ") (ascii_lit "commit-date: " eq_refl)) as (d & FD).
  destruct (field_spec out ls (lit "release: ") F (ascii_lit "release: " eq_refl)) as [(s & L & FR)|[_ FR]];
    rewrite (parse_by_fields out boot _ l d FR FL FD); [|reflexivity].
  destruct (read_release s) as [[m c]|] eqn:RR; [|reflexivity].
  apply release_spec in RR as (ch & R & _). destruct (N m ch). exists s. auto.
Qed.

(** ** [probe]: is the compiler at least 1.m (or, before its release, a nightly of the given date)? *)
Theorem C43_probe : forall v m y mo d, probe v m y mo d = true <->
  m < minor v \/ m = minor v /\ match commit_date v with
                                | None => True      (* a release: dates don't matter *)
                                | Some c => ~ before c {| year := y; month := mo; day := d |}
                                end.
Proof. exact probe_spec. Qed.

(** A newer compiler passes every test an older one passes. *)
Definition not_older (a b : version) : Prop :=
  minor a < minor b \/ minor a = minor b /\ match commit_date a, commit_date b with
                                            | _, None => True
                                            | Some da, Some db => ~ before db da
                                            | None, Some _ => False
                                            end.
Theorem C43_probe_monotone : forall a b m y mo d, not_older a b -> probe a m y mo d = true -> probe b m y mo d = true.
Proof.
  intros a b m y mo d H. rewrite !probe_spec. intros [P|[P C]].
  - left. destruct H as [H|[H _]]; lia.
  - destruct H as [H|[H HC]]; [left; lia|]. right. split; [congruence|].
    destruct (commit_date b) as [db|]; [|exact Logic.I]. destruct (commit_date a) as [da|]; [|contradiction].
    revert C HC. unfold before. destruct da as [y1 m1 d1], db as [y2 m2 d2]. cbn [year month day]. lia.
Qed.

(** A nightly whose date is unknown passes no test for a date of its own cycle, and every test for earlier ones. *)
Theorem C43_unknown_date : forall v m y mo d, commit_date v = Some unknown -> 0 < y ->
  (probe v m y mo d = true <-> m < minor v).
Proof.
  intros v m y mo d H Y. rewrite probe_spec, H. unfold before, unknown. cbn [year month day]. split; [|auto].
  intros [P|[_ C]]; [exact P|]. destruct C. lia.
Qed.

(** The output of a nightly and of a beta. *)
Definition output (release date llvm : string) : list str :=
  map lit ["rustc 1.84.0 (9fc6b4312 2025-01-07)"; "binary: rustc"; "commit-hash: 9fc6b4312"; String.append "commit-date: " date;
           "host: x86_64-unknown-linux-gnu"; String.append "release: " release; String.append "LLVM version: " llvm]%string.
Definition lf (ls : list str) : str := flat_map (fun l => l ++ [10]) ls.
Definition crlf (ls : list str) : str := flat_map (fun l => l ++ [13; 10]) ls.
Lemma text_lf ls : Forall is_line ls -> text (lf ls) ls /\ text (crlf ls) ls.
Proof.
  induction 1 as [|l ls L F [IH1 IH2]]; [split; constructor|]. unfold lf, crlf in *. cbn [flat_map]. rewrite <- !app_assoc. split; constructor; auto.
Qed.
Example C43_applies :
  (text (lf (output "1.84.0-nightly" "2024-11-07" "19.1.5")) (output "1.84.0-nightly" "2024-11-07" "19.1.5") /\
   text (crlf (output "1.84.0-nightly" "2024-11-07" "19.1.5")) (output "1.84.0-nightly" "2024-11-07" "19.1.5")) /\
  parse (crlf (output "1.84.0" "2024-11-07" "19.1.5")) None = Some (Some {| minor := 84; nightly := false; commit_date := None; llvm := 19 |}) /\
  parse (lf (output "1.84.0-nightly" "2024-11-07" "19.1.5")) None =
    Some (Some {| minor := 84; nightly := true; commit_date := Some {| year := 2024; month := 11; day := 7 |}; llvm := 19 |}) /\
  parse (lf (output "1.84.0-nightly" "2024-11-07" "19.1.5")) (Some (lit "-1")) =
    Some (Some {| minor := 84; nightly := false; commit_date := Some {| year := 2024; month := 11; day := 7 |}; llvm := 19 |}) /\
  parse (lf (output "1.84.0-beta.3" "2024-11-07" "19.1.5")) None =
    Some (Some {| minor := 84; nightly := false; commit_date := None; llvm := 19 |}) /\
  parse (lf (output "1.84.0-dev" "2024-13-07" "19.1.5")) None =
    Some (Some {| minor := 84; nightly := true; commit_date := Some unknown; llvm := 19 |}) /\
  parse (lf (output "2.0.0" "2024-11-07" "19.1.5")) None = Some None.
Proof.
  split; [|vm_compute; auto 10].
  apply text_lf. unfold output. repeat (apply Forall_cons; [split; [vm_compute; intuition discriminate|
    intros p E; apply (f_equal (fun l => hd 0 (rev l))) in E; rewrite rev_app_distr in E; vm_compute in E; discriminate E]|]).
  apply Forall_nil.
Qed.
Example C43_says : says_release (output "1.84.0-nightly" "2024-11-07" "19.1.5") 84 (Some (lit "nightly")).
Proof.
  exists (lit "1.84.0-nightly"). split.
  - exists (firstn 5 (output "1.84.0-nightly" "2024-11-07" "19.1.5")), (skipn 6 (output "1.84.0-nightly" "2024-11-07" "19.1.5")).
    split; [reflexivity|]. intros l x I. simpl in I. repeat (destruct I as [<-|I]; [discriminate|]). destruct I.
  - exists (lit "84"), (lit ".0"). split; [reflexivity|]. split.
    + apply parse_uint_spec. reflexivity.
    + right. exists (lit "0"), 0. split; [reflexivity | apply parse_uint_spec; reflexivity].
Qed.

Print Assumptions C43_no_panic.
Print Assumptions C43_parse.
Print Assumptions C43_unreadable.
Print Assumptions C43_probe.
Print Assumptions C43_probe_monotone.
Print Assumptions C43_unknown_date.
