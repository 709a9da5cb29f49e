(** * Reading versions: proofs *)
From Coq Require Import ZArith String List Bool Lia.
From Verif Require Import StrModel StrFacts VersionModel VersionSpec.
Import ListNotations.
Open Scope Z_scope.

(** ** Lines *)
Lemma strip_cr_line : forall l, (forall p, l <> p ++ [13]) -> strip_cr l = l.
Proof.
  intros l H. unfold strip_cr. destruct (rev l) as [|c r] eqn:E; [reflexivity|].
  destruct (Z.eqb_spec c 13) as [-> |_]; [|reflexivity].
  destruct (H (rev r)). rewrite <- (rev_involutive l), E. reflexivity.
Qed.
Lemma lines_from_app : forall l acc s, ~ In 10 l -> lines_from acc (l ++ 10 :: s) = strip_cr (rev acc ++ l) :: lines_from [] s.
Proof.
  induction l as [|c l IH]; intros acc s H; simpl.
  - rewrite app_nil_r. reflexivity.
  - destruct (Z.eqb_spec c 10) as [-> |_]; [destruct H; left; reflexivity|].
    rewrite IH by (intros X; apply H; right; exact X). simpl. rewrite <- app_assoc. reflexivity.
Qed.
Lemma strip_cr_cr : forall l, strip_cr (l ++ [13]) = l.
Proof. intros l. unfold strip_cr. rewrite rev_app_distr. cbn. apply rev_involutive. Qed.
Lemma lines_from_last : forall l acc, ~ In 10 l -> lines_from acc l = match rev acc ++ l with [] => [] | x => [x] end.
Proof.
  induction l as [|c l IH]; intros acc H; simpl.
  - rewrite app_nil_r. destruct acc as [|c acc]; [reflexivity|]. destruct (rev (c :: acc)) eqn:E; [|reflexivity].
    apply (f_equal (@length Z)) in E. rewrite rev_length in E. discriminate.
  - destruct (Z.eqb_spec c 10) as [-> |_]; [destruct H; left; reflexivity|].
    rewrite IH by (intros X; apply H; right; exact X). simpl. rewrite <- app_assoc. reflexivity.
Qed.
Lemma lines_text : forall s ls, text s ls -> lines s = ls.
Proof.
  unfold lines. induction 1 as [|l eol s ls [N C] E T IH|l [N C] NE]; [reflexivity| |].
  - destruct E as [-> | ->].
    + cbn [app]. rewrite lines_from_app by exact N. cbn [rev app]. rewrite strip_cr_line by exact C. now rewrite IH.
    + replace (l ++ [13; 10] ++ s) with ((l ++ [13]) ++ 10 :: s) by (rewrite <- app_assoc; reflexivity).
      rewrite lines_from_app.
      * cbn [rev app]. rewrite strip_cr_cr. now rewrite IH.
      * intros X. apply in_app_or in X as [X|[X|[]]]; [exact (N X) | discriminate].
  - rewrite lines_from_last by exact N. cbn [rev app]. now destruct l.
Qed.

Lemma find_line : forall ls prefix,
  (exists v, line_of ls prefix v /\ find (fun l => starts_with l prefix) ls = Some (prefix ++ v)) \/
  ((forall v, ~ line_of ls prefix v) /\ find (fun l => starts_with l prefix) ls = None).
Proof.
  induction ls as [|l ls IH]; intros prefix.
  - right. split; [|reflexivity]. intros v (b & a & E & _). destruct b; discriminate.
  - simpl. destruct (starts_with l prefix) eqn:S.
    + left. apply starts_with_iff in S as (v & ->). exists v. split; [|reflexivity]. exists [], ls. split; [reflexivity | intros ? ? []].
    + assert (NL : forall x, l <> prefix ++ x).
      { intros x ->. assert (Y : starts_with (prefix ++ x) prefix = true) by (apply starts_with_iff; eexists; reflexivity). congruence. }
      destruct (IH prefix) as [(v & (b & a & -> & N) & F)|[N F]].
      * left. exists v. split; [|exact F]. exists (l :: b), a. split; [reflexivity|]. intros k x [<-|I]; [apply NL | apply N; exact I].
      * right. split; [|exact F]. intros v (b & a & E & NB). destruct b as [|k b].
        -- injection E as -> _. destruct (NL v eq_refl).
        -- injection E as -> ->. apply (N v). exists b, a. split; [reflexivity|]. intros j x I. apply NB. right. exact I.
Qed.
Lemma line_of_unique : forall ls prefix v w, line_of ls prefix v -> line_of ls prefix w -> v = w.
Proof.
  intros ls prefix v w (b & a & E & N) (b' & a' & E' & N').
  revert b' E' N'. revert ls E N. induction b as [|x b IH]; intros ls -> N b' E' N'.
  - destruct b' as [|y b']; [injection E' as E' _; apply app_inv_head in E'; exact E'|].
    injection E' as <- _. destruct (N' (prefix ++ v) v (or_introl eq_refl) eq_refl).
  - destruct b' as [|y b']; [injection E' as -> _; destruct (N (prefix ++ w) w (or_introl eq_refl) eq_refl)|].
    injection E' as <- E'. apply (IH (b ++ (prefix ++ v) :: a)) with (b' := b'); auto.
    + intros; apply N; right; assumption.
    + intros; apply N'; right; assumption.
Qed.

Lemma field_spec : forall out ls prefix, text out ls -> Forall ascii prefix ->
  (exists v, line_of ls prefix v /\ field out prefix = Some (Some v)) \/
  ((forall v, ~ line_of ls prefix v) /\ field out prefix = Some None).
Proof.
  intros out ls prefix H A. unfold field. rewrite (lines_text out ls H).
  destruct (find_line ls prefix) as [(v & L & ->)|[N ->]]; [left | right; auto].
  exists v. split; [exact L|].
  assert (E : len prefix = length prefix).
  { unfold len. rewrite <- (app_nil_r prefix) at 1. rewrite bytes_app by exact A. simpl. rewrite app_nil_r. reflexivity. }
  rewrite E, slice_app by exact A. reflexivity.
Qed.

Lemma field_total : forall out prefix, Forall ascii prefix -> exists r, field out prefix = Some r.
Proof.
  intros out prefix A. unfold field. destruct (find_line (lines out) prefix) as [(v & _ & ->)|[_ ->]]; [|eexists; reflexivity].
  assert (E : len prefix = length prefix).
  { unfold len. rewrite <- (app_nil_r prefix) at 1. rewrite bytes_app by exact A. simpl. rewrite app_nil_r. reflexivity. }
  rewrite E, slice_app by exact A. eexists; reflexivity.
Qed.

(** ** Numbers *)
Lemma digits_spec : forall s acc n, digits acc s = Some n <->
  Forall (fun c => 48 <= c <= 57) s /\ n = fold_left (fun a c => 10 * a + (c - 48)) s acc.
Proof.
  induction s as [|c s IH]; intros acc n; simpl.
  - split; [intros E; injection E as <-; auto | intros [_ ->]; reflexivity].
  - destruct ((48 <=? c) && (c <=? 57)) eqn:D.
    + rewrite IH. split; intros [F E]; split; try exact E; [constructor; [lia | exact F] | inversion F; assumption].
    + split; [discriminate|]. intros [F _]. inversion F; subst. lia.
Qed.
Lemma parse_digits_spec : forall s n, parse_digits s = Some n <-> decimal s n.
Proof.
  intros [|c s] n; unfold parse_digits, decimal, value.
  - split; [discriminate | intros [H _]; destruct H; reflexivity].
  - rewrite digits_spec. split; [intros [F E]; repeat split; [discriminate | exact F | exact E] | intros (_ & F & E); auto].
Qed.
Lemma parse_uint_spec : forall max s n, parse_uint max s = Some n <-> number max s n.
Proof.
  intros max s n. unfold parse_uint, number.
  assert (X : forall o, match o with Some k => if k <=? max then Some k else None | None => None end = Some n <-> o = Some n /\ n <= max).
  { intros [k|]; [|split; [discriminate | intros [H _]; discriminate]].
    destruct (Z.leb_spec k max); split.
    - intros E; injection E as <-; auto.
    - intros [E _]; exact E.
    - discriminate.
    - intros [E L]; injection E as <-; lia. }
  rewrite X. clear X. destruct s as [|c t].
  - split; [intros [H _]; discriminate|]. intros [[(H & _)|(t & H & _)] _]; [destruct H; reflexivity | discriminate].
  - destruct (Z.eqb_spec c 43) as [-> |NC]; rewrite parse_digits_spec.
    + split; intros [H L]; split; try exact L.
      * right. exists t. auto.
      * destruct H as [(_ & F & _)|(t' & E & D)]; [inversion F; lia | injection E as <-; exact D].
    + split; intros [H L]; split; try exact L; auto.
      destruct H as [H|(t' & E & _)]; [exact H | injection E as -> _; destruct NC; reflexivity].
Qed.
Lemma number_fun : forall max s n k, number max s n -> number max s k -> n = k.
Proof. intros max s n k A B. apply parse_uint_spec in A, B. congruence. Qed.
Lemma number_chars : forall max s n c, number max s n -> In c s -> 48 <= c <= 57 \/ c = 43.
Proof.
  intros max s n c [[(_ & F & _)|(t & -> & _ & F & _)] _] I.
  - left. rewrite Forall_forall in F. apply F. exact I.
  - destruct I as [<-|I]; [auto | left; rewrite Forall_forall in F; apply F; exact I].
Qed.

(** ** splitn *)
Lemma splitn_none : forall n c s, ~ In c s -> splitn (S n) c s = [s].
Proof.
  intros [|n] c s H; [destruct s; reflexivity|]. cbn [splitn].
  assert (G : forall s pre, ~ In c s -> (fix go (pre s : str) : list str :=
         match s with [] => [rev pre] | x :: t => if x =? c then rev pre :: splitn (S n) c t else go (x :: pre) t end) pre s = [rev pre ++ s]).
  { induction s0 as [|x s0 IH]; intros pre N; [rewrite app_nil_r; reflexivity|].
    destruct (Z.eqb_spec x c) as [-> |_]; [destruct N; left; reflexivity|].
    rewrite IH by (intros X; apply N; right; exact X). simpl. rewrite <- app_assoc. reflexivity. }
  exact (G s [] H).
Qed.
Lemma splitn_app : forall n c a b, ~ In c a -> splitn (S (S n)) c (a ++ c :: b) = a :: splitn (S n) c b.
Proof.
  intros n c a b H. cbn [splitn].
  assert (G : forall a pre, ~ In c a -> (fix go (pre s : str) : list str :=
         match s with [] => [rev pre] | x :: t => if x =? c then rev pre :: splitn (S n) c t else go (x :: pre) t end) pre (a ++ c :: b)
         = (rev pre ++ a) :: splitn (S n) c b).
  { induction a0 as [|x a0 IH]; intros pre N; simpl.
    - rewrite Z.eqb_refl, app_nil_r. reflexivity.
    - destruct (Z.eqb_spec x c) as [-> |_]; [destruct N; left; reflexivity|].
      rewrite IH by (intros X; apply N; right; exact X). simpl. rewrite <- app_assoc. reflexivity. }
  exact (G a [] H).
Qed.
Lemma first_or_none : forall (c : Z) s, ~ In c s \/ exists a b, s = a ++ c :: b /\ ~ In c a.
Proof.
  induction s as [|x s [N|(a & b & -> & N)]].
  - left. intros [].
  - destruct (Z.eq_dec x c) as [-> |NE]; [right; exists [], s; auto | left; intros [E|E]; auto].
  - destruct (Z.eq_dec x c) as [-> |NE]; [right; exists [], (a ++ c :: b); auto|].
    right. exists (x :: a), b. split; [reflexivity|]. intros [E|E]; auto.
Qed.

Lemma no_char : forall max s n c, number max s n -> ~ (48 <= c <= 57) -> c <> 43 -> ~ In c s.
Proof. intros max s n c H A B I. destruct (number_chars max s n c H I); auto. Qed.

Lemma zero_u32 : parse_uint u32_max (lit "0") = Some 0.
Proof. reflexivity. Qed.

(** "A.B" or "A.B.C" *)
Lemma llvm_spec : forall s k, llvm_major (Some s) = Some k <-> llvm_is s k.
Proof.
  intros s k. unfold llvm_major, llvm_is. split.
  - destruct (first_or_none 46 s) as [N|(a & b & -> & NA)]; [rewrite splitn_none by exact N; discriminate|].
    rewrite splitn_app by exact NA.
    destruct (first_or_none 46 b) as [N|(b' & p & -> & NB)].
    + rewrite splitn_none by exact N. rewrite zero_u32.
      destruct (parse_uint u32_max a) eqn:PA, (parse_uint u32_max b) eqn:PB; try discriminate.
      intros E; injection E as <-. apply parse_uint_spec in PA, PB. exists a, b, z0, [].
      split; [rewrite app_nil_r; reflexivity | auto].
    + rewrite splitn_app by exact NB. cbn [splitn].
      destruct (parse_uint u32_max a) eqn:PA, (parse_uint u32_max b') eqn:PB, (parse_uint u32_max p) eqn:PP; try discriminate.
      intros E; injection E as <-. apply parse_uint_spec in PA, PB, PP. exists a, b', z0, (46 :: p).
      split; [reflexivity|]. split; [exact PA|]. split; [exact PB|]. right. exists p, z1. auto.
  - intros (a & b & n & p & -> & PA & PB & PP).
    assert (NA : ~ In 46 a) by (eapply no_char; [exact PA | lia | lia]).
    assert (NB : ~ In 46 b) by (eapply no_char; [exact PB | lia | lia]).
    change (lit "." ++ b ++ p) with (46 :: b ++ p). rewrite splitn_app by exact NA.
    destruct PP as [-> |(q & j & -> & PQ)].
    + rewrite app_nil_r, splitn_none by exact NB. rewrite zero_u32.
      apply parse_uint_spec in PA, PB. unfold u32_max. rewrite PA, PB. reflexivity.
    + change (lit "." ++ q) with (46 :: q). rewrite splitn_app by exact NB. cbn [splitn].
      apply parse_uint_spec in PA, PB, PQ. unfold u32_max. rewrite PA, PB, PQ. reflexivity.
Qed.

Lemma date_spec : forall s d, parse_date (Some s) = Some d <-> date_is s d.
Proof.
  intros s d. unfold parse_date, date_is. split.
  - destruct (first_or_none 45 s) as [N|(y & b & -> & NA)]; [rewrite splitn_none by exact N; discriminate|].
    rewrite splitn_app by exact NA.
    destruct (first_or_none 45 b) as [N|(m & dd & -> & NB)]; [rewrite splitn_none by exact N; discriminate|].
    rewrite splitn_app by exact NB. cbn [splitn].
    destruct (parse_uint u16_max y) eqn:PA, (parse_uint u8_max m) eqn:PB, (parse_uint u8_max dd) eqn:PP; try discriminate.
    destruct ((12 <? z0) || (31 <? z1)) eqn:R; [discriminate|]. intros E; injection E as <-.
    apply parse_uint_spec in PA, PB, PP. exists y, m, dd. cbn [year month day].
    split; [reflexivity|]. split; [exact PA|]. split; [exact PB|]. split; [exact PP|]. lia.
  - intros (y & m & dd & -> & PA & PB & PP & L1 & L2).
    assert (NA : ~ In 45 y) by (eapply no_char; [exact PA | lia | lia]).
    assert (NB : ~ In 45 m) by (eapply no_char; [exact PB | lia | lia]).
    change (lit "-" ++ m ++ lit "-" ++ dd) with (45 :: m ++ 45 :: dd). rewrite splitn_app by exact NA.
    rewrite splitn_app by exact NB. cbn [splitn].
    apply parse_uint_spec in PA, PB, PP. unfold u16_max, u8_max. rewrite PA, PB, PP.
    replace ((12 <? month d) || (31 <? day d)) with false by lia. destruct d; reflexivity.
Qed.

(** ** The release *)
Definition read_release (release : str) : option (Z * str) :=
  let release := splitn 2 45 release in
  let version := match release with v :: _ => v | [] => [] end in
  let channel := match release with _ :: c :: _ => c | _ => [] end in
  match splitn 3 46 version with
  | major :: m :: r =>
      if negb (str_eqb major (lit "1")) then None
      else match parse_uint u32_max m, parse_uint u32_max (match r with p :: _ => p | [] => lit "0" end) with
           | Some minor, Some _ => Some (minor, channel)
           | _, _ => None
           end
  | _ => None
  end.

Definition channel_of (c : option str) : str := match c with Some c => c | None => [] end.

Lemma release_spec : forall s m ch, read_release s = Some (m, ch) <-> exists c, release_is s m c /\ channel_of c = ch.
Proof.
  intros s m ch. unfold read_release, release_is. cbv zeta.
  (* the version and the channel *)
  assert (D : exists v c, s = v ++ match c with Some c => 45 :: c | None => [] end /\ ~ In 45 v /\
    match splitn 2 45 s with v :: _ => v | [] => [] end = v /\ match splitn 2 45 s with _ :: c :: _ => c | _ => [] end = channel_of c).
  { destruct (first_or_none 45 s) as [N|(v & c & -> & N)].
    - exists s, None. rewrite splitn_none by exact N. rewrite app_nil_r. auto.
    - exists v, (Some c). rewrite splitn_app by exact N. cbn [splitn]. auto. }
  destruct D as (v & c & ES & NV & -> & ->).
  split.
  - destruct (first_or_none 46 v) as [N|(a & b & EV & NA)]; [rewrite splitn_none by exact N; discriminate|].
    rewrite EV, splitn_app by exact NA.
    destruct (first_or_none 46 b) as [N|(m' & p & -> & NB)].
    + rewrite splitn_none by exact N. destruct (str_eqb a (lit "1")) eqn:E1; [|discriminate]. cbn [negb].
      apply str_eqb_eq in E1 as ->. rewrite zero_u32.
      destruct (parse_uint u32_max b) eqn:PB; [|discriminate]. intros E. injection E as <- <-. apply parse_uint_spec in PB.
      exists c. split; [|reflexivity]. exists b, []. split; [|auto]. rewrite ES, EV. rewrite <- app_assoc. reflexivity.
    + rewrite splitn_app by exact NB. cbn [splitn]. destruct (str_eqb a (lit "1")) eqn:E1; [|discriminate]. cbn [negb].
      apply str_eqb_eq in E1 as ->.
      destruct (parse_uint u32_max m') eqn:PB; [|discriminate]. destruct (parse_uint u32_max p) eqn:PP; [|discriminate].
      intros E. injection E as <- <-. apply parse_uint_spec in PB, PP.
      exists c. split; [|reflexivity]. exists m', (46 :: p). split; [|split; [exact PB | right; exists p, z0; auto]].
      rewrite ES, EV. rewrite <- !app_assoc. cbn [app]. rewrite <- app_assoc. reflexivity.
  - intros (c' & (m' & p & ES' & PM & PP) & EC).
    (* the first dash is the same *)
    assert (NM : ~ In 45 m' /\ ~ In 46 m') by (split; eapply no_char; try exact PM; lia).
    assert (NP : ~ In 45 p).
    { destruct PP as [-> |(q & n & -> & PQ)]; [intros []|]. change (lit "." ++ q) with (46 :: q). intros [X|X]; [discriminate|].
      revert X. eapply no_char; [exact PQ | lia | lia]. }
    assert (EQ : v = lit "1." ++ m' ++ p /\ channel_of c = channel_of c').
    { assert (N1 : ~ In 45 (lit "1." ++ m' ++ p)).
      { intros X. apply in_app_or in X as [X|X]; [vm_compute in X; intuition discriminate|].
        apply in_app_or in X as [X|X]; [destruct NM; auto | auto]. }
      rewrite ES in ES'. replace (lit "1." ++ m' ++ p ++ match c' with Some c => lit "-" ++ c | None => [] end)
        with ((lit "1." ++ m' ++ p) ++ match c' with Some c => 45 :: c | None => [] end) in ES' by (rewrite <- !app_assoc; destruct c'; reflexivity).
      revert ES'. generalize (lit "1." ++ m' ++ p) N1. clear - NV. intros w NW E.
      revert w NW E. induction v as [|x v IH]; intros [|y w] NW E; simpl in E.
      - destruct c, c'; try discriminate; [injection E as ->|]; auto.
      - destruct c; [injection E as <- _; destruct NW; left; reflexivity | discriminate].
      - destruct c'; [injection E as -> _; destruct NV; left; reflexivity | discriminate].
      - injection E as -> E. destruct (IH (fun X => NV (or_intror X)) w (fun X => NW (or_intror X)) E) as [-> ->]. auto. }
    destruct EQ as [-> EC']. rewrite EC', EC.
    change (lit "1." ++ m' ++ p) with (lit "1" ++ 46 :: m' ++ p). rewrite splitn_app by (vm_compute; intuition discriminate).
    apply parse_uint_spec in PM.
    destruct PP as [-> |(q & n & -> & PQ)].
    + rewrite app_nil_r, splitn_none by (exact (proj2 NM)). cbn [negb]. rewrite str_eqb_refl. cbn [negb].
      unfold u32_max. rewrite PM. reflexivity.
    + change (lit "." ++ q) with (46 :: q). rewrite splitn_app by (exact (proj2 NM)). cbn [splitn].
      rewrite str_eqb_refl. cbn [negb]. apply parse_uint_spec in PQ. unfold u32_max. rewrite PM, PQ. reflexivity.
Qed.

(** ** The whole *)
Definition result (m : Z) (channel : str) (boot : option str) (l d : option str) : version :=
  let dev := str_eqb channel (lit "nightly") || str_eqb channel (lit "dev") in
  {| minor := m;
     nightly := dev && match boot with Some v => negb (str_eqb v (lit "-1")) | None => true end;
     commit_date := if dev then Some (match parse_date d with Some d => d | None => unknown end) else None;
     llvm := match llvm_major l with Some n => n | None => 0 end |}.

Lemma parse_by_fields : forall out boot r l d,
  field out (lit "release: ") = Some r -> field out (lit "LLVM version: ") = Some l -> field out (lit "commit-date: ") = Some d ->
  parse out boot = Some (match r with
                         | None => None
                         | Some s => match read_release s with Some (m, ch) => Some (result m ch boot l d) | None => None end
                         end).
Proof.
  intros out boot r l d R L D. unfold parse, read_release. rewrite R, L, D. cbv zeta. destruct r as [s|]; [|reflexivity].
  destruct (splitn 3 46 _) as [|major [|m r]]; [reflexivity | |].
  - destruct (str_eqb major (lit "1")); reflexivity.
  - destruct (str_eqb major (lit "1")); [|reflexivity]. cbn [negb].
    destruct (parse_uint u32_max m) as [k|]; [|reflexivity].
    destruct (parse_uint u32_max _); [|reflexivity]. unfold result, stable.
    destruct (str_eqb _ (lit "nightly") || str_eqb _ (lit "dev")) eqn:DEV; cbn [andb].
    + destruct boot as [b|]; [destruct (str_eqb b (lit "-1")); reflexivity | reflexivity].
    + reflexivity.
Qed.

Lemma parse_total : forall out boot, exists r, parse out boot = Some r.
Proof.
  intros out boot.
  assert (A : forall s, forallb (fun c => c <? 128) (lit s) = true -> exists r, field out (lit s) = Some r).
  { intros s H. apply field_total. rewrite forallb_forall in H. apply Forall_forall. intros x I. specialize (H x I). unfold ascii. lia. }
  destruct (A "release: "%string eq_refl) as (r & R). destruct (A "LLVM version: "%string eq_refl) as (l & L). destruct (A "commit-date: "%string eq_refl) as (d & D).
  rewrite (parse_by_fields out boot r l d R L D). eexists; reflexivity.
Qed.

Lemma date_ge_spec : forall a b, date_ge a b = true <-> ~ before a b.
Proof.
  intros [y m d] [y' m' d']. unfold date_ge, before. cbn [year month day].
  destruct (Z.compare_spec y y'); [|split; [discriminate | lia] | split; [lia | reflexivity]].
  destruct (Z.compare_spec m m'); [|split; [discriminate | lia] | split; [lia | reflexivity]].
  destruct (Z.compare_spec d d'); cbn [negb]; split; try discriminate; try reflexivity; lia.
Qed.

Lemma probe_spec : forall v m y mo d, probe v m y mo d = true <->
  m < minor v \/ m = minor v /\ match commit_date v with
                                | None => True
                                | Some c => ~ before c {| year := y; month := mo; day := d |}
                                end.
Proof.
  intros v m y mo d. unfold probe. destruct (Z.eqb_spec (minor v) m) as [E|N]; cbn [negb].
  - destruct (commit_date v) as [c|]; [rewrite date_ge_spec|]; split; auto; intros H; try reflexivity.
    destruct H as [H|[_ H]]; [lia | exact H].
  - rewrite Z.ltb_lt. split; [auto|]. intros [H|[H _]]; [exact H | congruence].
Qed.
