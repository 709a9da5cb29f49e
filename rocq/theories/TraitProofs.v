(** Proofs about TraitModel. *)
From Coq Require Import ZArith List Bool Lia.
From Verif Require Import Words Spec WordsFacts FrontSpec FloatSpec OrderSpec LifeSpec LayerSpec TraitSpec LifeModel LayerModel TraitModel LayerProofs.
Import ListNotations.
Open Scope Z_scope.

Section Text.
  Context {Out : Type}.
  Variable text : trait -> kind -> val -> Out.
  Variable kd : Z -> kind.
  Variable arith : Z -> fop -> Z -> Z -> Prop.

  Lemma load_returns a o x x' r : fsem kd arith a (self_load (kd a) o) x (x', r) -> ~ load_panics o -> x' = x /\ returned r = Some (holding (kd a) x).
  Proof.
    unfold self_load, holding. intros H N. destruct r as [r|]; cbn [fsem] in H.
    - destruct H as [P _]. unfold psem in P. destruct (kd a) as [t| |w sz|mw ew].
      + destruct o; cbn in P; inversion P; subst; auto; exfalso; apply N; first [left; reflexivity | right; reflexivity | exact I | reflexivity].
      + destruct P as (c & -> & P). inversion P; subst. destruct c; auto.
      + destruct o; cbn in P; inversion P; subst; auto; exfalso; apply N; first [left; reflexivity | right; reflexivity | exact I | reflexivity].
      + inversion P; subst; auto.
    - destruct H as [_ P]. exfalso. apply N. destruct (kd a); exact P.
  Qed.

  Lemma relaxed_load : ~ load_panics Relaxed.
  Proof. intros [E|E]; discriminate E. Qed.

  Lemma codes_good serde a o c : trait_code text serde kd a o = Some c ->
    good (tsem text kd arith) (fsem kd arith) (fun _ _ => True) makes_only answers_after a o [] c.
  Proof.
    intros E. exists (fun cs c' => cs = [] /\ c' = c). split; [auto|]. intros cs c' [-> ->]. unfold trait_code in E. destruct o as [w|o].
    - destruct (has_impl serde (kd a) w); [|discriminate E]. injection E as <-. unfold show_code. cbn [step_ok]. split.
      + split; [reflexivity|]. destruct (kd a); (split; [exact I|reflexivity]).
      + intros x x' r _ S. split; [exact I|]. left. destruct (load_returns a _ x x' r S relaxed_load) as [-> R]. rewrite R.
        eexists. split; [reflexivity|]. split; [split; reflexivity|]. split; [reflexivity|exact I].
    - injection E as <-. cbn [step_ok]. split; [split; reflexivity|]. intros x x' r _ S. split; [exact I|]. left.
      eexists. split; [reflexivity|]. split; [exact S|]. split; [reflexivity|exact I].
  Qed.
End Text.
