(** Lemmas on expressions and parametric CTMCs. *)
From Coq Require Import String ZArith Bool Reals Lra Lia Arith List.
From Verif Require Import Num Py MTools MSet MModels MCtor MRun MLik MPctmc SNum SSet SCtor SLik SPctmc LSum LSet LCtor.
Import ListNotations.
Local Open Scope R_scope.

Lemma dget_dset (d : dict R) x v y : dget (dset d x v) y = if String.eqb y x then Some v else dget d y.
Proof.
  induction d as [|(z, w) d IH]; cbn [dset dget].
  - destruct (String.eqb_spec y x); reflexivity.
  - destruct (String.eqb_spec x z) as [<-|N]; cbn [dget].
    + destruct (String.eqb_spec y x); reflexivity.
    + rewrite IH. destruct (String.eqb_spec y z) as [->|]; [|reflexivity]. destruct (String.eqb_spec z x); [congruence|reflexivity].
Qed.
Lemma new_values_get ps : forall vs (d : dict R) x, dget (new_values d ps vs) x = given ps vs (dget d) x.
Proof.
  assert (Ext : forall ps vs f g, (forall x, f x = g x) -> forall x, given ps vs f x = given ps vs g x).
  { clear. induction ps as [|p ps IH]; intros [|v vs] f g E x; cbn [given]; auto. apply IH. intros y. rewrite E. reflexivity. }
  unfold new_values. induction ps as [|p ps IH]; intros [|v vs] d x; cbn [combine fold_left given]; try reflexivity.
  rewrite IH. apply Ext. intros y. apply dget_dset.
Qed.
Lemma given_other ps : forall vs f x, ~ In x ps -> given ps vs f x = f x.
Proof.
  induction ps as [|p ps IH]; intros [|v vs] f x N; cbn [given]; auto. rewrite IH by (intros I; apply N; right; exact I).
  destruct (String.eqb_spec x p); [exfalso; apply N; left; auto|reflexivity].
Qed.
Lemma given_nth ps : forall vs f k x v, NoDup ps -> nth_error ps k = Some x -> nth_error vs k = Some v -> given ps vs f x = Some v.
Proof.
  induction ps as [|p ps IH]; intros [|w vs] f [|k] x v N E1 E2; try discriminate; cbn [given]; inversion N as [|? ? N1 N2]; subst.
  - injection E1 as ->. injection E2 as ->. rewrite given_other by exact N1. rewrite String.eqb_refl. reflexivity.
  - apply (IH vs _ k); assumption.
Qed.

Lemma symbols_occurs (e : expr R) x : In x (symbols e) <-> occurs x e.
Proof. induction e; cbn [symbols occurs]; rewrite ?in_app_iff; try tauto. cbn. intuition. Qed.
Lemma npow_pow (x : R) n : npow x n = x ^ n.
Proof. induction n as [|n IH]; cbn; [reflexivity|]. rewrite IH. reflexivity. Qed.

Definition total (d : dict R) (x : string) : R := match dget d x with Some v => v | None => 0 end.
Lemma denote_ext rho rho' e : (forall x, occurs x e -> rho x = rho' x) -> denote rho e = denote rho' e.
Proof.
  induction e; cbn [denote occurs]; intros H; auto; try (rewrite IHe1, IHe2; auto); try (rewrite IHe; auto).
Qed.
Lemma eval_denote d e v : eval d e = Some v <-> (forall x, occurs x e -> dget d x <> None) /\ v = denote (total d) e.
Proof.
  revert v. induction e; intros v; cbn [eval denote occurs].
  - split; [intros [= ->]; auto|intros (_ & ->); reflexivity].
  - unfold total. split; [intros E; split; [intros y ->; congruence|rewrite E; reflexivity]|]. intros (A & ->). specialize (A x eq_refl). destruct (dget d x); congruence.
  - destruct (eval d e1) as [a|]; [destruct (eval d e2) as [b|]|].
    + destruct (proj1 (IHe1 a) eq_refl) as (A1 & ->), (proj1 (IHe2 b) eq_refl) as (A2 & ->). nR. split; [intros [= <-]; split; [intros x [O|O]; auto|reflexivity]|intros (_ & ->); reflexivity].
    + split; [discriminate|]. intros (A & _). exfalso. assert (X : None = Some (denote (total d) e2)) by (apply IHe2; auto). discriminate.
    + split; [discriminate|]. intros (A & _). exfalso. assert (X : None = Some (denote (total d) e1)) by (apply IHe1; auto). discriminate.
  - destruct (eval d e1) as [a|]; [destruct (eval d e2) as [b|]|].
    + destruct (proj1 (IHe1 a) eq_refl) as (A1 & ->), (proj1 (IHe2 b) eq_refl) as (A2 & ->). nR. split; [intros [= <-]; split; [intros x [O|O]; auto|reflexivity]|intros (_ & ->); reflexivity].
    + split; [discriminate|]. intros (A & _). exfalso. assert (X : None = Some (denote (total d) e2)) by (apply IHe2; auto). discriminate.
    + split; [discriminate|]. intros (A & _). exfalso. assert (X : None = Some (denote (total d) e1)) by (apply IHe1; auto). discriminate.
  - destruct (eval d e1) as [a|]; [destruct (eval d e2) as [b|]|].
    + destruct (proj1 (IHe1 a) eq_refl) as (A1 & ->), (proj1 (IHe2 b) eq_refl) as (A2 & ->). nR. split; [intros [= <-]; split; [intros x [O|O]; auto|reflexivity]|intros (_ & ->); reflexivity].
    + split; [discriminate|]. intros (A & _). exfalso. assert (X : None = Some (denote (total d) e2)) by (apply IHe2; auto). discriminate.
    + split; [discriminate|]. intros (A & _). exfalso. assert (X : None = Some (denote (total d) e1)) by (apply IHe1; auto). discriminate.
  - destruct (eval d e) as [a|].
    + destruct (proj1 (IHe a) eq_refl) as (A1 & ->). rewrite npow_pow. split; [intros [= <-]; auto|intros (_ & ->); reflexivity].
    + split; [discriminate|]. intros (A & _). exfalso. assert (X : None = Some (denote (total d) e)) by (apply IHe; auto). discriminate.
Qed.
Lemma eval_has_value d e v : eval d e = Some v <-> has_value (dget d) e v.
Proof.
  rewrite eval_denote. unfold has_value. split.
  - intros (A & ->). exists (total d). split; [|reflexivity]. intros x O. specialize (A x O). unfold total. destruct (dget d x); congruence.
  - intros (rho & A & ->). split; [intros x O; rewrite (A x O); discriminate|]. apply denote_ext. intros x O. unfold total. rewrite (A x O). reflexivity.
Qed.
Lemma eval_some d e : (forall x, occurs x e -> dget d x <> None) -> exists v, eval d e = Some v.
Proof. intros A. exists (denote (total d) e). apply eval_denote. auto. Qed.
Lemma has_value_fun val e v w : has_value val e v -> has_value val e w -> v = w.
Proof. intros (r & A & ->) (r' & B & ->). apply denote_ext. intros x O. specialize (A x O). specialize (B x O). congruence. Qed.
Lemma has_value_ext val val' e v : (forall x, occurs x e -> val x = val' x) -> has_value val e v -> has_value val' e v.
Proof. intros E (r & A & ->). exists r. split; [|reflexivity]. intros x O. rewrite <- E by exact O. apply A, O. Qed.

Lemma transition_eq (m : pctmc R) i j : transitionExpression m i j = transition m i j.
Proof. reflexivity. Qed.
Lemma evaluate_rate (m : pctmc R) i j v : evaluateTransition m i j None = Some v <-> has_rate m (current m) i j v.
Proof. unfold evaluateTransition, has_rate. rewrite transition_eq. apply eval_has_value. Qed.

Lemma expr_eqb_eq : decides_eq (@expr_eqb R _).
Proof.
  intros a. induction a; intros b; destruct b; cbn [expr_eqb]; try (split; congruence).
  - nR. rewrite Reqb_true. split; congruence.
  - rewrite String.eqb_eq. split; congruence.
  - rewrite andb_true_iff, IHa1, IHa2. split; [intros (-> & ->); reflexivity|intros [= -> ->]; auto].
  - rewrite andb_true_iff, IHa1, IHa2. split; [intros (-> & ->); reflexivity|intros [= -> ->]; auto].
  - rewrite andb_true_iff, IHa1, IHa2. split; [intros (-> & ->); reflexivity|intros [= -> ->]; auto].
  - rewrite andb_true_iff, IHa, Nat.eqb_eq. split; [intros (-> & ->); reflexivity|intros [= -> ->]; auto].
Qed.
