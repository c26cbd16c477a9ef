(** Theorems C01-C07: jajapy/base/tools.py *)
From Coq Require Import Reals List Lra Lia ZArith.
From Verif Require Import Num Py SNum LSum MTools LTools.
Import ListNotations.
Local Open Scope R_scope.

(** C01: index [i] is returned exactly for the draws in the interval between the
    cumulated weights before and after [i] (an interval of length [m[i]]). *)
Theorem C01_resolveRandom_inverse_cdf : forall (m : list R) (r : R) (i : nat),
  nonneg m -> 0 <= r ->
  (resolveRandom m r = Ok i <->
   (i < length m)%nat /\ 0 < nth i m 0 /\
   (rsum (firstn i m) < r <= rsum (firstn i m) + nth i m 0
    \/ r = 0 /\ rsum (firstn i m) = 0)).
Proof. intros m r i N Hr. rewrite <- rsum_firstn_S. exact (resolveRandom_iff m r i N Hr). Qed.
Print Assumptions C01_resolveRandom_inverse_cdf.

(** Corollary: for a distribution and a draw in [0,1) an index is returned, in
    range, of positive probability. *)
Theorem C01_resolveRandom_total : forall (m : list R) (r : R),
  is_dist m -> 0 <= r < 1 ->
  exists i, resolveRandom m r = Ok i /\ (i < length m)%nat /\ 0 < nth i m 0.
Proof.
  intros m r [N S] Hr. destruct (resolveRandom m r) as [i|e] eqn:E.
  - exists i. split; [reflexivity|]. apply (resolveRandom_iff m r i N (proj1 Hr)) in E. tauto.
  - pose proof (resolveRandom_only_index m r e E) as ->.
    apply (resolveRandom_err m r N (proj1 Hr)) in E. lra.
Qed.
Print Assumptions C01_resolveRandom_total.

Example C01_instance : nonneg [0; 7/10; 0; 3/10] /\ resolveRandom [0; 7/10; 0; 3/10] (8/10) = Ok 3%nat
  /\ resolveRandom [0; 7/10; 0; 3/10] 0 = Ok 1%nat.
Proof.
  assert (N : nonneg [0; 7/10; 0; 3/10]) by (intros x [<-|[<-|[<-|[<-|[]]]]]; lra).
  split; [exact N|]. split; apply C01_resolveRandom_inverse_cdf; try exact N; try lra; cbn; repeat split; try lia; try lra.
Qed.

(** C02: the only failure is an IndexError, exactly when the draw exceeds the
    total weight or there is no weight. *)
Theorem C02_resolveRandom_failure : forall (m : list R) (r : R),
  nonneg m -> 0 <= r ->
  (forall e, resolveRandom m r = Err e -> e = IndexError) /\
  (resolveRandom m r = Err IndexError <-> rsum m < r \/ rsum m = 0).
Proof.
  intros m r N Hr. split; [intros e; apply resolveRandom_only_index|exact (resolveRandom_err m r N Hr)].
Qed.
Print Assumptions C02_resolveRandom_failure.

Example C02_instance : resolveRandom [1/2; 1/4] (9/10) = Err IndexError /\ resolveRandom [0; 0] (1/2) = Err IndexError.
Proof. split; apply C02_resolveRandom_failure; cbn; try lra; intros x [<-|[<-|[]]]; lra. Qed.

(** C04 *)
Theorem C04_normalize : forall l : list R, rsum l <> 0 ->
  length (normalize l) = length l /\ rsum (normalize l) = 1 /\
  forall i, (i < length l)%nat -> nth i (normalize l) 0 = nth i l 0 / rsum l.
Proof.
  intros l Z. split; [apply normalize_length|]. split; [apply normalize_sum, Z|]. intros i; apply normalize_nth.
Qed.
Print Assumptions C04_normalize.

Theorem C04_randomProbabilities_dist : forall (n : nat) (draws : list Z),
  (0 < n)%nat -> length draws = n -> (forall d, In d draws -> (1 <= d <= 10)%Z) ->
  exists p : list R, randomProbabilities (PyInt (Z.of_nat n)) draws = Ok p /\
    length p = n /\ (forall x, In x p -> 0 < x) /\ rsum p = 1.
Proof. exact randomProbabilities_ok. Qed.
Print Assumptions C04_randomProbabilities_dist.

Theorem C04_randomProbabilities_errors : forall draws (z : Z) (q : R),
  ((z <= 0)%Z -> randomProbabilities (K:=R) (PyInt z) draws = Err ValueError) /\
  (q <= 0 -> randomProbabilities (PyFlt q) draws = Err ValueError) /\
  (0 < q -> randomProbabilities (PyFlt q) draws = Err TypeError).
Proof.
  intros draws z q. unfold randomProbabilities. nR. split; [|split].
  - intros L. destruct (Z.leb_spec z 0); [reflexivity|lia].
  - intros L. apply Rleb_true in L. rewrite L. reflexivity.
  - intros L. apply Rleb_false in L. rewrite L. reflexivity.
Qed.
Print Assumptions C04_randomProbabilities_errors.

Example C04_instance : exists p : list R, randomProbabilities (PyInt 3) [1; 10; 5]%Z = Ok p /\ rsum p = 1 /\ length p = 3%nat.
Proof.
  destruct (C04_randomProbabilities_dist 3 [1; 10; 5]%Z) as [p (E & L & _ & S)]; try (cbn; lia); eauto.
Qed.

(** C05 *)
Theorem C05_checkProbabilities_rule : forall l : list R,
  checkProbabilities l = true <-> Rabs (rsum l - 1) <= 1/2000 \/ Rabs (rsum l) <= 1/2000.
Proof. exact checkProbabilities_iff. Qed.
Print Assumptions C05_checkProbabilities_rule.

(** C06 is false: a vector with a negative entry and one above 1 is accepted. *)
Theorem C06_checkProbabilities_refuted :
  exists l : list R, checkProbabilities l = true /\ (exists x, In x l /\ x < 0) /\ (exists x, In x l /\ 1 < x).
Proof.
  exists [2; -1]. split; [|split].
  - apply C05_checkProbabilities_rule. left. cbn. replace (2 + (-1 + 0) - 1) with 0 by lra. rewrite Rabs_R0; lra.
  - exists (-1). split; [right; left; reflexivity|lra].
  - exists 2. split; [left; reflexivity|lra].
Qed.
Print Assumptions C06_checkProbabilities_refuted.

(** For non-negative vectors, acceptance bounds each entry. *)
Theorem C06_checkProbabilities_partial : forall l : list R, nonneg l ->
  checkProbabilities l = true -> forall x, In x l -> 0 <= x <= 1 + 1/2000.
Proof.
  intros l N C x I. split; [apply N, I|].
  assert (x <= rsum l).
  { rewrite rsum_sumL. apply (sumL_ge_term l (fun x => x) x I). exact N. }
  apply C05_checkProbabilities_rule in C as [C|C]; revert C; unfold Rabs; destruct (Rcase_abs _); lra.
Qed.
Print Assumptions C06_checkProbabilities_partial.

Example C06_instance : nonneg [1/2; 1/2] /\ checkProbabilities [1/2; 1/2] = true.
Proof.
  split; [intros x [<-|[<-|[]]]; lra|]. apply C05_checkProbabilities_rule. left. cbn.
  replace (1/2 + (1/2 + 0) - 1) with 0 by lra. rewrite Rabs_R0; lra.
Qed.

(** C03 is false: a row accepted by the constructors (sum 0.9996) makes
    resolveRandom raise for some draw below 1. *)
Theorem C03_accepted_row_can_raise_refuted :
  exists (row : list R) (r : R), nonneg row /\ checkProbabilities row = true /\ 0 <= r < 1 /\
    resolveRandom row r = Err IndexError.
Proof.
  exists [9996/10000], (9999/10000).
  assert (N : nonneg [9996/10000]) by (intros x [<-|[]]; lra).
  split; [exact N|]. split.
  { apply C05_checkProbabilities_rule. left. cbn. apply Rabs_le. lra. }
  split; [lra|]. apply C02_resolveRandom_failure; [exact N|lra|]. left. cbn. lra.
Qed.
Print Assumptions C03_accepted_row_can_raise_refuted.

(** C07, on the domain where Python's sqrt and log do not raise. *)
Theorem C07_hoeffding_characterisation : forall f1 m1 f2 m2 alpha : R,
  0 <= m1 -> 0 <= m2 -> 0 < alpha <= 2 ->
  hoeffdingBound f1 m1 f2 m2 alpha = true <->
  m1 = 0 \/ m2 = 0 \/
  Rabs (f1 / m1 - f2 / m2) < (sqrt (1 / m1) + sqrt (1 / m2)) * sqrt (1 / 2 * ln (2 / alpha)).
Proof. intros. apply hoeffding_iff. Qed.
Print Assumptions C07_hoeffding_characterisation.

Theorem C07_hoeffding_symmetric : forall f1 m1 f2 m2 alpha : R,
  hoeffdingBound f1 m1 f2 m2 alpha = hoeffdingBound f2 m2 f1 m1 alpha.
Proof. exact hoeffding_sym. Qed.
Print Assumptions C07_hoeffding_symmetric.

Theorem C07_hoeffding_equal_frequencies : forall f1 m1 f2 m2 alpha : R,
  0 < m1 -> 0 < m2 -> f1 / m1 = f2 / m2 -> 0 < alpha < 2 ->
  hoeffdingBound f1 m1 f2 m2 alpha = true.
Proof. exact hoeffding_equal. Qed.
Print Assumptions C07_hoeffding_equal_frequencies.

Theorem C07_hoeffding_monotone : forall f1 m1 f2 m2 a b : R,
  0 < m1 -> 0 < m2 -> 0 < b -> b <= a -> a < 2 ->
  hoeffdingBound f1 m1 f2 m2 a = true -> hoeffdingBound f1 m1 f2 m2 b = true.
Proof. exact hoeffding_mono. Qed.
Print Assumptions C07_hoeffding_monotone.

Example C07_instance : hoeffdingBound 1 2 50 100 (1/10) = true.
Proof. apply C07_hoeffding_equal_frequencies; lra. Qed.
